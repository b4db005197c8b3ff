(** * The kernel between API calls: creation, references, the operations *)
From Coq Require Import List Bool ZArith Lia.
From Verif Require Import Spec Factory Bdd BddTable BddNode BddSem BddQuant.
Import ListNotations.
Local Open Scope Z_scope.

(** The variable [i] has the two nodes of its literals, which are never collected. *)
Definition varnode (k : kernel) (i : Z) : Prop :=
  let p := varnodes k (2 * i) in let q := varnodes k (2 * i + 1) in
  (live k p /\ refcou k p = maxref /\ levels k p = var2level k i /\ lows k p = 0 /\ highs k p = 1) /\
  (live k q /\ refcou k q = maxref /\ levels k q = var2level k i /\ lows k q = 1 /\ highs k q = 0).
Record kinv (k : kernel) : Prop := {
  ki_op : opinv (varnum k) k;
  ki_q : qinv (varnum k) k;
  ki_perm : forall i, 0 <= i < varnum k -> 0 <= var2level k i < varnum k /\ level2var k (var2level k i) = i;
  ki_perm' : forall l, 0 <= l < varnum k -> 0 <= level2var k l < varnum k /\ var2level k (level2var k l) = l;
  ki_vars : forall i, 0 <= i < varnum k -> varnode k i;
  ki_ref : forall n, refcou k n <= maxref;
  ki_vlist : NoDup (vlist k) /\ Z.of_nat (List.length (vlist k)) <= varnum k }.

(** ** Creation *)
Lemma chain_up size m : 2 <= m <= size -> exists l, chain (fun n => if n =? size - 1 then 0 else n + 1) (if m =? size then 0 else m) l /\ NoDup l /\
  (forall n, In n l <-> m <= n < size) /\ Z.of_nat (List.length l) = size - m.
Proof.
  intros H. remember (Z.to_nat (size - m)) as d eqn:Hd. revert m H Hd. induction d as [|d IH]; intros m H Hd.
  - replace (m =? size) with true by (symmetry; apply Z.eqb_eq; lia). exists []. split; [constructor|]. split; [constructor|]. split; [|cbn; lia]. intros n; cbn; lia.
  - replace (m =? size) with false by (symmetry; apply Z.eqb_neq; lia). destruct (IH (m + 1)) as (l & C & N & I & L); [lia|lia|]. exists (m :: l).
    split; [constructor; [lia|]|split; [constructor; auto; rewrite I; lia|split; [|cbn [List.length]; lia]]].
    + replace (if m =? size - 1 then 0 else m + 1) with (if m + 1 =? size then 0 else m + 1); auto. destruct (Z.eqb_spec (m + 1) size), (Z.eqb_spec m (size - 1)); auto; lia.
    + intros n. cbn. rewrite I. lia.
Qed.
Lemma empty_core num size csize g : 0 <= num -> 3 <= size -> 1 <= csize -> (forall i n, n <= g i n) ->
  core num (emptyKernel num size csize g) /\ tab 2 (emptyKernel num size csize g).
Proof.
  intros Hn Hs Hc Hg. set (k := emptyKernel num size csize g).
  assert (NL : forall n, ~ live k n). { intros n [L1 L2]. apply L2. cbn. destruct (Z.ltb_spec n 2); auto; lia. }
  assert (LO : forall n, 2 <= n -> lows k n = -1). { intros n H. cbn. destruct (Z.ltb_spec n 2); auto; lia. }
  split.
  - constructor; auto; try (intros n L; elim (NL n L)).
    + intros n H _. cbn. destruct (Z.ltb_spec n 2); auto; lia.
    + intros n. cbn. destruct (n <? 2); unfold maxref; lia.
    + intros n m L. elim (NL n L).
    + constructor.
  - constructor.
    + intros h Hh. exists []. split; [constructor|]. split; [constructor|]. intros n. split; [intros []|]. intros (H1 & H2 & _). rewrite LO in H2 by lia. congruence.
    + destruct (chain_up size 2) as (l & C & N & I & L); [lia|]. exists l. split; [|split; [auto|split]].
      * replace (2 =? size) with false in C by (symmetry; apply Z.eqb_neq; lia). exact C.
      * intros n. rewrite I. split; [intros H; split; auto; apply LO; lia|tauto].
      * cbn. lia.
Qed.

Lemma chain_ref vn k n v : core vn k -> live k n -> 0 <= v -> core vn (with_refcou (upd (refcou k) n v) k).
Proof.
  intros [A1 A2 A3 A4 A5 A6 A7 A8 A9 A10 A11 A12] L Hv. constructor; auto.
  - intros m H1 H2. cbn. unfold upd. destruct (Z.eqb_spec m n); [subst; contradiction|]. apply A7; auto.
  - intros m. cbn. unfold upd. destruct (m =? n); auto.
Qed.
Lemma upd2 {A} (f : Z -> A) i v j : i <> j -> upd f i v j = f j.
Proof. intros H. unfold upd. destruct (Z.eqb_spec j i); auto; congruence. Qed.
Lemma upd1 {A} (f : Z -> A) i v : upd f i v i = v.
Proof. unfold upd. rewrite Z.eqb_refl. auto. Qed.
Lemma kept_cleared' k k' : kept k k' -> cleared k -> cleared k'.
Proof. intros [(_ & E1 & E2 & E3)|C] H; auto. intros i. rewrite E1, E2, E3. apply H. Qed.
Lemma frame_varnode k k' i : frame k k' -> varnode k i -> varnode k' i.
Proof.
  intros F. pose proof (f_static _ _ F) as E. unfold static in E. assert (E1 : varnodes k' = varnodes k) by congruence. assert (E2 : var2level k' = var2level k) by congruence. clear E.
  unfold varnode. cbv zeta. rewrite E1, E2. intros ((P1 & P2 & P3 & P4 & P5) & (Q1 & Q2 & Q3 & Q4 & Q5)).
  destruct (f_prot _ _ F (varnodes k (2 * i))) as (L & X1 & X2 & X3); [apply p_root; auto; right; rewrite P2; unfold maxref; lia|].
  destruct (f_prot _ _ F (varnodes k (2 * i + 1))) as (L' & Y1 & Y2 & Y3); [apply p_root; auto; right; rewrite Q2; unfold maxref; lia|].
  rewrite !(f_ref _ _ F), X1, X2, X3, Y1, Y2, Y3. auto 12.
Qed.

(** the state of the loop that creates the variables *)
Record building (num v : Z) (k : kernel) : Prop := {
  bu_core : core num k; bu_tab : tab 2 k; bu_clear : cleared k; bu_num : varnum k = v; bu_stack : refstack k = [];
  bu_vl : vlist k = []; bu_ref : forall n, refcou k n <= maxref;
  bu_perm : forall i, 0 <= i < v -> level2var k i = i /\ var2level k i = i;
  bu_vars : forall i, 0 <= i < v -> varnode k i }.
Lemma addVariable_ok num v k : building num v k -> 0 <= v < num -> kwp (addVariable v) (fun _ k' => building num (v + 1) k') k.
Proof.
  intros [C T Cl En St Vl Rf Pm Vs] Hv. unfold addVariable.
  assert (L0 : forall k, lv num k 0 = num) by reflexivity. assert (L1 : forall k, lv num k 1 = num) by reflexivity.
  eapply kwp_bind'; [apply makeNode_ok with (vn := num); auto; [unfold pv; auto|unfold pv; auto|rewrite L0; lia|rewrite L1; lia]|].
  intros n k1 (C1 & T1 & F1 & K1 & N1). destruct N1 as [[? _]|(_ & Ln & Lvn & Lon & Hin)]; [lia|].
  pose proof (c_cap _ _ C1) as Cap. pose proof (frame_stack _ _ F1) as St1. rewrite St in St1.
  apply kwp_bind, kwp_push; [rewrite St1; cbn [List.length]; lia|]. apply kwp_bind, kwp_modify.
  match goal with |- kwp _ _ ?x => set (k2 := x) end.
  assert (C2 : core num k2). { revert C1. apply core_ext; auto. cbn. rewrite St1. constructor; auto. right; right; auto. }
  assert (T2 : tab 2 k2) by (revert T1; apply tab_ext; reflexivity).
  assert (Pn : prot k2 n). { apply p_root; [exact Ln|left; left; auto]. }
  assert (F2 : forall m, prot k1 m -> prot k2 m).
  { intros m Hm. induction Hm as [m H1 H2|m Hp IH H2|m Hp IH H2]; [apply p_root; auto|apply (p_low k2 m); auto|apply (p_high k2 m); auto].
    destruct H2; [left; right; auto|right; auto]. }
  eapply kwp_bind'; [apply makeNode_ok with (vn := num); auto; [unfold pv; auto|unfold pv; auto|rewrite L1; lia|rewrite L0; lia]|].
  intros m k3 (C3 & T3 & F3 & K3 & N3). destruct N3 as [[? _]|(_ & Lm & Lvm & Lom & Him)]; [lia|].
  destruct (f_prot _ _ F3 n Pn) as (Ln3 & S1 & S2 & S3). change (levels k2 n) with (levels k1 n) in S1. change (lows k2 n) with (lows k1 n) in S2. change (highs k2 n) with (highs k1 n) in S3.
  pose proof (f_static _ _ F3) as E3. pose proof (f_static _ _ F1) as E1.
  apply kwp_bind, kwp_modify. apply kwp_bind. unfold popref. apply kwp_modify. unfold setRefcou.
  apply kwp_bind, kwp_wr; [destruct Ln3; cbn; lia|]. apply kwp_bind, kwp_wr; [destruct Lm; cbn; lia|].
  apply kwp_bind, kwp_modify. apply kwp_bind, kwp_modify. apply kwp_modify.
  match goal with |- building _ _ ?x => set (kf := x) end.
  assert (Est : refstack k3 = [n]) by (rewrite (frame_stack _ _ F3); cbn; rewrite St1; auto).
  assert (G1 : nodesize kf = nodesize k3) by reflexivity. assert (G2 : lows kf = lows k3) by reflexivity. assert (G3 : highs kf = highs k3) by reflexivity.
  assert (G4 : levels kf = levels k3) by reflexivity.
  assert (G5 : refcou kf = upd (upd (refcou k3) n maxref) m maxref) by reflexivity.
  assert (G6 : refstack kf = []) by (change (refstack kf) with (skipn 1 (refstack k3)); rewrite Est; auto).
  assert (G7 : applycache kf = applycache k3 /\ quantcache kf = quantcache k3 /\ misccache kf = misccache k3) by (repeat split; reflexivity).
  assert (G8 : varnodes kf = upd (upd (varnodes k) (2 * v) n) (2 * v + 1) m).
  { change (varnodes kf) with (upd (varnodes k3) (2 * v + 1) m). f_equal. transitivity (varnodes k2); [unfold static in E3; congruence|]. change (varnodes k2) with (upd (varnodes k1) (2 * v) n). f_equal. unfold static in E1; congruence. }
  assert (G9 : level2var kf = upd (level2var k) v v). { change (level2var kf) with (upd (level2var k3) v v). f_equal. transitivity (level2var k2); [unfold static in E3; congruence|]; change (level2var k2) with (level2var k1); unfold static in E1; congruence. }
  assert (G10 : var2level kf = upd (var2level k) v v). { change (var2level kf) with (upd (var2level k3) v v). f_equal. transitivity (var2level k2); [unfold static in E3; congruence|]; change (var2level k2) with (var2level k1); unfold static in E1; congruence. }
  assert (G11 : vlist kf = []). { transitivity (vlist k1); [|transitivity (vlist k)]; [| |auto]. change (vlist kf) with (vlist k3). transitivity (vlist k2); [unfold static in E3; congruence|reflexivity]. unfold static in E1; congruence. }
  assert (Cf : core num kf).
  { pose proof (chain_ref num k3 n maxref C3 Ln3 ltac:(unfold maxref; lia)) as X.
    pose proof (chain_ref num _ m maxref X Lm ltac:(unfold maxref; lia)) as Y. revert Y. apply core_ext; try reflexivity. rewrite G6. constructor. }
  assert (Tf : tab 2 kf) by (revert T3; apply tab_ext; reflexivity).
  assert (G12 : varnum kf = v + 1) by reflexivity.
  assert (Rk3 : forall x, refcou k3 x = refcou k x). { intros x. rewrite (f_ref _ _ F3). change (refcou k2 x) with (refcou k1 x). apply F1. }
  clearbody kf. constructor; auto.
  - destruct G7 as (Y1 & Y2 & Y3). intros i. rewrite Y1, Y2, Y3. apply (kept_cleared' _ _ K3). apply (kept_cleared' _ _ K1 Cl).
  - intros x. rewrite G5. unfold upd. destruct (x =? m), (x =? n); auto; try lia. rewrite Rk3; auto.
  - intros i Hi. rewrite G9, G10. unfold upd. destruct (Z.eqb_spec i v); auto. apply Pm. lia.
  - intros i Hi. assert (LI : forall x, live kf x <-> live k3 x) by (intros x; unfold live; rewrite G1, G2; tauto). unfold varnode. cbv zeta. rewrite !LI, G2, G3, G4, G5, G8, G10.
    destruct (Z.eq_dec i v) as [->|Nv].
    + rewrite (upd2 _ (2 * v + 1)) by lia. rewrite !upd1. rewrite S1, S2, S3.
      split; (split; [assumption|split; [unfold upd; rewrite ?Z.eqb_refl; destruct (n =? m); auto|auto]]).
    + rewrite !(upd2 _ _ _ (2 * i)) by lia. rewrite !(upd2 _ _ _ (2 * i + 1)) by lia. rewrite (upd2 (var2level k)) by lia.
      assert (V1 : varnode k1 i) by (eapply frame_varnode; eauto; apply Vs; lia).
      assert (V2 : varnode k2 i).
      { unfold varnode in *. cbv zeta in *. change (varnodes k2) with (upd (varnodes k1) (2 * v) n). rewrite !(upd2 _ (2 * v)) by lia. exact V1. }
      pose proof (frame_varnode _ _ _ F3 V2) as V3. unfold varnode in V3. cbv zeta in V3.
      assert (EV : varnodes k3 = upd (varnodes k1) (2 * v) n) by (transitivity (varnodes k2); [unfold static in E3; congruence|reflexivity]).
      rewrite EV in V3. rewrite !(upd2 _ (2 * v)) in V3 by lia. assert (EW : varnodes k1 = varnodes k) by (unfold static in E1; congruence).
      assert (EX : var2level k3 = var2level k) by (transitivity (var2level k2); [unfold static in E3; congruence|]; change (var2level k2) with (var2level k1); unfold static in E1; congruence).
      rewrite EW, EX in V3. destruct V3 as ((P1 & P2 & P3) & (Q1 & Q2 & Q3)).
      split; (split; [assumption|split; [|assumption]]); unfold upd; repeat (match goal with |- context [if ?c then _ else _] => destruct c end; auto).
Qed.
Lemma newKernel_ok num size csize g : 0 <= num <= maxvar -> 3 <= size -> 1 <= csize -> (forall i n, n <= g i n) ->
  kwp (setNumberOfVars num) (fun _ k => kinv k /\ varnum k = num /\ vlist k = [] /\ refstack k = []) (emptyKernel num size csize g).
Proof.
  intros Hn Hs Hc Hg. unfold setNumberOfVars. replace ((num <? 0) || (maxvar <? num)) with false by (symmetry; apply orb_false_iff; split; apply Z.ltb_ge; lia).
  apply kwp_bind. destruct (empty_core num size csize g) as [C T]; auto; try lia.
  apply kwp_for_up with (I := fun v k => building num v k).
  - constructor; auto; cbn; auto; try lia.
    + intros i. auto.
    + intros n. destruct (n <? 2); unfold maxref; lia.
  - intros v k Hv B. apply addVariable_ok; auto. lia.
  - intros k B. rewrite Z2Nat.id in B by lia. replace (0 + num) with num in B by lia. destruct B as [C' T' Cl En St Vl Rf Pm Vs]. pose proof (c_size _ _ C') as Sz. unfold setLevel.
    apply kwp_bind, kwp_wr; [lia|]. apply kwp_bind, kwp_wr; [cbn; lia|]. apply kwp_bind, kwp_modify. apply kwp_bind, kwp_modify. apply kwp_bind, kwp_modify. apply kwp_modify.
    match goal with |- kinv ?x /\ _ => set (kf := x) end.
    assert (GL : levels kf = upd (upd (levels k) 0 num) 1 num) by reflexivity.
    assert (GL' : forall n, 2 <= n -> levels kf n = levels k n) by (intros n H; rewrite GL, !upd2 by lia; auto).
    assert (G2 : lows kf = lows k) by reflexivity. assert (G3 : highs kf = highs k) by reflexivity. assert (G1 : nodesize kf = nodesize k) by reflexivity.
    assert (LVE : forall n, lv num kf n = lv num k n). { intros n. unfold lv. destruct (Z.ltb_spec n 2); auto. }
    assert (LI : forall n, live kf n <-> live k n) by (intros n; unfold live; rewrite G1, G2; tauto).
    assert (VA : forall n, valid kf n <-> valid k n) by (intros n; unfold valid; rewrite LI; tauto).
    assert (Cf : core num kf).
    { destruct C' as [A1 A2 A3 A4 A5 A6 A7 A8 A9 A10 A11 A12]. constructor; auto.
      - intros n L. rewrite !VA, !LVE, G2, G3. apply LI in L. rewrite GL' by (destruct L; lia). apply A5; auto.
      - intros n m Ln Lm. apply LI in Ln, Lm. rewrite G2, G3, !GL' by (try (destruct Ln; lia); destruct Lm; lia). apply A9; auto. }
    assert (Tf : tab 2 kf).
    { destruct T' as [A B]. constructor; auto. intros h Hh. destruct (A h Hh) as (l & X1 & X2 & X3). exists l. split; auto. split; auto. intros n. rewrite X3.
      unfold hk. rewrite G1, G2, G3. split; intros (Y1 & Y2 & Y3); (split; [auto|split; [auto|]]); [rewrite GL' by lia|rewrite GL' in Y3 by lia]; auto. }
    assert (G12 : varnum kf = num) by exact En.
    assert (P1 : level2var kf = upd (level2var k) num num) by reflexivity. assert (P2 : var2level kf = upd (var2level k) num num) by reflexivity.
    split; [|split; [auto|split; [exact Vl|exact St]]]. constructor; rewrite ?G12.
    + constructor; [auto|auto| |].
      * constructor; intros i N; destruct (Cl i) as (X & Y & Z); contradiction.
      * rewrite GL. split; reflexivity.
    + split; [cbn; lia|]. intros l. cbn. lia.
    + intros i Hi. rewrite P1, P2, (upd2 (var2level k)) by lia. destruct (Pm i Hi) as [X Y]. rewrite Y, upd2 by lia. auto.
    + intros i Hi. rewrite P1, P2, (upd2 (level2var k)) by lia. destruct (Pm i Hi) as [X Y]. rewrite X, upd2 by lia. auto.
    + intros i Hi. pose proof (Vs i Hi) as V. unfold varnode in *. cbv zeta in *. rewrite !LI, G2, G3, P2, (upd2 (var2level k)) by lia.
      change (varnodes kf) with (varnodes k). change (refcou kf) with (refcou k). destruct V as ((Q1 & Q2) & (Q3 & Q4)).
      rewrite !GL' by (try (destruct Q1; lia); destruct Q3; lia). auto.
    + exact Rf.
    + change (vlist kf) with (vlist k). rewrite Vl. split; [constructor|cbn; lia].
Qed.
