(** * Correctness of the modular totalizer *)

From Coq Require Import String List Bool Arith ZArith Lia.
From Verif Require Import EncSpec EncAmo EncLemmas EncAmoProofs EncCc EncTotProofs.
Import ListNotations.

Lemma scope_real : forall n l, lscope n l -> real l = true /\ isH0 l = false.
Proof. intros n [v b] H; unfold lscope in H; destruct v; simpl in *; tauto. Qed.

Section Mod.
Variable md R : nat.
Hypothesis Hmd : 2 <= md.
Hypothesis HR : 1 <= R.
Hypothesis HmR : md <= R + 1.

Definition cm : nat := R / md + (if R mod md =? 0 then 0 else 1).

Lemma cm_spec : R <= cm * md /\ (cm - 1) * md < R /\ 1 <= cm.
Proof.
  unfold cm; pose proof (Nat.div_mod R md ltac:(lia)) as E; pose proof (Nat.mod_upper_bound R md ltac:(lia)).
  destruct (Nat.eqb_spec (R mod md) 0) as [Z|Z].
  - rewrite Nat.add_0_r. assert (1 <= R / md) by (destruct (R / md); lia).
    repeat split; try nia.
  - repeat split; try nia.
Qed.

Lemma dm : forall v, v = md * (v / md) + v mod md /\ v mod md < md.
Proof. intros v; split; [apply Nat.div_mod; lia | apply Nat.mod_upper_bound; lia]. Qed.

(** The upper variables of a node with [m] inputs, and its lower ones. *)
Definition uppers (n : ctr) (m : nat) (ub : list elit) : Prop :=
  (m < md /\ ub <> [] /\ forall x, In x ub -> x = h0) \/
  (md <= m /\ length ub = m / md /\ scoped n ub).

Definition lowers (n : ctr) (m : nat) (lw : list elit) : Prop :=
  length lw = Nat.min m (md - 1) /\ scoped n lw.

Lemma uppers_real : forall n m ub, uppers n m ub -> negb (isH0 (at_ ub 0)) = (md <=? m).
Proof.
  intros n m ub [[H1 [H2 H3]]|[H1 [H2 H3]]].
  - destruct ub as [|x ub]; [congruence|]; rewrite at_0, (H3 x) by now left.
    simpl; symmetry; apply Nat.leb_gt; exact H1.
  - assert (1 <= m / md) by (apply Nat.div_le_lower_bound; lia).
    destruct (scope_real n (at_ ub 0)) as [_ ->]; [apply scoped_at; [exact H3 | lia]|].
    simpl; symmetry; apply Nat.leb_le; exact H1.
Qed.

(** The [i]-th upper literal, if [i > 0], exists and is true. *)
Definition pre (a : env) (m : nat) (u : list elit) (i : nat) : Prop :=
  i = 0 \/ (md <= m /\ 1 <= i <= m / md /\ lval a (at_ u (i - 1)) = true).

(** The clauses of [finalAdder] for one pair [(i, j)]. *)
Definition optNeg (u : list elit) (i : nat) : list elit :=
  let a := if i =? 0 then errL else at_ u (i - 1) in if real a then [neg a] else [].

Lemma optNeg_pre : forall n a m u i, uppers n m u -> pre a m u i -> i <= length u /\
  forall l, In l (optNeg u i) -> lval a l = false.
Proof.
  intros n a m u i Hu Hp; unfold optNeg; destruct Hp as [->|[H1 [H2 H3]]].
  - split; [lia|]; intros l [].
  - destruct Hu as [[C _]|[U1 [U2 U3]]]; [lia|]; split; [lia|].
    destruct (Nat.eqb_spec i 0); [lia|].
    destruct (scope_real n (at_ u (i - 1))) as [-> _]; [apply scoped_at; [exact U3 | lia]|].
    intros l [<-|[]]; rewrite lval_neg, H3; reflexivity.
Qed.

Lemma finalAdder_pair : forall a n m upper ml lupper mr rupper carry i j,
  uppers n m upper -> md <= m -> uppers n ml lupper -> uppers n mr rupper ->
  sat a (finalAdder md R upper lupper rupper carry) ->
  pre a ml lupper i -> pre a mr rupper j -> i + j <= cm ->
  (1 <= i + j <= m / md -> lval a (at_ upper (i + j - 1)) = true) /\
  (lval a carry = true -> i + j < m / md -> lval a (at_ upper (i + j)) = true) /\
  (lval a carry = true -> 1 <= i + j -> m / md <= i + j -> False).
Proof.
  intros a n m upper ml lupper mr rupper carry i j Hu Hm Hl Hr Hsat Pi Pj Hij.
  destruct (optNeg_pre n a ml lupper i Hl Pi) as [Bi Ni].
  destruct (optNeg_pre n a mr rupper j Hr Pj) as [Bj Nj].
  destruct Hu as [[C _]|[_ [Lu Su]]]; [lia|].
  unfold finalAdder in Hsat; rewrite sat_flat_map in Hsat.
  specialize (Hsat i ltac:(apply in_seq; lia)); rewrite sat_flat_map in Hsat.
  specialize (Hsat j ltac:(apply in_seq; lia)); cbv zeta in Hsat; fold cm in Hsat.
  destruct (Nat.ltb_spec (cm * md) (md * (i + j))); [nia|].
  fold (optNeg lupper i) in Hsat; fold (optNeg rupper j) in Hsat.
  assert (Nil : forall c, csat a (optNeg lupper i ++ optNeg rupper j ++ c) -> csat a c).
  { intros c Hc; rewrite !csat_app in Hc; destruct Hc as [[l [I V]]|[[l [I V]]|Hc]]; [ | |exact Hc].
    - rewrite (Ni l I) in V; discriminate.
    - rewrite (Nj l I) in V; discriminate. }
  assert (Len : 1 <= i + j -> 1 <= length (optNeg lupper i ++ optNeg rupper j)).
  { intros H1; rewrite app_length; unfold optNeg.
    destruct Pi as [->|[P1 [P2 _]]].
    - destruct Pj as [->|[Q1 [Q2 _]]]; [lia|].
      destruct Hr as [[C _]|[_ [Lr Sr]]]; [lia|].
      destruct (Nat.eqb_spec j 0); [lia|].
      destruct (scope_real n (at_ rupper (j - 1))) as [-> _]; [apply scoped_at; [exact Sr | lia]|]; simpl; lia.
    - destruct Hl as [[C _]|[_ [Ll Sl]]]; [lia|].
      destruct (Nat.eqb_spec i 0); [lia|].
      destruct (scope_real n (at_ lupper (i - 1))) as [-> _]; [apply scoped_at; [exact Sl | lia]|]; simpl; lia. }
  apply sat_app in Hsat as [Hc Hd]; split; [|split].
  - intros Hb; clear Hd.
    destruct (Nat.eqb_spec (i + j) 0); [lia|]; cbn [negb andb] in Hc.
    destruct (Nat.ltb_spec (i + j - 1) (length upper)); [|lia].
    destruct (scope_real n (at_ upper (i + j - 1))) as [Er _]; [apply scoped_at; [exact Su | lia]|].
    rewrite Er in Hc.
    destruct (Nat.ltb_spec 1 (length (optNeg lupper i ++ optNeg rupper j ++ [at_ upper (i + j - 1)]))) as [_|Hlen].
    + apply sat1 in Hc; apply Nil in Hc; now apply csat1.
    + exfalso; rewrite app_assoc, app_length in Hlen; simpl in Hlen; specialize (Len ltac:(lia)); lia.
  - intros Hcar Hlt; clear Hc.
    destruct (Nat.ltb_spec (i + j) (length upper)); [|lia].
    destruct (scope_real n (at_ upper (i + j))) as [Er _]; [apply scoped_at; [exact Su | lia]|].
    rewrite Er in Hd; cbn [app length] in Hd.
    destruct (Nat.ltb_spec 1 (S (length (optNeg lupper i ++ optNeg rupper j ++ [at_ upper (i + j)])))) as [_|Hlen].
    + apply sat1 in Hd; rewrite csat_cons, lval_neg_true in Hd; destruct Hd as [Hd|Hd]; [congruence|].
      apply Nil in Hd; now apply csat1.
    + exfalso; rewrite !app_length in Hlen; simpl in Hlen; lia.
  - intros Hcar H1 Hge; clear Hc.
    destruct (Nat.ltb_spec (i + j) (length upper)); [lia|].
    change (real errL) with false in Hd; cbv iota in Hd; rewrite app_nil_r in Hd; cbn [app length] in Hd.
    specialize (Len H1).
    destruct (Nat.ltb_spec 1 (S (length (optNeg lupper i ++ optNeg rupper j)))) as [_|Hlen]; [|lia].
    apply sat1 in Hd; rewrite csat_cons, lval_neg_true in Hd; destruct Hd as [Hd|Hd]; [congruence|].
    rewrite <- (app_nil_r (optNeg rupper j)) in Hd; apply Nil in Hd; now apply csat_nil in Hd.
Qed.

(** The clauses on the lower variables. *)
Definition preL (a : env) (lw : list elit) (i : nat) : Prop :=
  i = 0 \/ (1 <= i <= length lw /\ lval a (at_ lw (i - 1)) = true).

Definition carryOf (m : nat) (n : ctr) : elit := if md <=? m then at_ (auxs ACC 1 n) 0 else h0.

Lemma mtAdder_unfold : forall n' m ub lw lu ll ru rl n, uppers n' m ub ->
  mtAdder md R ub lw lu ll ru rl n =
  (flat_map (fun i => flat_map (fun j =>
     if i + j <? md then
       if (i =? 0) && (j =? 0) then []
       else [(if i =? 0 then [] else [neg (at_ ll (i - 1))]) ++
             (if j =? 0 then [] else [neg (at_ rl (j - 1))]) ++
             [at_ lw (i + j - 1)] ++ (if md <=? m then [carryOf m n] else [])]
     else if md <? i + j then
       [[neg (at_ ll (i - 1)); neg (at_ rl (j - 1)); at_ lw ((i + j) mod md - 1)]]
     else [[neg (at_ ll (i - 1)); neg (at_ rl (j - 1)); carryOf m n]])
    (seq 0 (S (length rl)))) (seq 0 (S (length ll)))
   ++ (if md <=? m then finalAdder md R ub lu ru (carryOf m n) else []),
   if md <=? m then bump ACC 1 n else n).
Proof.
  intros n' m ub lw lu ll ru rl n Hu; unfold mtAdder; rewrite (uppers_real n' m ub Hu).
  unfold carryOf; f_equal; f_equal.
  - apply flat_map_ext; intros i; apply flat_map_ext; intros j.
    assert (E : (R + 1 <? md) = false) by (apply Nat.ltb_ge; lia); rewrite E, andb_false_r.
    destruct (i + j <? md); [|reflexivity].
    destruct (Nat.eqb_spec i 0), (Nat.eqb_spec j 0); cbn [negb andb]; reflexivity.
Qed.

Lemma mtAdder_low_pair : forall a n' m ub lw lu ll ru rl n i j,
  uppers n' m ub -> sat a (fst (mtAdder md R ub lw lu ll ru rl n)) ->
  length ll <= md - 1 -> length rl <= md - 1 -> preL a ll i -> preL a rl j ->
  (1 <= i + j < md -> lval a (at_ lw (i + j - 1)) = true \/ (md <= m /\ lval a (carryOf m n) = true)) /\
  (md < i + j -> lval a (at_ lw (i + j - md - 1)) = true) /\
  (i + j = md -> lval a (carryOf m n) = true).
Proof.
  intros a n' m ub lw lu ll ru rl n i j Hu Hs Ll Lr Pi Pj.
  rewrite (mtAdder_unfold n' m ub lw lu ll ru rl n Hu) in Hs; cbn [fst] in Hs.
  apply sat_app in Hs as [Hs _]; rewrite sat_flat_map in Hs.
  assert (Bi : i <= length ll) by (destruct Pi as [->|[? _]]; lia).
  assert (Bj : j <= length rl) by (destruct Pj as [->|[? _]]; lia).
  specialize (Hs i ltac:(apply in_seq; lia)); rewrite sat_flat_map in Hs.
  specialize (Hs j ltac:(apply in_seq; lia)).
  split; [|split].
  - intros Hij; destruct (Nat.ltb_spec (i + j) md); [|lia].
    assert (E : (i =? 0) && (j =? 0) = false).
    { destruct (Nat.eqb_spec i 0), (Nat.eqb_spec j 0); try reflexivity; lia. }
    rewrite E in Hs; apply sat1 in Hs; rewrite !csat_app in Hs.
    destruct Hs as [Hs|[Hs|[Hs|Hs]]].
    + exfalso; destruct (Nat.eqb_spec i 0); [now apply csat_nil in Hs|].
      apply csat1, lval_neg_true in Hs; destruct Pi as [?|[_ V]]; [lia | congruence].
    + exfalso; destruct (Nat.eqb_spec j 0); [now apply csat_nil in Hs|].
      apply csat1, lval_neg_true in Hs; destruct Pj as [?|[_ V]]; [lia | congruence].
    + left; now apply csat1.
    + right; destruct (Nat.leb_spec md m); [|now apply csat_nil in Hs].
      split; [assumption | now apply csat1].
  - intros Hij; destruct (Nat.ltb_spec (i + j) md); [lia|].
    destruct (Nat.ltb_spec md (i + j)); [|lia].
    apply sat1 in Hs; rewrite csat3 in Hs.
    destruct Pi as [->|[_ V]]; [lia|]; destruct Pj as [->|[_ W]]; [lia|].
    replace ((i + j) mod md) with (i + j - md) in Hs; [auto|].
    rewrite <- (Nat.mod_small (i + j - md) md) by lia.
    replace (i + j) with ((i + j - md) + 1 * md) at 2 by lia; now rewrite Nat.mod_add by lia.
  - intros Hij; destruct (Nat.ltb_spec (i + j) md); [lia|].
    destruct (Nat.ltb_spec md (i + j)); [lia|].
    apply sat1 in Hs; rewrite csat3 in Hs.
    destruct Pi as [->|[_ V]]; [lia|]; destruct Pj as [->|[_ W]]; [lia|]; auto.
Qed.

(** ** Values represented by a node *)

Definition has (a : env) (m : nat) (ub lw : list elit) (v : nat) : Prop :=
  v <= m /\ (forall i, i <= v / md -> pre a m ub i) /\ (forall i, i <= v mod md -> preL a lw i).

Definition over (a : env) (m : nat) (ub : list elit) : Prop :=
  cm <= m / md /\ forall i, i <= cm -> pre a m ub i.

Definition low (a : env) (m : nat) (ub lw : list elit) (k : nat) : Prop :=
  (exists v, k <= v /\ has a m ub lw v) \/ over a m ub.

Definition exact (a : env) (m : nat) (ub lw : list elit) (v : nat) : Prop :=
  (md <= m -> forall i, i < m / md -> lval a (at_ ub i) = (i <? v / md)) /\
  (forall i, i < length lw -> lval a (at_ lw i) = (i <? v mod md)).

Lemma div_mono : forall x y, x <= y -> x / md <= y / md.
Proof. intros; apply Nat.div_le_mono; lia. Qed.

Lemma mtAdder_low : forall a n' m ub lw ml lu ll mr ru rl n kl kr,
  m = ml + mr -> uppers n' m ub -> lowers n' m lw ->
  uppers n' ml lu -> lowers n' ml ll -> uppers n' mr ru -> lowers n' mr rl ->
  sat a (fst (mtAdder md R ub lw lu ll ru rl n)) ->
  low a ml lu ll kl -> low a mr ru rl kr -> low a m ub lw (kl + kr).
Proof.
  intros a n' m ub lw ml lu ll mr ru rl n kl kr Hm Hu Hw Hlu Hll Hru Hrl Hs Low1 Low2.
  pose proof cm_spec as [CM1 [CM2 CM3]].
  assert (HF : md <= m -> sat a (finalAdder md R ub lu ru (carryOf m n))).
  { intros H; rewrite (mtAdder_unfold n' m ub lw lu ll ru rl n Hu) in Hs; cbn [fst] in Hs.
    apply sat_app in Hs as [_ Hs]; destruct (Nat.leb_spec md m); [exact Hs | lia]. }
  (* upper literals reachable without a carry *)
  assert (Up : forall p q, (forall i, i <= p -> pre a ml lu i) -> (forall i, i <= q -> pre a mr ru i) ->
               p + q <= m / md -> forall i, i <= p + q -> i <= cm -> pre a m ub i).
  { intros p q Pp Pq Hpq i Hi Hc; destruct i as [|i]; [now left | right].
    assert (1 <= m / md) by lia.
    assert (Hmm : md <= m) by (destruct (Nat.le_gt_cases md m); [assumption | rewrite Nat.div_small in *; lia]).
    split; [exact Hmm|]; split; [lia|].
    set (x := Nat.min (S i) p).
    destruct (finalAdder_pair a n' m ub ml lu mr ru (carryOf m n) x (S i - x) Hu Hmm Hlu Hru (HF Hmm)
                (Pp x ltac:(unfold x; lia)) (Pq (S i - x) ltac:(unfold x; lia)) ltac:(unfold x; lia)) as [F _].
    replace (x + (S i - x)) with (S i) in F by (unfold x; lia); apply F; lia. }
  assert (Dl : ml / md <= m / md) by (apply div_mono; lia).
  assert (Dr : mr / md <= m / md) by (apply div_mono; lia).
  destruct Low1 as [[vl [Kl [Vl [Ul Wl]]]]|[O1 O2]].
  2: { right; split; [lia|]; intros i Hi; apply (Up cm 0); auto; try lia.
       intros i' Hi'; left; lia. }
  destruct Low2 as [[vr [Kr [Vr [Ur Wr]]]]|[O1 O2]].
  2: { right; split; [lia|]; intros i Hi; apply (Up 0 cm); auto; try lia.
       intros i' Hi'; left; lia. }
  pose proof (dm vl) as [Evl Bvl]; pose proof (dm vr) as [Evr Bvr].
  set (p := vl / md) in *; set (q := vr / md) in *; set (x := vl mod md) in *; set (y := vr mod md) in *.
  pose proof (dm m) as [Em Bm].
  assert (Hpq : p + q <= m / md) by (apply Nat.div_le_lower_bound; [lia|]; nia).
  destruct (Nat.le_gt_cases cm (p + q)) as [Hcm|Hcm].
  { right; split; [lia|]; intros i Hi; apply (Up p q); auto; lia. }
  destruct Hll as [Lll Sll]; destruct Hrl as [Lrl Srl]; destruct Hw as [Lw Sw].
  assert (LowP : forall i j, i <= x -> j <= y ->
    (1 <= i + j < md -> lval a (at_ lw (i + j - 1)) = true \/ (md <= m /\ lval a (carryOf m n) = true)) /\
    (md < i + j -> lval a (at_ lw (i + j - md - 1)) = true) /\
    (i + j = md -> lval a (carryOf m n) = true)).
  { intros i j Hi Hj; apply (mtAdder_low_pair a n' m ub lw lu ll ru rl n i j Hu Hs); auto; lia. }
  (* the value [vl + vr], when the lower part is known *)
  assert (Plain : x + y < md -> (forall i, 1 <= i <= x + y -> lval a (at_ lw (i - 1)) = true) ->
                  has a m ub lw (vl + vr)).
  { intros Hxy HL.
    assert (E : vl + vr = md * (p + q) + (x + y)) by nia.
    assert (Ed : (vl + vr) / md = p + q) by (symmetry; apply (Nat.div_unique _ _ _ (x + y)); [lia | exact E]).
    assert (Emod : (vl + vr) mod md = x + y) by (symmetry; apply (Nat.mod_unique _ _ (p + q)); [lia | exact E]).
    split; [lia|]; rewrite Ed, Emod; split.
    - intros i Hi; apply (Up p q); auto; lia.
    - intros i Hi; destruct i as [|i]; [now left | right]; split; [|apply HL; lia].
      rewrite Lw; nia. }
  destruct (Nat.le_gt_cases md m) as [Hmm|Hmm].
  - destruct (lval a (carryOf m n)) eqn:Ec.
    + (* the carry is true *)
      assert (Hlt : p + q < m / md).
      { destruct (Nat.lt_ge_cases (p + q) (m / md)) as [|Hge]; [assumption|exfalso].
        assert (1 <= m / md) by (apply Nat.div_le_lower_bound; lia).
        destruct (finalAdder_pair a n' m ub ml lu mr ru (carryOf m n) p q Hu Hmm Hlu Hru (HF Hmm)
                    (Ul p (Nat.le_refl _)) (Ur q (Nat.le_refl _)) ltac:(lia)) as [_ [_ F]].
        apply F; [exact Ec | lia | lia]. }
      assert (UpC : forall i, i <= p + q + 1 -> pre a m ub i).
      { intros i Hi; destruct (Nat.eq_dec i (p + q + 1)) as [->|].
        - right; split; [exact Hmm|]; split; [lia|].
          destruct (finalAdder_pair a n' m ub ml lu mr ru (carryOf m n) p q Hu Hmm Hlu Hru (HF Hmm)
                      (Ul p (Nat.le_refl _)) (Ur q (Nat.le_refl _)) ltac:(lia)) as [_ [F _]].
          replace (p + q + 1 - 1) with (p + q) by lia; apply F; [exact Ec | lia].
        - apply (Up p q); auto; lia. }
      left; destruct (Nat.lt_ge_cases (x + y) md) as [Hxy|Hxy].
      * (* a spurious carry: round up *)
        exists ((p + q + 1) * md); split; [nia|]; split; [nia|].
        rewrite Nat.div_mul, Nat.mod_mul by lia; split; [exact UpC|].
        intros i Hi; left; lia.
      * exists (vl + vr); split; [lia|].
        assert (E : vl + vr = md * (p + q + 1) + (x + y - md)) by nia.
        assert (Ed : (vl + vr) / md = p + q + 1)
          by (symmetry; apply (Nat.div_unique _ _ _ (x + y - md)); [lia | exact E]).
        assert (Emod : (vl + vr) mod md = x + y - md)
          by (symmetry; apply (Nat.mod_unique _ _ (p + q + 1)); [lia | exact E]).
        split; [lia|]; rewrite Ed, Emod; split; [exact UpC|].
        intros i Hi; destruct i as [|i]; [now left | right].
        split; [rewrite Lw; nia|].
        set (i' := Nat.min x (md + S i)).
        destruct (LowP i' (md + S i - i') ltac:(unfold i'; lia) ltac:(unfold i'; lia)) as [_ [F _]].
        replace (i' + (md + S i - i')) with (md + S i) in F by (unfold i'; lia).
        replace (md + S i - md) with (S i) in F by lia; apply F; lia.
    + (* no carry *)
      assert (Hxy : x + y < md).
      { destruct (Nat.lt_ge_cases (x + y) md) as [|Hge]; [assumption|exfalso].
        set (i' := Nat.min x md).
        destruct (LowP i' (md - i') ltac:(unfold i'; lia) ltac:(unfold i'; lia)) as [_ [_ F]].
        assert (false = true) by (apply F; unfold i'; lia); discriminate. }
      left; exists (vl + vr); split; [lia|]; apply Plain; [exact Hxy|].
      intros i Hi; set (i' := Nat.min x i).
      destruct (LowP i' (i - i') ltac:(unfold i'; lia) ltac:(unfold i'; lia)) as [F _].
      replace (i' + (i - i')) with i in F by (unfold i'; lia).
      destruct (F ltac:(lia)) as [T|[_ T]]; [exact T | congruence].
  - (* a node without upper variables *)
    left; exists (vl + vr); split; [lia|].
    assert (Hx : x <= vl /\ y <= vr) by nia.
    apply Plain; [lia|].
    intros i Hi; set (i' := Nat.min x i).
    destruct (LowP i' (i - i') ltac:(unfold i'; lia) ltac:(unfold i'; lia)) as [F _].
    replace (i' + (i - i')) with i in F by (unfold i'; lia).
    destruct (F ltac:(lia)) as [T|[T _]]; [exact T | lia].
Qed.

Lemma optNeg_exact : forall n a m u v i, uppers n m u -> i <= length u ->
  (md <= m -> forall i, i < m / md -> lval a (at_ u i) = (i <? v / md)) ->
  (md <= m -> csat a (optNeg u i) \/ i <= v / md) /\
  (md <= m -> 1 <= i -> length (optNeg u i) = 1) /\
  (m < md -> optNeg u i = []) /\ (i = 0 -> optNeg u i = []).
Proof.
  intros n a m u v i Hu Hi He; unfold optNeg; split; [|split; [|split]].
  - intros Hm; destruct Hu as [[C _]|[_ [Lu Su]]]; [lia|].
    destruct (Nat.eqb_spec i 0) as [Ei|Ei]; [right; lia|].
    destruct (scope_real n (at_ u (i - 1))) as [-> _]; [apply scoped_at; [exact Su | lia]|].
    rewrite csat1, lval_neg_true, He by lia.
    destruct (Nat.ltb_spec (i - 1) (v / md)); [right; lia | now left].
  - intros Hm H1; destruct Hu as [[C _]|[_ [Lu Su]]]; [lia|].
    destruct (Nat.eqb_spec i 0) as [Ei|Ei]; [lia|].
    destruct (scope_real n (at_ u (i - 1))) as [-> _]; [apply scoped_at; [exact Su | lia]|]; reflexivity.
  - intros Hm; destruct Hu as [[_ [_ H]]|[C _]]; [|lia].
    destruct (Nat.eqb_spec i 0) as [Ei|Ei]; [reflexivity|].
    rewrite (H (at_ u (i - 1))) by (apply at_in; lia); reflexivity.
  - intros ->; reflexivity.
Qed.

Lemma finalAdder_complete : forall a n m upper ml lupper mr rupper carry vl vr,
  m = ml + mr -> ml <= mr + 1 -> mr <= ml + 1 -> vl <= ml -> vr <= mr ->
  uppers n m upper -> md <= m -> uppers n ml lupper -> uppers n mr rupper ->
  (forall i, i < m / md -> lval a (at_ upper i) = (i <? (vl + vr) / md)) ->
  (md <= ml -> forall i, i < ml / md -> lval a (at_ lupper i) = (i <? vl / md)) ->
  (md <= mr -> forall i, i < mr / md -> lval a (at_ rupper i) = (i <? vr / md)) ->
  lval a carry = (md <=? vl mod md + vr mod md) ->
  sat a (finalAdder md R upper lupper rupper carry).
Proof.
  intros a n m upper ml lupper mr rupper carry vl vr Hm B1 B2 Vl Vr Hu Hmm Hl Hr Eu El Er Ec.
  unfold finalAdder; apply sat_flat_map; intros i Hi; apply sat_flat_map; intros j Hj.
  apply in_seq in Hi; apply in_seq in Hj; cbv zeta; fold cm.
  destruct (Nat.ltb_spec (cm * md) (md * (i + j))); [apply sat_nil|].
  fold (optNeg lupper i); fold (optNeg rupper j).
  destruct (optNeg_exact n a ml lupper vl i Hl ltac:(lia) El) as [Li1 [Li2 [Li3 Li4]]].
  destruct (optNeg_exact n a mr rupper vr j Hr ltac:(lia) Er) as [Rj1 [Rj2 [Rj3 Rj4]]].
  destruct Hu as [[C _]|[_ [Lu Su]]]; [lia|].
  pose proof (dm vl) as [Evl Bvl]; pose proof (dm vr) as [Evr Bvr]; pose proof (dm m) as [Em Bm].
  set (p := vl / md) in *; set (q := vr / md) in *; set (x := vl mod md) in *; set (y := vr mod md) in *.
  assert (Dv : (vl + vr) / md = p + q + (if md <=? x + y then 1 else 0)).
  { destruct (Nat.leb_spec md (x + y)).
    - symmetry; apply (Nat.div_unique _ _ _ (x + y - md)); [lia | nia].
    - symmetry; apply (Nat.div_unique _ _ _ (x + y)); [lia | nia]. }
  assert (Bv : (vl + vr) / md <= m / md) by (apply div_mono; lia).
  rewrite Dv in Eu, Bv.
  apply sat_app; split.
  - (* clauses without the carry *)
    destruct (negb (i + j =? 0) && (i + j - 1 <? length upper)) eqn:Eij; [|apply sat_nil].
    apply andb_true_iff in Eij as [Z1 Z2]; apply negb_true_iff, Nat.eqb_neq in Z1; apply Nat.ltb_lt in Z2.
    destruct (scope_real n (at_ upper (i + j - 1))) as [-> _]; [apply scoped_at; [exact Su | lia]|].
    destruct (Nat.ltb_spec 1 (length (optNeg lupper i ++ optNeg rupper j ++ [at_ upper (i + j - 1)]))) as [Hlen|_];
      [|apply sat_nil].
    apply sat1; rewrite !csat_app, csat1, Eu by lia.
    destruct (Nat.le_gt_cases md ml) as [Hml|Hml].
    + destruct (Li1 Hml) as [?|Hi']; [now left|].
      destruct (Nat.le_gt_cases md mr) as [Hmr|Hmr].
      * destruct (Rj1 Hmr) as [?|Hj']; [right; now left|].
        right; right; apply Nat.ltb_lt; destruct (md <=? x + y); lia.
      * (* right child without upper variables *)
        assert (Hq : m / md = 1) by (symmetry; apply (Nat.div_unique _ _ _ (m - md)); lia).
        assert (j = 0).
        { destruct (Nat.eq_dec i 0) as [Z|]; [|lia].
          rewrite (Li4 Z), (Rj3 Hmr) in Hlen; simpl in Hlen; lia. }
        right; right; apply Nat.ltb_lt; destruct (md <=? x + y); lia.
    + rewrite (Li3 Hml) in *.
      destruct (Nat.le_gt_cases md mr) as [Hmr|Hmr].
      * destruct (Rj1 Hmr) as [?|Hj']; [right; now left|].
        assert (Hq : m / md = 1) by (symmetry; apply (Nat.div_unique _ _ _ (m - md)); lia).
        assert (i = 0).
        { destruct (Nat.eq_dec j 0) as [Z|]; [|lia].
          rewrite (Rj4 Z) in Hlen; simpl in Hlen; lia. }
        right; right; apply Nat.ltb_lt; destruct (md <=? x + y); lia.
      * rewrite (Rj3 Hmr) in Hlen; simpl in Hlen; lia.
  - (* clauses with the carry *)
    match goal with |- sat a (if ?b then _ else _) => destruct b eqn:Eb; [|apply sat_nil] end.
    apply sat1; cbn [app]; rewrite csat_cons, lval_neg_true, Ec.
    destruct (Nat.leb_spec md (x + y)) as [Hc|Hc]; [right | now left].
    rewrite !csat_app.
    apply Nat.ltb_lt in Eb; cbn [app length] in Eb; rewrite !app_length in Eb.
    assert (Pos : i <= p -> j <= q -> csat a (if real (if i + j <? length upper then at_ upper (i + j) else errL)
                             then [if i + j <? length upper then at_ upper (i + j) else errL] else [])).
    { intros Hi' Hj'; destruct (Nat.ltb_spec (i + j) (length upper)); [|lia].
      destruct (scope_real n (at_ upper (i + j))) as [-> _]; [apply scoped_at; [exact Su | lia]|].
      apply csat1; rewrite Eu by lia; apply Nat.ltb_lt; lia. }
    destruct (Nat.le_gt_cases md ml) as [Hml|Hml].
    + destruct (Li1 Hml) as [?|Hi']; [now left|].
      destruct (Nat.le_gt_cases md mr) as [Hmr|Hmr].
      * destruct (Rj1 Hmr) as [?|Hj']; [right; now left|]; auto.
      * assert (Hq : m / md = 1) by (symmetry; apply (Nat.div_unique _ _ _ (m - md)); lia).
        assert (i = 0) by nia; subst i.
        rewrite (Li4 eq_refl), (Rj3 Hmr) in *; simpl in Eb; change (0 + j) with j in *.
        destruct (Nat.ltb_spec j (length upper)) as [Hlt|]; [|simpl in Eb; lia].
        right; right; apply Pos; lia.
    + rewrite (Li3 Hml) in *.
      destruct (Nat.le_gt_cases md mr) as [Hmr|Hmr].
      * destruct (Rj1 Hmr) as [?|Hj']; [right; now left|].
        assert (Hq : m / md = 1) by (symmetry; apply (Nat.div_unique _ _ _ (m - md)); lia).
        assert (j = 0) by nia; subst j.
        rewrite (Rj4 eq_refl) in *; simpl in Eb; rewrite !Nat.add_0_r in *.
        destruct (Nat.ltb_spec i (length upper)) as [Hlt|]; [|simpl in Eb; lia].
        right; right; apply Pos; lia.
      * rewrite (Rj3 Hmr) in *; simpl in Eb.
        destruct (Nat.ltb_spec (i + j) (length upper)) as [Hlt|]; [|simpl in Eb; lia].
        assert (Hq : m / md <= 1) by (rewrite <- Nat.lt_succ_r; apply Nat.div_lt_upper_bound; lia).
        right; right; apply Pos; lia.
Qed.

Lemma mtAdder_complete : forall a n' m ub lw ml lu ll mr ru rl n vl vr,
  m = ml + mr -> ml <= mr + 1 -> mr <= ml + 1 -> vl <= ml -> vr <= mr ->
  uppers n' m ub -> lowers n' m lw ->
  uppers n' ml lu -> lowers n' ml ll -> uppers n' mr ru -> lowers n' mr rl ->
  exact a ml lu ll vl -> exact a mr ru rl vr -> exact a m ub lw (vl + vr) ->
  (md <= m -> lval a (carryOf m n) = (md <=? vl mod md + vr mod md)) ->
  sat a (fst (mtAdder md R ub lw lu ll ru rl n)).
Proof.
  intros a n' m ub lw ml lu ll mr ru rl n vl vr Hm B1 B2 Vl Vr Hu Hw Hlu Hll Hru Hrl
         [El1 El2] [Er1 Er2] [Eu1 Eu2] Ec.
  rewrite (mtAdder_unfold n' m ub lw lu ll ru rl n Hu); cbn [fst]; apply sat_app; split.
  - destruct Hll as [Lll Sll]; destruct Hrl as [Lrl Srl]; destruct Hw as [Lw Sw].
    pose proof (dm vl) as [Evl Bvl]; pose proof (dm vr) as [Evr Bvr].
    set (p := vl / md) in *; set (q := vr / md) in *; set (x := vl mod md) in *; set (y := vr mod md) in *.
    assert (Dv : (vl + vr) mod md = x + y - (if md <=? x + y then md else 0)).
    { destruct (Nat.leb_spec md (x + y)).
      - symmetry; apply (Nat.mod_unique _ _ (p + q + 1)); [lia | nia].
      - symmetry; apply (Nat.mod_unique _ _ (p + q)); [lia | nia]. }
    rewrite Dv in Eu2.
    assert (Hxy : x <= vl /\ y <= vr) by nia.
    apply sat_flat_map; intros i Hi; apply sat_flat_map; intros j Hj.
    apply in_seq in Hi; apply in_seq in Hj.
    assert (Ei : 1 <= i -> lval a (neg (at_ ll (i - 1))) = true \/ i <= x).
    { intros H; rewrite lval_neg_true, El2 by lia; destruct (Nat.ltb_spec (i - 1) x); [right; lia | now left]. }
    assert (Ej : 1 <= j -> lval a (neg (at_ rl (j - 1))) = true \/ j <= y).
    { intros H; rewrite lval_neg_true, Er2 by lia; destruct (Nat.ltb_spec (j - 1) y); [right; lia | now left]. }
    destruct (Nat.ltb_spec (i + j) md).
    + destruct ((i =? 0) && (j =? 0)) eqn:E0; [apply sat_nil|].
      assert (1 <= i + j).
      { destruct (Nat.eqb_spec i 0), (Nat.eqb_spec j 0); try discriminate; lia. }
      apply sat1; rewrite !csat_app.
      assert (Gi : csat a (if i =? 0 then [] else [neg (at_ ll (i - 1))]) \/ i <= x).
      { destruct (Nat.eqb_spec i 0); [right; lia|]; destruct (Ei ltac:(lia)); [left; now apply csat1 | now right]. }
      assert (Gj : csat a (if j =? 0 then [] else [neg (at_ rl (j - 1))]) \/ j <= y).
      { destruct (Nat.eqb_spec j 0); [right; lia|]; destruct (Ej ltac:(lia)); [left; now apply csat1 | now right]. }
      destruct Gi as [?|Gi]; [now left|]; destruct Gj as [?|Gj]; [right; now left|].
      right; right; destruct (Nat.leb_spec md (x + y)) as [Hc|Hc].
      * right; destruct (Nat.leb_spec md m); [|lia]; apply csat1; rewrite Ec by lia; reflexivity.
      * left; apply csat1; rewrite Eu2 by lia; apply Nat.ltb_lt; lia.
    + destruct (Nat.ltb_spec md (i + j)); apply sat1; rewrite !csat_cons.
      * destruct (Ei ltac:(lia)) as [?|Gi]; [now left|]; destruct (Ej ltac:(lia)) as [?|Gj]; [right; now left|].
        right; right; left.
        replace ((i + j) mod md) with (i + j - md).
        2: { rewrite <- (Nat.mod_small (i + j - md) md) by lia.
             replace (i + j) with ((i + j - md) + 1 * md) at 2 by lia; now rewrite Nat.mod_add by lia. }
        rewrite Eu2 by lia; apply Nat.ltb_lt; destruct (Nat.leb_spec md (x + y)); lia.
      * destruct (Ei ltac:(lia)) as [?|Gi]; [now left|]; destruct (Ej ltac:(lia)) as [?|Gj]; [right; now left|].
        right; right; left; rewrite Ec by lia; apply Nat.leb_le; lia.
  - destruct (Nat.leb_spec md m); [|apply sat_nil].
    apply (finalAdder_complete a n' m ub ml lu mr ru (carryOf m n) vl vr); auto.
Qed.

Lemma carry_scope : forall m n, md <= m -> lscope (bump ACC 1 n) (carryOf m n).
Proof.
  intros m n H; unfold carryOf; destruct (Nat.leb_spec md m); [|lia].
  apply scoped_at; [apply auxs_scoped | rewrite auxs_length; lia].
Qed.

Lemma optNeg_scope : forall n m u i, uppers n m u -> i <= length u -> scoped n (optNeg u i).
Proof.
  intros n m u i Hu Hi; unfold optNeg; destruct (Nat.eqb_spec i 0); [apply scoped_nil|].
  destruct Hu as [[_ [_ H]]|[_ [_ S]]].
  - rewrite (H (at_ u (i - 1))) by (apply at_in; lia); apply scoped_nil.
  - destruct (real _); [|apply scoped_nil]; split_scoped; apply lscope_neg, scoped_at; [exact S | lia].
Qed.

Lemma finalAdder_scoped : forall n m upper ml lupper mr rupper carry,
  uppers n m upper -> md <= m -> uppers n ml lupper -> uppers n mr rupper -> lscope n carry ->
  cscoped n (finalAdder md R upper lupper rupper carry).
Proof.
  intros n m upper ml lupper mr rupper carry Hu Hm Hl Hr Hc.
  destruct Hu as [[C _]|[_ [Lu Su]]]; [lia|].
  unfold finalAdder; apply cscoped_flat_map; intros i Hi; apply cscoped_flat_map; intros j Hj.
  apply in_seq in Hi; apply in_seq in Hj; cbv zeta; fold cm.
  destruct (cm * md <? md * (i + j)); [apply cscoped_nil|].
  fold (optNeg lupper i); fold (optNeg rupper j).
  pose proof (optNeg_scope n ml lupper i Hl ltac:(lia)).
  pose proof (optNeg_scope n mr rupper j Hr ltac:(lia)).
  apply cscoped_app; split.
  - destruct (negb (i + j =? 0) && (i + j - 1 <? length upper)) eqn:Eij; [|apply cscoped_nil].
    apply andb_true_iff in Eij as [Z1 Z2]; apply Nat.ltb_lt in Z2.
    destruct (real _); [|apply cscoped_nil].
    match goal with |- cscoped n (if ?b then _ else _) => destruct b; [|apply cscoped_nil] end.
    split_scoped; auto; apply scoped_at; assumption.
  - match goal with |- cscoped n (if ?b then _ else _) => destruct b; [|apply cscoped_nil] end.
    apply cscoped_cons; split; [|apply cscoped_nil].
    apply scoped_app; split; [split_scoped; now apply lscope_neg|].
    apply scoped_app; split; [assumption|]; apply scoped_app; split; [assumption|].
    destruct (Nat.ltb_spec (i + j) (length upper)); [|apply scoped_nil].
    destruct (real _); [|apply scoped_nil]; split_scoped; now apply scoped_at.
Qed.

Lemma uppers_le : forall n n' m u, cle n n' -> uppers n m u -> uppers n' m u.
Proof. intros n n' m u H [U|[A [B C]]]; [now left | right; eauto using scoped_le]. Qed.
Lemma lowers_le : forall n n' m u, cle n n' -> lowers n m u -> lowers n' m u.
Proof. intros n n' m u H [A B]; split; eauto using scoped_le. Qed.

Lemma mtAdder_scoped : forall m ub lw ml lu ll mr ru rl n,
  m = ml + mr -> uppers n m ub -> lowers n m lw ->
  uppers n ml lu -> lowers n ml ll -> uppers n mr ru -> lowers n mr rl ->
  cle n (snd (mtAdder md R ub lw lu ll ru rl n)) /\
  cscoped (snd (mtAdder md R ub lw lu ll ru rl n)) (fst (mtAdder md R ub lw lu ll ru rl n)).
Proof.
  intros m ub lw ml lu ll mr ru rl n Hm Hu Hw Hlu Hll Hru Hrl.
  rewrite (mtAdder_unfold n m ub lw lu ll ru rl n Hu); cbn [fst snd].
  set (n' := if md <=? m then bump ACC 1 n else n).
  assert (Hn : cle n n') by (unfold n'; destruct (md <=? m); [apply cle_bump | apply cle_refl]).
  assert (Hc : md <= m -> lscope n' (carryOf m n)).
  { intros H; unfold n'; destruct (Nat.leb_spec md m); [now apply carry_scope | lia]. }
  split; [exact Hn|]; apply cscoped_app; split.
  - destruct Hll as [Lll Sll]; destruct Hrl as [Lrl Srl]; destruct Hw as [Lw Sw].
    apply (scoped_le n n') in Sll, Srl, Sw; auto.
    apply cscoped_flat_map; intros i Hi; apply cscoped_flat_map; intros j Hj.
    apply in_seq in Hi; apply in_seq in Hj.
    assert (A : 1 <= i -> lscope n' (neg (at_ ll (i - 1)))) by (intros; apply lscope_neg, scoped_at; [exact Sll | lia]).
    assert (B : 1 <= j -> lscope n' (neg (at_ rl (j - 1)))) by (intros; apply lscope_neg, scoped_at; [exact Srl | lia]).
    destruct (Nat.ltb_spec (i + j) md).
    + destruct ((i =? 0) && (j =? 0)) eqn:E0; [apply cscoped_nil|].
      assert (1 <= i + j).
      { destruct (Nat.eqb_spec i 0), (Nat.eqb_spec j 0); try discriminate; lia. }
      apply cscoped_cons; split; [|apply cscoped_nil].
      apply scoped_app; split; [destruct (Nat.eqb_spec i 0); split_scoped; apply A; lia|].
      apply scoped_app; split; [destruct (Nat.eqb_spec j 0); split_scoped; apply B; lia|].
      apply scoped_app; split; [split_scoped; apply scoped_at; [exact Sw | lia]|].
      destruct (Nat.leb_spec md m); split_scoped; auto.
    + destruct (Nat.ltb_spec md (i + j)); split_scoped; try (apply A; lia); try (apply B; lia).
      * replace ((i + j) mod md) with (i + j - md).
        2: { rewrite <- (Nat.mod_small (i + j - md) md) by lia.
             replace (i + j) with ((i + j - md) + 1 * md) at 2 by lia; now rewrite Nat.mod_add by lia. }
        apply scoped_at; [exact Sw | lia].
      * apply Hc; lia.
  - destruct (Nat.leb_spec md m); [|apply cscoped_nil].
    apply (finalAdder_scoped n' m ub ml lu mr ru); eauto using uppers_le.
Qed.

(** ** The tree *)

Lemma exact_agree : forall n a b m ub lw v, agree n a b -> uppers n m ub -> lowers n m lw ->
  exact a m ub lw v -> exact b m ub lw v.
Proof.
  intros n a b m ub lw v Ag Hu Hw [E1 E2]; split.
  - intros Hm i Hi; destruct Hu as [[C _]|[_ [Lu Su]]]; [lia|].
    rewrite (agree_lval n a b); [now apply E1 | exact Ag | apply scoped_at; [exact Su | lia]].
  - intros i Hi; destruct Hw as [Lw Sw].
    rewrite (agree_lval n a b); [now apply E2 | exact Ag | now apply scoped_at].
Qed.

Lemma orH0_uppers : forall m n, uppers (bump ACC (m / md) n) m (orH0 (auxs ACC (m / md) n)).
Proof.
  intros m n; destruct (Nat.le_gt_cases md m) as [H|H].
  - right; assert (1 <= m / md) by (apply Nat.div_le_lower_bound; lia).
    assert (E : orH0 (auxs ACC (m / md) n) = auxs ACC (m / md) n).
    { pose proof (auxs_length ACC (m / md) n); destruct (auxs ACC (m / md) n); [simpl in *; lia | reflexivity]. }
    rewrite E; split; [exact H|]; split; [apply auxs_length | apply auxs_scoped].
  - left; rewrite (Nat.div_small m md) by exact H.
    split; [exact H|]; split; [discriminate|]; intros x [<-|[]]; reflexivity.
Qed.

(** Fresh variables for a node can be given the digits of any value. *)
Lemma exact_fresh : forall a n m k v,
  exists b, agree n a b /\
    exact b m (orH0 (auxs ACC (m / md) n)) (auxs ACC k (bump ACC (m / md) n)) v.
Proof.
  intros a n m k v.
  exists (upd ACC (fresh ACC n) (fun i => if i <? m / md then i <? v / md else i - m / md <? v mod md) a).
  split; [apply upd_agree|]; split.
  - intros Hm i Hi.
    assert (E : orH0 (auxs ACC (m / md) n) = auxs ACC (m / md) n).
    { pose proof (auxs_length ACC (m / md) n); destruct (auxs ACC (m / md) n); [simpl in *; lia | reflexivity]. }
    rewrite E, upd_at by exact Hi; destruct (Nat.ltb_spec i (m / md)); [reflexivity | lia].
  - intros i Hi; rewrite auxs_length in Hi; rewrite auxs_at by exact Hi.
    rewrite fresh_bump, <- Nat.add_assoc, upd_aux.
    destruct (Nat.ltb_spec (m / md + i) (m / md)); [lia|].
    replace (m / md + i - m / md) with i by lia; reflexivity.
Qed.

Lemma mtHalf_ok : forall k leaf inl n u l inl1 n1,
  1 <= k <= length inl -> scoped n inl -> leaf <> [] -> (forall x, In x leaf -> x = h0) ->
  mtHalf md k leaf inl n = (u, l, inl1, n1) ->
  cle n n1 /\ uppers n1 k (orH0 u) /\ lowers n1 k l /\ scoped n1 inl1 /\
  (k = 1 -> exists x, l = [x] /\ inl = inl1 ++ [x]) /\ (k <> 1 -> inl1 = inl) /\
  (forall a t, (k = 1 -> t = count a l) -> exists b, agree n a b /\ exact b k (orH0 u) l t).
Proof.
  intros k leaf inl n u l inl1 n1 Hk Si Lf1 Lf2 E; unfold mtHalf in E.
  destruct (Nat.eqb_spec k 1) as [->|Hne].
  - injection E as <- <- <- <-.
    assert (Hne : inl <> []) by (intros ->; simpl in Hk; lia).
    pose proof (split_last inl Hne) as Sp.
    assert (EL : orH0 leaf = leaf) by (destruct leaf; [congruence | reflexivity]); rewrite EL.
    split; [apply cle_refl|]; split; [left; split; [lia | auto]|].
    split; [split; [cbn [length]; lia | split_scoped; apply scoped_at; [exact Si | lia]]|].
    split; [intros x Hx; apply Si; rewrite Sp; apply in_app_iff; now left|].
    split; [intros _; eexists; split; [reflexivity | exact Sp]|]; split; [lia|].
    intros a t Ht; rewrite (Ht eq_refl); exists a; split; [apply agree_refl|]; split; [lia|].
    intros i Hi; simpl in Hi; assert (i = 0) by lia; subst i; rewrite at_0; cbn [count].
    destruct (lval a _); [rewrite Nat.mod_small by lia | rewrite Nat.mod_0_l by lia]; reflexivity.
  - set (limit := if (k / md mod md =? 0) && (k <? md - 1) then k else md - 1) in *.
    assert (Eq : u = auxs ACC (k / md) n /\ l = auxs ACC limit (bump ACC (k / md) n) /\ inl1 = inl /\
                 n1 = bump ACC limit (bump ACC (k / md) n)).
    { cbv zeta in E; fold limit in E.
      split; [exact (f_equal (fun x => fst (fst (fst x))) (eq_sym E))|].
      split; [exact (f_equal (fun x => snd (fst (fst x))) (eq_sym E))|].
      split; [exact (f_equal (fun x => snd (fst x)) (eq_sym E)) | exact (f_equal snd (eq_sym E))]. }
    destruct Eq as [-> [-> [-> ->]]]; clear E.
    assert (Hl : limit = Nat.min k (md - 1)).
    { unfold limit; destruct (Nat.ltb_spec k (md - 1)).
      - rewrite (Nat.div_small k md) by lia; rewrite Nat.mod_0_l by lia; simpl; lia.
      - rewrite andb_false_r; lia. }
    assert (C1 : cle n (bump ACC (k / md) n)) by apply cle_bump.
    assert (C2 : cle (bump ACC (k / md) n) (bump ACC limit (bump ACC (k / md) n))) by apply cle_bump.
    split; [now apply cle_trans with (bump ACC (k / md) n)|].
    split; [apply uppers_le with (bump ACC (k / md) n); [exact C2 | apply orH0_uppers]|].
    split; [split; [rewrite auxs_length; exact Hl | apply auxs_scoped]|].
    split; [apply scoped_le with n; [now apply cle_trans with (bump ACC (k / md) n) | exact Si]|].
    split; [lia|]; split; [reflexivity|].
    intros a t _; apply exact_fresh.
Qed.

Definition modCounts (m : nat) (ub lw used : list elit) (n : ctr) (cs : list clause) : Prop :=
  (forall a, sat a cs -> low a m ub lw (count a used)) /\
  (forall a, exact a m ub lw (count a used) -> exists b, agree n a b /\ sat b cs).

Lemma modCounts_leaf : forall ub x n, modCounts 1 ub [x] [x] n [].
Proof.
  intros ub x n; split.
  - intros a _; left; exists (count a [x]); split; [lia|]; split; [cbn [count]; destruct (lval a x); lia|].
    cbn [count]; destruct (lval a x) eqn:V.
    + rewrite Nat.div_small, Nat.mod_small by lia; split; intros i Hi; [left; lia|].
      destruct i as [|i]; [now left|]; assert (i = 0) by lia; subst i; right.
      split; [simpl; lia | simpl; exact V].
    + rewrite Nat.div_small, Nat.mod_small by lia; split; intros i Hi; left; lia.
  - intros a _; exists a; split; [apply agree_refl | apply sat_nil].
Qed.

Lemma mtToCNF_ok : forall fuel ub lw m inl n cs inl' n',
  2 <= m <= fuel -> m <= length inl -> uppers n m ub -> lowers n m lw -> scoped n inl ->
  mtToCNF fuel md R ub lw m inl n = (cs, inl', n') ->
  exists used, inl = inl' ++ used /\ length used = m /\
    cle n n' /\ cscoped n' cs /\ modCounts m ub lw used n cs.
Proof.
  induction fuel as [|fuel IH]; intros ub lw m inl n cs inl' n' Hf Hi Hu Hw Si E; [lia|].
  cbn [mtToCNF] in E; set (sp := m / 2) in *.
  assert (Hsp : 2 * sp <= m /\ m <= 2 * sp + 1 /\ 1 <= sp).
  { pose proof (Nat.div_mod m 2 ltac:(lia)) as D.
    pose proof (Nat.mod_upper_bound m 2 ltac:(lia)); fold sp in D; lia. }
  destruct (mtHalf md sp [h0; h0] inl n) as [[[lu ll] inl1] n1] eqn:E1.
  destruct (mtHalf_ok sp [h0; h0] inl n lu ll inl1 n1 ltac:(lia) Si ltac:(discriminate)
              ltac:(intros x [<-|[<-|[]]]; reflexivity) E1)
    as [Hn1 [Ul [Ll [Si1 [Kl1 [Kl2 Kl3]]]]]].
  assert (Li1 : length inl1 = length inl - (if sp =? 1 then 1 else 0)).
  { destruct (Nat.eqb_spec sp 1) as [e|e].
    - destruct (Kl1 e) as [x [_ ->]]; rewrite app_length; simpl; lia.
    - rewrite (Kl2 e); lia. }
  destruct (mtHalf md (m - sp) [h0] inl1 n1) as [[[ru rl] inl2] n2] eqn:E2.
  destruct (mtHalf_ok (m - sp) [h0] inl1 n1 ru rl inl2 n2
              ltac:(destruct (Nat.eqb_spec sp 1); lia) Si1 ltac:(discriminate)
              ltac:(intros x [<-|[]]; reflexivity) E2)
    as [Hn2 [Ur [Lr [Si2 [Kr1 [Kr2 Kr3]]]]]].
  assert (H02 : cle n n2) by (apply cle_trans with n1; assumption).
  pose proof (uppers_le n1 n2 sp _ Hn2 Ul) as Ul2; pose proof (lowers_le n1 n2 sp _ Hn2 Ll) as Ll2.
  pose proof (uppers_le n n2 m _ H02 Hu) as Hu2; pose proof (lowers_le n n2 m _ H02 Hw) as Hw2.
  destruct (mtAdder_scoped m ub lw (m - sp) (orH0 ru) rl sp (orH0 lu) ll n2 ltac:(lia) Hu2 Hw2 Ur Lr Ul2 Ll2)
    as [Hn3 Sca].
  assert (Ea : mtAdder md R ub lw (orH0 ru) rl (orH0 lu) ll n2 =
               (fst (mtAdder md R ub lw (orH0 ru) rl (orH0 lu) ll n2),
                if md <=? m then bump ACC 1 n2 else n2)).
  { rewrite (mtAdder_unfold n2 m ub lw (orH0 ru) rl (orH0 lu) ll n2 Hu2) at 1 2; reflexivity. }
  destruct (mtAdder md R ub lw (orH0 ru) rl (orH0 lu) ll n2) as [ca n3] eqn:E3; cbn [fst snd] in *.
  assert (En3 : n3 = if md <=? m then bump ACC 1 n2 else n2) by exact (f_equal snd Ea); clear Ea.
  (* the left recursive call *)
  assert (A1 : forall c1 inl3 n4,
    (if 1 <? sp then mtToCNF fuel md R (orH0 lu) ll sp inl2 n3 else ([], inl2, n3)) = (c1, inl3, n4) ->
    exists ul, length ul = sp /\ cle n3 n4 /\ cscoped n4 c1 /\
      (if sp =? 1 then inl3 = inl2 /\ inl = inl1 ++ ul /\ ll = ul
       else inl2 = inl3 ++ ul /\ inl = inl1) /\
      modCounts sp (orH0 lu) ll ul n3 c1).
  { intros c1 inl3 n4 Ec; destruct (Nat.ltb_spec 1 sp) as [H1|H1].
    - destruct (IH (orH0 lu) ll sp inl2 n3 c1 inl3 n4) as [ul [U1 [U2 [U3 [U4 U5]]]]]; try lia; auto.
      + rewrite (Kr2 ltac:(lia)), (Kl2 ltac:(lia)); lia.
      + apply uppers_le with n2; assumption.
      + apply lowers_le with n2; assumption.
      + apply scoped_le with n2; assumption.
      + exists ul; repeat (split; [assumption|]); split; [|exact U5].
        destruct (Nat.eqb_spec sp 1); [lia|]; split; [exact U1 | symmetry; apply Kl2; lia].
    - assert (Es : sp = 1) by lia; destruct (Kl1 Es) as [x [Ex Ei]].
      injection Ec as <- <- <-; exists [x]; split; [simpl; lia|].
      split; [apply cle_refl|]; split; [apply cscoped_nil|].
      split; [rewrite Es; simpl; auto|].
      rewrite Ex, Es; apply modCounts_leaf. }
  destruct (if 1 <? sp then mtToCNF fuel md R (orH0 lu) ll sp inl2 n3 else ([], inl2, n3))
    as [[c1 inl3] n4] eqn:Ec1.
  destruct (A1 c1 inl3 n4 eq_refl) as [ul [Lul [Hn4 [Sc1 [Iul Cul]]]]]; clear A1.
  assert (A2 : forall c2 inl4 n5,
    (if 1 <? m - sp then mtToCNF fuel md R (orH0 ru) rl (m - sp) inl3 n4 else ([], inl3, n4)) = (c2, inl4, n5) ->
    exists ur, length ur = m - sp /\ cle n4 n5 /\ cscoped n5 c2 /\
      inl = inl4 ++ ur ++ ul /\ (m - sp = 1 -> rl = ur) /\
      modCounts (m - sp) (orH0 ru) rl ur n4 c2).
  { intros c2 inl4 n5 Ec; destruct (Nat.ltb_spec 1 (m - sp)) as [H1|H1].
    - assert (Ei : inl = inl3 ++ ul).
      { destruct (Nat.eqb_spec sp 1).
        - destruct Iul as [-> [I2 _]]; rewrite (Kr2 ltac:(lia)); exact I2.
        - destruct Iul as [I1 I2]; rewrite I2, <- (Kr2 ltac:(lia)); exact I1. }
      assert (H24 : cle n2 n4) by (apply cle_trans with n3; assumption).
      assert (Sv3 : scoped n4 inl3).
      { apply scoped_le with n; [apply cle_trans with n2; assumption|].
        intros l Hl; apply Si; rewrite Ei; apply in_app_iff; now left. }
      destruct (IH (orH0 ru) rl (m - sp) inl3 n4 c2 inl4 n5) as [ur [U1 [U2 [U3 [U4 U5]]]]]; try lia; auto.
      + apply (f_equal (@length _)) in Ei; rewrite app_length in Ei; lia.
      + apply uppers_le with n2; assumption.
      + apply lowers_le with n2; assumption.
      + exists ur; repeat (split; [assumption|]).
        split; [rewrite Ei, U1, <- app_assoc; reflexivity|]; split; [lia | exact U5].
    - assert (Es : m - sp = 1) by lia; destruct (Kr1 Es) as [x [Ex Ei]].
      assert (Es1 : sp = 1) by lia; rewrite Es1 in Iul; destruct Iul as [I1 [I2 I3]].
      injection Ec as <- <- <-; exists [x]; split; [simpl; lia|].
      split; [apply cle_refl|]; split; [apply cscoped_nil|].
      split; [rewrite I2, Ei, I1, <- app_assoc; reflexivity|].
      rewrite Ex, Es; split; [reflexivity | apply modCounts_leaf]. }
  destruct (if 1 <? m - sp then mtToCNF fuel md R (orH0 ru) rl (m - sp) inl3 n4 else ([], inl3, n4))
    as [[c2 inl4] n5] eqn:Ec2.
  destruct (A2 c2 inl4 n5 eq_refl) as [ur [Lur [Hn5 [Sc2 [Iur [Rur Cur]]]]]]; clear A2.
  injection E as <- <- <-.
  assert (H35 : cle n3 n5) by (apply cle_trans with n4; assumption).
  assert (Snl : scoped n ul /\ scoped n ur).
  { rewrite Iur in Si; apply scoped_app in Si as [_ Si]; apply scoped_app in Si as [A B]; auto. }
  destruct Snl as [Snl Snr].
  exists (ur ++ ul); split; [exact Iur|]; split; [rewrite app_length; lia|].
  split; [apply cle_trans with n2; [assumption | now apply cle_trans with n3]|].
  split; [split_scoped; [now apply cscoped_le with n3 | now apply cscoped_le with n4 | exact Sc2]|].
  destruct Cul as [Cl1 Cl2]; destruct Cur as [Cr1 Cr2].
  split.
  - intros a Ha; apply sat_app in Ha as [A B]; apply sat_app in B as [B C].
    rewrite count_app.
    apply (mtAdder_low a n2 m ub lw (m - sp) (orH0 ru) rl sp (orH0 lu) ll n2); auto; [lia|].
    rewrite E3; exact A.
  - intros a Ha; rewrite count_app in Ha.
    destruct (Kl3 a (count a ul)) as [a1 [Ag1 Ex1]].
    { intros e; rewrite e in Iul; destruct Iul as [_ [_ ->]]; reflexivity. }
    destruct (Kr3 a1 (count a ur)) as [a2 [Ag2 Ex2]].
    { intros e; rewrite (Rur e), (agree_count n a a1); auto. }
    set (vl := count a ul) in *; set (vr := count a ur) in *.
    set (a3 := upd ACC (fresh ACC n2) (fun _ => md <=? vr mod md + vl mod md) a2).
    assert (Ag3 : agree n2 a2 a3) by apply upd_agree.
    assert (Ag12 : agree n a a2) by (apply agree_trans with n1 a1; assumption).
    assert (Ag03 : agree n a a3) by (apply agree_trans with n2 a2; assumption).
    assert (X1 : exact a3 sp (orH0 lu) ll vl).
    { apply exact_agree with n1 a1; [|exact Ul|exact Ll|exact Ex1].
      apply agree_trans with n1 a2; [apply cle_refl | exact Ag2 | now apply agree_le with n2]. }
    assert (X2 : exact a3 (m - sp) (orH0 ru) rl vr) by (apply exact_agree with n2 a2; assumption).
    assert (X3 : exact a3 m ub lw (vr + vl)) by (apply exact_agree with n a; assumption).
    assert (Sa : sat a3 ca).
    { change ca with (fst (ca, n3)); rewrite <- E3.
      apply (mtAdder_complete a3 n2 m ub lw (m - sp) (orH0 ru) rl sp (orH0 lu) ll n2 vr vl); auto; try lia.
      - unfold vr; rewrite <- Lur; apply count_le.
      - unfold vl; rewrite <- Lul; apply count_le.
      - intros Hm; unfold carryOf; destruct (Nat.leb_spec md m); [|lia].
        unfold a3; rewrite upd_at by lia; reflexivity. }
    assert (Cn : cle n n3) by (apply cle_trans with n2; assumption).
    destruct (Cl2 a3) as [b1 [Ab1 Sb1]].
    { rewrite (agree_count n a a3 ul Ag03 Snl); exact X1. }
    destruct (Cr2 b1) as [b2 [Ab2 Sb2]].
    { assert (Ag4 : agree n a b1) by (apply agree_trans with n3 a3; assumption).
      rewrite (agree_count n a b1 ur Ag4 Snr).
      apply exact_agree with n2 a3; auto; now apply agree_le with n3. }
    exists b2; split.
    + apply agree_trans with n3 a3; [exact Cn | exact Ag03|].
      apply agree_trans with n4 b1; assumption.
    + apply sat_app; split; [|apply sat_app; split].
      * apply agree_sat with n3 a3; [|exact Sca|exact Sa].
        apply agree_trans with n4 b1; assumption.
      * apply agree_sat with n4 b1; assumption.
      * exact Sb2.
Qed.

(** ** The bound on the outputs *)

Lemma modUpper_sound : forall a m up lw r k,
  length lw = md - 1 -> r + 1 <= R -> r + 1 <= m ->
  (md <= m -> length up = m / md) -> (m < md -> length up = 1) ->
  sat a (modUpper up lw md r) -> low a m up lw k -> k <= r.
Proof.
  intros a m up lw r k Llw Hr Hm Lu Lu0 Hs Low.
  destruct (Nat.le_gt_cases k r) as [|Hk]; [assumption|exfalso].
  pose proof cm_spec as [CM1 [CM2 CM3]].
  unfold modUpper in Hs; cbv zeta in Hs.
  pose proof (dm (r + 1)) as [Er Br]; set (u := (r + 1) / md) in *; set (x := (r + 1) mod md) in *.
  assert (Ell : r + 1 - u * md = x) by nia; rewrite Ell in Hs.
  apply sat_app in Hs as [Hup Hlo].
  assert (Um : u <= m / md) by (apply div_mono; lia).
  (* no upper literal beyond [u] is true *)
  assert (NU : forall i, u < i -> pre a m up i -> False).
  { intros i Hi [->|[P1 [P2 P3]]]; [lia|]; rewrite sat_map in Hup.
    specialize (Hup (i - 1) ltac:(apply in_seq; rewrite (Lu P1); lia)); apply csat1, lval_neg_true in Hup; congruence. }
  (* the [u]-th upper literal excludes the lower ones from [x] on *)
  assert (NL : forall i, x <= i -> pre a m up u -> preL a lw i -> False).
  { intros i Hi Pu Pi; destruct (Nat.eqb_spec u 0) as [Eu|Eu]; cbn [negb andb] in Hlo.
    - assert (1 <= x) by nia; destruct Pi as [->|[P1 P2]]; [lia|]; rewrite sat_map in Hlo.
      specialize (Hlo (i - 1) ltac:(apply in_seq; lia)); apply csat1, lval_neg_true in Hlo; congruence.
    - destruct Pu as [?|[Q1 [Q2 Q3]]]; [lia|].
      destruct (Nat.eqb_spec x 0) as [Ex|Ex]; cbn [negb andb] in Hlo.
      + apply sat1, csat1, lval_neg_true in Hlo; congruence.
      + destruct Pi as [->|[P1 P2]]; [lia|]; rewrite sat_map in Hlo.
        specialize (Hlo (i - 1) ltac:(apply in_seq; lia)).
        rewrite csat2, lval_neg_true in Hlo; rewrite Hlo in P2 by exact Q3; discriminate. }
  destruct Low as [[v [Kv [Vm [PU PL]]]]|[O1 O2]].
  - pose proof (dm v) as [Ev Bv].
    assert (u <= v / md) by (apply div_mono; lia).
    destruct (Nat.eq_dec u (v / md)) as [Eu|Eu].
    + apply (NL (v mod md)); [nia | apply PU; lia | apply PL; lia].
    + apply (NU (v / md)); [lia | apply PU; lia].
  - assert (u <= cm) by nia.
    destruct (Nat.eq_dec u cm) as [Eu|Eu].
    + apply (NL 0); [nia | apply O2; lia | now left].
    + apply (NU cm); [lia | apply O2; lia].
Qed.

Lemma modUpper_complete : forall a m up lw r v,
  length lw = md - 1 -> r + 1 <= m -> md <= m -> length up = m / md ->
  exact a m up lw v -> v <= r -> sat a (modUpper up lw md r).
Proof.
  intros a m up lw r v Llw Hr Hm Lu [E1 E2] Hv; unfold modUpper; cbv zeta.
  pose proof (dm (r + 1)) as [Er Br]; set (u := (r + 1) / md) in *; set (x := (r + 1) mod md) in *.
  assert (Ell : r + 1 - u * md = x) by nia; rewrite Ell.
  pose proof (dm v) as [Ev Bv].
  assert (Uv : v / md <= u) by (apply div_mono; lia).
  assert (Um : u <= m / md) by (apply div_mono; lia).
  apply sat_app; split.
  - apply sat_map; intros i Hi; apply in_seq in Hi; apply csat1, lval_neg_true.
    rewrite E1 by lia; apply Nat.ltb_ge; lia.
  - destruct (Nat.eqb_spec u 0) as [Eu|Eu]; cbn [negb andb].
    + apply sat_map; intros i Hi; apply in_seq in Hi; apply csat1, lval_neg_true.
      rewrite E2 by lia; apply Nat.ltb_ge; nia.
    + destruct (Nat.eqb_spec x 0) as [Ex|Ex]; cbn [negb andb].
      * apply sat1, csat1, lval_neg_true; rewrite E1 by lia; apply Nat.ltb_ge; nia.
      * apply sat_map; intros i Hi; apply in_seq in Hi; apply csat2.
        rewrite E1, lval_neg_true, E2 by lia; intros H; apply Nat.ltb_lt in H; apply Nat.ltb_ge; nia.
Qed.

Lemma modUpper_scoped : forall n m up lw r,
  length lw = md - 1 -> r + 1 <= m -> md <= m -> length up = m / md -> scoped n up -> scoped n lw ->
  cscoped n (modUpper up lw md r).
Proof.
  intros n m up lw r Llw Hr Hm Lu Su Sl; unfold modUpper; cbv zeta.
  pose proof (dm (r + 1)) as [Er Br]; set (u := (r + 1) / md) in *; set (x := (r + 1) mod md) in *.
  assert (Ell : r + 1 - u * md = x) by nia; rewrite Ell.
  assert (Um : u <= m / md) by (apply div_mono; lia).
  assert (A : forall i, i < m / md -> lscope n (neg (at_ up i))) by (intros; apply lscope_neg, scoped_at; [exact Su | lia]).
  assert (B : forall i, i < md - 1 -> lscope n (neg (at_ lw i))) by (intros; apply lscope_neg, scoped_at; [exact Sl | lia]).
  apply cscoped_app; split.
  - apply cscoped_map; intros i Hi; apply in_seq in Hi; split_scoped; apply A; lia.
  - destruct (Nat.eqb_spec u 0) as [Eu|Eu]; cbn [negb andb].
    + apply cscoped_map; intros i Hi; apply in_seq in Hi; split_scoped; apply B; lia.
    + destruct (Nat.eqb_spec x 0) as [Ex|Ex]; cbn [negb andb].
      * split_scoped; apply A; lia.
      * apply cscoped_map; intros i Hi; apply in_seq in Hi; split_scoped; [apply A | apply B]; lia.
Qed.

End Mod.

Lemma csqrt_ge2 : forall r, 1 <= r -> 2 <= csqrt (r + 1) /\ csqrt (r + 1) <= r + 1.
Proof.
  intros r Hr; unfold csqrt; pose proof (Nat.sqrt_spec' (r + 1)) as [A B].
  set (s := Nat.sqrt (r + 1)) in *.
  destruct (Nat.eqb_spec (s * s) (r + 1)); nia.
Qed.

(** The modular totalizer: for every bound up to the one it was built for. *)
Theorem modTotalizer_upper : forall ls rhs n cs up lw md n',
  scoped n ls -> 1 <= rhs -> rhs < length ls ->
  modTotalizer ls rhs n = (cs, up, lw, md, n') ->
  tightens (fun r a => count a ls <= r) (fun r => r <= rhs) (modUpper up lw md) n (cs, n').
Proof.
  intros ls rhs n cs up lw md n' Sls Hr Hl E.
  destruct (csqrt_ge2 rhs Hr) as [Hmd HmR].
  unfold modTotalizer in E; set (m := length ls) in *.
  set (md' := csqrt (rhs + 1)) in *.
  set (n1 := bump ACC (m / md') n) in *; set (n2 := bump ACC (md' - 1) n1) in *.
  set (up' := orH0 (auxs ACC (m / md') n)) in *; set (lw' := auxs ACC (md' - 1) n1) in *.
  destruct (mtToCNF m md' (rhs + 1) up' lw' m ls n2) as [[cs' inl'] n3] eqn:Em.
  assert (Eq : cs = cs' /\ up = up' /\ lw = lw' /\ md = md' /\ n' = n3).
  { split; [exact (f_equal (fun x => fst (fst (fst (fst x)))) (eq_sym E))|].
    split; [exact (f_equal (fun x => snd (fst (fst (fst x)))) (eq_sym E))|].
    split; [exact (f_equal (fun x => snd (fst (fst x))) (eq_sym E))|].
    split; [exact (f_equal (fun x => snd (fst x)) (eq_sym E)) | exact (f_equal snd (eq_sym E))]. }
  destruct Eq as [-> [-> [-> [-> ->]]]]; clear E.
  assert (C1 : cle n n1) by apply cle_bump.
  assert (C2 : cle n1 n2) by apply cle_bump.
  assert (C02 : cle n n2) by (apply cle_trans with n1; assumption).
  assert (Hm : md' <= m) by (unfold m in *; lia).
  assert (Hup : uppers md' n1 m up') by (apply (orH0_uppers md' (rhs + 1)); lia).
  assert (Hup2 : uppers md' n2 m up') by (apply uppers_le with n1; assumption).
  assert (Hlw : lowers md' n2 m lw').
  { split; [unfold lw'; rewrite auxs_length; lia | apply auxs_scoped]. }
  destruct (mtToCNF_ok md' (rhs + 1) Hmd ltac:(lia) ltac:(lia) m up' lw' m ls n2 cs' inl' n3)
    as [used [U1 [U2 [U3 [U4 [U5 U6]]]]]]; auto; [lia | now apply scoped_le with n|].
  assert (inl' = []).
  { apply (f_equal (@length _)) in U1; rewrite app_length in U1; fold m in U1.
    destruct inl'; [reflexivity | simpl in U1; lia]. }
  subst inl'; simpl in U1; subst used.
  assert (Lu : length up' = m / md' /\ scoped n2 up').
  { destruct Hup2 as [[C _]|[_ A]]; [lia | exact A]. }
  destruct Lu as [Lu Su]; destruct Hlw as [Llw Slw].
  assert (Llw' : length lw' = md' - 1) by lia.
  split; [now apply cle_trans with n2|]; cbn [fst snd]; split; [exact U4|].
  split; [|split].
  - intros r Hrr; apply (modUpper_scoped md' (rhs + 1)) with (m := m); auto; try lia; eapply scoped_le; eauto.
  - intros a Ha r Hrr Hb.
    apply (modUpper_sound md' (rhs + 1) Hmd ltac:(lia) ltac:(lia) a m up' lw' r (count a ls)); auto; try lia.
  - intros a.
    destruct (exact_fresh md' (rhs + 1) Hmd ltac:(lia) ltac:(lia) a n m (md' - 1) (count a ls)) as [a1 [Ag1 Ex1]].
    fold up' in Ex1; fold n1 in Ex1; fold lw' in Ex1.
    destruct (U6 a1) as [b [Ag2 Sb]].
    { rewrite (agree_count n a a1 ls Ag1 Sls); exact Ex1. }
    exists b; split; [now apply agree_trans with n2 a1|]; split; [exact Sb|].
    intros r Hrr Hc; apply (modUpper_complete md' (rhs + 1) Hmd ltac:(lia) ltac:(lia) b m up' lw' r (count a ls)); auto; try lia.
    apply (exact_agree md' (rhs + 1) Hmd ltac:(lia) ltac:(lia) n2 a1 b); auto; split; assumption.
Qed.
