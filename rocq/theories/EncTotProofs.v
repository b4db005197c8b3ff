(** * Correctness of the totalizer encodings *)

From Coq Require Import String List Bool Arith ZArith Lia.
From Verif Require Import EncSpec EncAmo EncLemmas EncAmoProofs EncCc.
Import ListNotations.

(** ** Encodings whose bound can be tightened later

    [tightens Q ok bnd n (cs, n')]: the clauses [cs] are always satisfiable by
    choosing the new variables, and adding the clauses [bnd r] for any admissible
    bound [r] then imposes exactly [Q r]. *)
Definition tightens (Q : nat -> env -> Prop) (ok : nat -> Prop) (bnd : nat -> list clause)
                    (n : ctr) (out : list clause * ctr) : Prop :=
  cle n (snd out) /\
  cscoped (snd out) (fst out) /\
  (forall r, ok r -> cscoped (snd out) (bnd r)) /\
  (forall a, sat a (fst out) -> forall r, ok r -> sat a (bnd r) -> Q r a) /\
  (forall a, exists b, agree n a b /\ sat b (fst out) /\ forall r, ok r -> Q r a -> sat b (bnd r)).

Lemma tightens_encodes : forall Q ok bnd n cs n' rs,
  tightens Q ok bnd n (cs, n') -> (forall r, In r rs -> ok r) ->
  encodes (fun a => forall r, In r rs -> Q r a) n (cs ++ flat_map bnd rs, n').
Proof.
  intros Q ok bnd n cs n' rs [H1 [H2 [H3 [H4 H5]]]] Hok; cbn [fst snd] in *.
  split; [exact H1|]; cbn [fst snd]; split; [|split].
  - apply cscoped_app; split; [exact H2|]; apply cscoped_flat_map; auto.
  - intros a Ha r Hr; apply sat_app in Ha as [A B]; rewrite sat_flat_map in B; apply H4; auto.
  - intros a Ha; destruct (H5 a) as [b [Ag [Sb Hb]]]; exists b; split; [exact Ag|].
    apply sat_app; split; [exact Sb|]; apply sat_flat_map; auto.
Qed.

Lemma tightens_encodes1 : forall Q ok bnd n cs n' r,
  tightens Q ok bnd n (cs, n') -> ok r -> encodes (Q r) n (cs ++ bnd r, n').
Proof.
  intros Q ok bnd n cs n' r H Hr.
  pose proof (tightens_encodes Q ok bnd n cs n' [r] H) as E; cbn [flat_map] in E; rewrite app_nil_r in E.
  apply encodes_ext with (fun a => forall r', In r' [r] -> Q r' a).
  - intros a; split; [intros Ha; apply Ha; now left | intros Ha r' [<-|[]]; exact Ha].
  - apply E; intros r' [<-|[]]; exact Hr.
Qed.

Lemma pair3 : forall {A B C} (a a' : A) (b b' : B) (c c' : C),
  (a, b, c) = (a', b', c') -> a = a' /\ b = b' /\ c = c'.
Proof. intros A B C a a' b b' c c' H; injection H; auto. Qed.

(** ** Adders

    [cl] and [cr] are the numbers of true inputs below the two halves. *)

Definition upTo (a : env) (l : list elit) (c K : nat) : Prop :=
  forall i, 1 <= i <= c -> i <= K -> lval a (at_ l (i - 1)) = true.
Definition notAbove (a : env) (l : list elit) (c : nat) : Prop :=
  forall i, 1 <= i <= length l -> lval a (at_ l (i - 1)) = true -> i <= c.
Definition exactly (a : env) (l : list elit) (c : nat) : Prop :=
  forall i, i < length l -> lval a (at_ l i) = (i <? c).

Lemma exactly_iff : forall a l c i, exactly a l c -> 1 <= i <= length l ->
  (lval a (at_ l (i - 1)) = true <-> i <= c).
Proof. intros a l c i H Hi; rewrite H by lia; rewrite Nat.ltb_lt; lia. Qed.

Lemma adderAMK_up : forall a lft rgt out rhs cl cr,
  sat a (adderAMK lft rgt out rhs) -> cl <= length lft -> cr <= length rgt ->
  upTo a lft cl (rhs + 1) -> upTo a rgt cr (rhs + 1) -> upTo a out (cl + cr) (rhs + 1).
Proof.
  intros a lft rgt out rhs cl cr H Hl Hr Ul Ur c Hc Hk.
  unfold adderAMK in H; rewrite sat_flat_map in H.
  set (i := Nat.min c cl); set (j := c - i).
  assert (Hij : i + j = c /\ i <= cl /\ j <= cr) by (unfold i, j; lia).
  specialize (H i ltac:(apply in_seq; lia)); rewrite sat_flat_map in H.
  specialize (H j ltac:(apply in_seq; lia)).
  destruct (Nat.eqb_spec i 0) as [Ei|Ei], (Nat.eqb_spec j 0) as [Ej|Ej]; cbn [andb] in H; [lia| | |];
    destruct (Nat.ltb_spec (rhs + 1) (i + j)); try lia.
  - apply sat1 in H; rewrite csat2 in H; replace c with j by lia; apply H, Ur; lia.
  - apply sat1 in H; rewrite csat2 in H; replace c with i by lia; apply H, Ul; lia.
  - apply sat1 in H; rewrite csat3 in H; replace (c - 1) with (i + j - 1) by lia.
    apply H; [apply Ul | apply Ur]; lia.
Qed.

Lemma adderAMK_complete : forall a lft rgt out rhs cl cr,
  length out = length lft + length rgt ->
  exactly a lft cl -> exactly a rgt cr -> exactly a out (cl + cr) -> sat a (adderAMK lft rgt out rhs).
Proof.
  intros a lft rgt out rhs cl cr Lo El Er Eo; unfold adderAMK; apply sat_flat_map; intros i Hi.
  apply sat_flat_map; intros j Hj; apply in_seq in Hi; apply in_seq in Hj.
  destruct (Nat.eqb_spec i 0) as [Ei|Ei], (Nat.eqb_spec j 0) as [Ej|Ej]; cbn [andb]; [apply sat_nil| | |];
    destruct (Nat.ltb_spec (rhs + 1) (i + j)); try apply sat_nil; apply sat1.
  - apply csat2; rewrite (exactly_iff a rgt cr j), (exactly_iff a out (cl + cr) j) by (auto; lia); lia.
  - apply csat2; rewrite (exactly_iff a lft cl i), (exactly_iff a out (cl + cr) i) by (auto; lia); lia.
  - apply csat3; rewrite (exactly_iff a lft cl i), (exactly_iff a rgt cr j),
      (exactly_iff a out (cl + cr) (i + j)) by (auto; lia); lia.
Qed.

Lemma adderALK_low : forall a lft rgt out cl cr,
  sat a (adderALK lft rgt out) -> length out = length lft + length rgt ->
  cl <= length lft -> cr <= length rgt ->
  notAbove a lft cl -> notAbove a rgt cr -> notAbove a out (cl + cr).
Proof.
  intros a lft rgt out cl cr H Lo Hcl Hcr Nl Nr c Hc Hv.
  destruct (Nat.le_gt_cases c (cl + cr)) as [|Hgt]; [assumption|exfalso].
  assert (G : forall i j, i <= length lft -> j <= length rgt ->
    (i = 0 -> 1 <= j -> c = length lft + j -> cr < j -> False) /\
    (j = 0 -> 1 <= i -> c = length rgt + i -> cl < i -> False) /\
    (1 <= i -> 1 <= j -> c = i + j - 1 -> cl < i -> cr < j -> False)).
  { intros i j Hi Hj; unfold adderALK in H; rewrite sat_flat_map in H.
    specialize (H i ltac:(apply in_seq; lia)); rewrite sat_flat_map in H.
    specialize (H j ltac:(apply in_seq; lia)).
    destruct (Nat.eqb_spec i 0) as [Ei|Ei], (Nat.eqb_spec j 0) as [Ej|Ej]; cbn [andb] in H;
      [repeat split; lia| | |]; (split; [|split]; intros; try lia).
    - apply sat1 in H; rewrite csat_cons, csat1, lval_neg_true in H; destruct H as [H|H].
      + pose proof (Nr j ltac:(lia) H); lia.
      + replace (length lft + j - 1) with (c - 1) in H by lia; congruence.
    - apply sat1 in H; rewrite csat_cons, csat1, lval_neg_true in H; destruct H as [H|H].
      + pose proof (Nl i ltac:(lia) H); lia.
      + replace (length rgt + i - 1) with (c - 1) in H by lia; congruence.
    - apply sat1 in H; rewrite !csat_cons, lval_neg_true in H.
      destruct H as [H|[H|[H|H]]].
      + pose proof (Nl i ltac:(lia) H); lia.
      + pose proof (Nr j ltac:(lia) H); lia.
      + replace (i + j - 2) with (c - 1) in H by lia; congruence.
      + now apply csat_nil in H. }
  destruct (Nat.eq_dec cl (length lft)) as [El|El].
  - destruct (G 0 (c - length lft) ltac:(lia) ltac:(lia)) as [G1 _]; apply G1; lia.
  - destruct (Nat.eq_dec cr (length rgt)) as [Er|Er].
    + destruct (G (c - length rgt) 0 ltac:(lia) ltac:(lia)) as [_ [G2 _]]; apply G2; lia.
    + destruct (Nat.eq_dec c (length out)) as [Eo|Eo].
      * destruct (G 0 (length rgt) ltac:(lia) ltac:(lia)) as [G1 _]; apply G1; lia.
      * set (i := Nat.max (cl + 1) (c + 1 - length rgt)).
        destruct (G i (c + 1 - i) ltac:(unfold i; lia) ltac:(unfold i; lia)) as [_ [_ G3]].
        apply G3; unfold i; lia.
Qed.

Lemma adderALK_complete : forall a lft rgt out cl cr,
  length out = length lft + length rgt -> cl <= length lft -> cr <= length rgt ->
  exactly a lft cl -> exactly a rgt cr -> exactly a out (cl + cr) -> sat a (adderALK lft rgt out).
Proof.
  intros a lft rgt out cl cr Lo Hcl Hcr El Er Eo; unfold adderALK; apply sat_flat_map; intros i Hi.
  apply sat_flat_map; intros j Hj; apply in_seq in Hi; apply in_seq in Hj.
  assert (D : forall l m, (lval a m = true -> lval a l = true) -> csat a [l; neg m]).
  { intros l m Hlm; rewrite csat_cons, csat1, lval_neg_true; destruct (lval a m); auto. }
  destruct (Nat.eqb_spec i 0) as [Ei|Ei], (Nat.eqb_spec j 0) as [Ej|Ej]; cbn [andb]; [apply sat_nil| | |];
    apply sat1.
  - apply D; rewrite (exactly_iff a rgt cr j), (exactly_iff a out (cl + cr) (length lft + j)) by (auto; lia); lia.
  - apply D; rewrite (exactly_iff a lft cl i), (exactly_iff a out (cl + cr) (length rgt + i)) by (auto; lia); lia.
  - replace (i + j - 2) with (i + j - 1 - 1) by lia.
    pose proof (exactly_iff a lft cl i El ltac:(lia)) as X1.
    pose proof (exactly_iff a rgt cr j Er ltac:(lia)) as X2.
    pose proof (exactly_iff a out (cl + cr) (i + j - 1) Eo ltac:(lia)) as X3.
    rewrite csat_cons.
    destruct (lval a (at_ lft (i - 1))) eqn:V1; [left; reflexivity | right].
    apply D; intros V3; apply X3 in V3; apply X2.
    destruct (Nat.le_gt_cases j cr); [assumption|exfalso].
    destruct (Nat.le_gt_cases i cl) as [Hi'|]; [apply X1 in Hi'; discriminate | lia].
Qed.

Lemma adders_scoped : forall n lft rgt out rhs b,
  length out = length lft + length rgt -> scoped n lft -> scoped n rgt -> scoped n out ->
  cscoped n ((if isUpper b then adderAMK lft rgt out rhs else []) ++
             (if isLower b then adderALK lft rgt out else [])).
Proof.
  intros n lft rgt out rhs b Lo Sl Sr So.
  assert (A : forall i, i < length lft -> lscope n (at_ lft i)) by (intros; now apply scoped_at).
  assert (B : forall i, i < length rgt -> lscope n (at_ rgt i)) by (intros; now apply scoped_at).
  assert (C : forall i, i < length out -> lscope n (at_ out i)) by (intros; now apply scoped_at).
  apply cscoped_app; split.
  - destruct (isUpper b); [|apply cscoped_nil]; unfold adderAMK.
    apply cscoped_flat_map; intros i Hi; apply cscoped_flat_map; intros j Hj.
    apply in_seq in Hi; apply in_seq in Hj.
    destruct (Nat.eqb_spec i 0), (Nat.eqb_spec j 0); cbn [andb]; [apply cscoped_nil| | |];
      destruct (Nat.ltb_spec (rhs + 1) (i + j)); split_scoped;
      (apply A; lia) || (apply B; lia) || (apply C; lia).
  - destruct (isLower b); [|apply cscoped_nil]; unfold adderALK.
    apply cscoped_flat_map; intros i Hi; apply cscoped_flat_map; intros j Hj.
    apply in_seq in Hi; apply in_seq in Hj.
    destruct (Nat.eqb_spec i 0), (Nat.eqb_spec j 0); cbn [andb]; split_scoped;
      (apply A; lia) || (apply B; lia) || (apply C; lia).
Qed.

(** ** The tree *)

(** What the clauses of a subtree with outputs [out] over the inputs [used]
    guarantee. *)
Definition counts (b : bound) (rhs : nat) (out used : list elit) (n : ctr) (cs : list clause) : Prop :=
  (isUpper b = true -> forall a, sat a cs -> upTo a out (count a used) (rhs + 1)) /\
  (isLower b = true -> forall a, sat a cs -> notAbove a out (count a used)) /\
  (forall a, exactly a out (count a used) -> exists b', agree n a b' /\ sat b' cs).

Lemma split_last : forall (l : list elit), l <> [] -> l = removelast l ++ [at_ l (length l - 1)].
Proof.
  intros l H; destruct (exists_last H) as [r [x ->]].
  rewrite removelast_last, app_length; simpl; unfold at_.
  rewrite app_nth2 by lia; replace (length r + 1 - 1 - length r) with 0 by lia; reflexivity.
Qed.

Lemma toCNF_ok : forall fuel out inv rhs b n cs inv' n',
  2 <= length out <= fuel -> length out <= length inv -> scoped n out -> scoped n inv ->
  toCNF fuel out inv rhs b n = (cs, inv', n') ->
  exists used, inv = inv' ++ used /\ length used = length out /\
    cle n n' /\ cscoped n' cs /\ counts b rhs out used n cs.
Proof.
  induction fuel as [|fuel IH]; intros out inv rhs b n cs inv' n' Hf Hi So Si E; [lia|].
  cbn [toCNF] in E; set (split := length out / 2) in *.
  assert (Hsp : 2 * split <= length out /\ length out <= 2 * split + 1 /\ 1 <= split).
  { pose proof (Nat.div_mod (length out) 2 ltac:(lia)) as D.
    pose proof (Nat.mod_upper_bound (length out) 2 ltac:(lia)); fold split in D; lia. }
  (* a half, together with its recursive call *)
  assert (K : forall k inv n lft inv1 n1, 1 <= k -> k < length out -> k <= length inv -> scoped n inv ->
    half k inv n = (lft, inv1, n1) ->
    length lft = k /\ cle n n1 /\ scoped n1 lft /\ scoped n1 inv1 /\
    (k = 1 -> exists x, lft = [x] /\ inv = inv1 ++ [x]) /\
    (k <> 1 -> inv1 = inv) /\
    (forall a, (k = 1 -> True) -> forall t, (k = 1 -> exists x, lft = [x] /\ t = count a [x]) ->
       exists a', agree n a a' /\ exactly a' lft t)).
  { clear; intros k inv n lft inv1 n1 Hk1 Hk Hl Si E; unfold half in E.
    destruct (Nat.eqb_spec k 1) as [->|Hne]; apply pair3 in E as [<- [<- <-]].
    - assert (inv <> []) by (intros ->; simpl in Hl; lia).
      pose proof (split_last inv H) as R.
      assert (scoped n (removelast inv)).
      { intros l Hl'; apply Si; rewrite R; apply in_app_iff; now left. }
      assert (lscope n (at_ inv (length inv - 1))) by (apply scoped_at; [exact Si | lia]).
      split; [reflexivity|]; split; [apply cle_refl|]; split; [split_scoped; assumption|].
      split; [assumption|]; split; [intros _; eexists; split; [reflexivity | exact R]|].
      split; [intros C; lia|]; intros a _ t Ht; destruct (Ht eq_refl) as [x [Ex ->]].
      injection Ex as <-; exists a; split; [apply agree_refl|].
      intros i Hi'; simpl in Hi'; assert (i = 0) by lia; subst i; rewrite at_0; cbn [count].
      destruct (lval a _); reflexivity.
    - split; [apply auxs_length|]; split; [apply cle_bump|]; split; [apply auxs_scoped|].
      split; [apply scoped_le with n; [apply cle_bump | exact Si]|]; split; [intros C; lia|].
      split; [reflexivity|]; intros a _ t _.
      exists (upd ACC (fresh ACC n) (fun i => i <? t) a); split; [apply upd_agree|].
      intros i Hi'; rewrite auxs_length in Hi'; rewrite upd_at by exact Hi'; reflexivity. }
  destruct (half split inv n) as [[lft inv1] n1] eqn:E1.
  destruct (K split inv n lft inv1 n1 ltac:(lia) ltac:(lia) ltac:(lia) Si E1)
    as [Ll [Hn1 [Sl [Si1 [Kl1 [Kl2 Kl3]]]]]].
  assert (Li1 : length inv1 = length inv - (if split =? 1 then 1 else 0)).
  { destruct (Nat.eqb_spec split 1) as [e|e].
    - destruct (Kl1 e) as [x [_ ->]]; rewrite app_length; simpl; lia.
    - rewrite (Kl2 e); lia. }
  destruct (half (length out - split) inv1 n1) as [[rgt inv2] n2] eqn:E2.
  destruct (K (length out - split) inv1 n1 rgt inv2 n2 ltac:(lia) ltac:(lia)
              ltac:(destruct (Nat.eqb_spec split 1); lia) Si1 E2)
    as [Lr [Hn2 [Sr [Si2 [Kr1 [Kr2 Kr3]]]]]].
  clear K.
  (* the left recursive call *)
  assert (A1 : forall c1 inv3 n3,
    (if 1 <? length lft then toCNF fuel lft inv2 rhs b n2 else ([], inv2, n2)) = (c1, inv3, n3) ->
    exists ul, length ul = split /\ cle n2 n3 /\ cscoped n3 c1 /\
      (if split =? 1 then inv3 = inv2 /\ inv = inv1 ++ ul /\ lft = ul
       else inv2 = inv3 ++ ul /\ inv = inv1) /\ scoped n2 ul /\
      counts b rhs lft ul n2 c1).
  { intros c1 inv3 n3 Ec; rewrite Ll in Ec.
    destruct (Nat.ltb_spec 1 split) as [H1|H1].
    - destruct (IH lft inv2 rhs b n2 c1 inv3 n3) as [ul [U1 [U2 [U3 [U4 U5]]]]]; try lia; auto.
      + rewrite (Kr2 ltac:(lia)), (Kl2 ltac:(lia)); lia.
      + apply scoped_le with n1; assumption.
      + exists ul; rewrite Ll in U2; repeat (split; [assumption|]).
        split; [destruct (Nat.eqb_spec split 1); [lia|]; split; [exact U1 | symmetry; apply Kl2; lia]|].
        split; [|exact U5]; intros l Hl; apply Si2; rewrite U1; apply in_app_iff; now right.
    - assert (Es : split = 1) by lia; destruct (Kl1 Es) as [x [Ex Ei]].
      injection Ec as <- <- <-; exists [x]; split; [simpl; lia|].
      split; [apply cle_refl|]; split; [apply cscoped_nil|].
      split; [rewrite Es; simpl; auto|].
      split; [rewrite <- Ex; now apply scoped_le with n1|].
      rewrite Ex; split; [|split].
      + intros _ a _ i Hi' _; cbn [count] in Hi'; assert (i = 1) by (destruct (lval a x); lia); subst i.
        cbn; destruct (lval a x); [reflexivity | lia].
      + intros _ a _ i Hi' Hv; simpl in Hi'; assert (i = 1) by lia; subst i; cbn in Hv |- *; rewrite Hv; lia.
      + intros a _; exists a; split; [apply agree_refl | apply sat_nil]. }
  destruct (if 1 <? length lft then toCNF fuel lft inv2 rhs b n2 else ([], inv2, n2)) as [[c1 inv3] n3] eqn:Ec1.
  destruct (A1 c1 inv3 n3 eq_refl) as [ul [Lul [Hn3 [Sc1 [Iul [Sul Cul]]]]]]; clear A1.
  assert (A2 : forall c2 inv4 n4,
    (if 1 <? length rgt then toCNF fuel rgt inv3 rhs b n3 else ([], inv3, n3)) = (c2, inv4, n4) ->
    exists ur, length ur = length out - split /\ cle n3 n4 /\ cscoped n4 c2 /\
      inv = inv4 ++ ur ++ ul /\ scoped n3 ur /\
      counts b rhs rgt ur n3 c2).
  { intros c2 inv4 n4 Ec; rewrite Lr in Ec.
    destruct (Nat.ltb_spec 1 (length out - split)) as [H1|H1].
    - assert (Ei : inv = inv3 ++ ul).
      { destruct (Nat.eqb_spec split 1).
        - destruct Iul as [-> [I2 _]]; rewrite (Kr2 ltac:(lia)); exact I2.
        - destruct Iul as [I1 I2]; rewrite I2, <- (Kr2 ltac:(lia)); exact I1. }
      assert (Sv3 : scoped n3 inv3).
      { apply scoped_le with n; [repeat (eapply cle_trans; [eassumption|]); apply cle_refl|].
        intros l Hl; apply Si; rewrite Ei; apply in_app_iff; now left. }
      destruct (IH rgt inv3 rhs b n3 c2 inv4 n4) as [ur [U1 [U2 [U3 [U4 U5]]]]]; try lia; auto.
      + apply (f_equal (@length _)) in Ei; rewrite app_length in Ei; lia.
      + apply scoped_le with n2; assumption.
      + exists ur; rewrite Lr in U2; repeat (split; [assumption|]).
        split; [rewrite Ei, U1, <- app_assoc; reflexivity|].
        split; [|exact U5]; intros l Hl; apply Sv3; rewrite U1; apply in_app_iff; now right.
    - assert (Es : length out - split = 1) by lia; destruct (Kr1 Es) as [x [Ex Ei]].
      assert (Es1 : split = 1) by lia; rewrite Es1 in Iul; destruct Iul as [I1 [I2 I3]].
      injection Ec as <- <- <-; exists [x]; split; [simpl; lia|].
      split; [apply cle_refl|]; split; [apply cscoped_nil|].
      split; [rewrite I2, Ei, I1, <- app_assoc; reflexivity|].
      split; [rewrite <- Ex; now apply scoped_le with n2|].
      rewrite Ex; split; [|split].
      + intros _ a _ i Hi' _; cbn [count] in Hi'; assert (i = 1) by (destruct (lval a x); lia); subst i.
        cbn; destruct (lval a x); [reflexivity | lia].
      + intros _ a _ i Hi' Hv; simpl in Hi'; assert (i = 1) by lia; subst i; cbn in Hv |- *; rewrite Hv; lia.
      + intros a _; exists a; split; [apply agree_refl | apply sat_nil]. }
  destruct (if 1 <? length rgt then toCNF fuel rgt inv3 rhs b n3 else ([], inv3, n3)) as [[c2 inv4] n4] eqn:Ec2.
  destruct (A2 c2 inv4 n4 eq_refl) as [ur [Lur [Hn4 [Sc2 [Iur [Sur Cur]]]]]]; clear A2.
  injection E as <- <- <-.
  set (adders := (if isUpper b then adderAMK lft rgt out rhs else []) ++
                 (if isLower b then adderALK lft rgt out else [])).
  assert (Lo : length out = length lft + length rgt) by lia.
  assert (H02 : cle n n2) by (apply cle_trans with n1; assumption).
  assert (H24 : cle n2 n4) by (apply cle_trans with n3; assumption).
  assert (Sad : cscoped n2 adders).
  { apply adders_scoped; [exact Lo | now apply scoped_le with n1 | exact Sr | now apply scoped_le with n]. }
  assert (Snl : scoped n ul /\ scoped n ur).
  { rewrite Iur in Si; apply scoped_app in Si as [_ Si]; apply scoped_app in Si as [A B]; auto. }
  destruct Snl as [Snl Snr].
  exists (ur ++ ul); split; [exact Iur|]; split; [rewrite app_length; lia|].
  split; [now apply cle_trans with n2|].
  split; [split_scoped; [now apply cscoped_le with n2 | now apply cscoped_le with n3 | exact Sc2]|].
  destruct Cul as [Cl1 [Cl2 Cl3]]; destruct Cur as [Cr1 [Cr2 Cr3]].
  split; [|split].
  - intros Hu a Ha; apply sat_app in Ha as [A B]; apply sat_app in B as [B C].
    unfold adders in A; rewrite Hu in A; apply sat_app in A as [A _].
    rewrite count_app, Nat.add_comm; apply (adderAMK_up a lft rgt out rhs); auto.
    + rewrite Ll, <- Lul; apply count_le.
    + rewrite Lr, <- Lur; apply count_le.
  - intros Hu a Ha; apply sat_app in Ha as [A B]; apply sat_app in B as [B C].
    unfold adders in A; rewrite Hu in A; apply sat_app in A as [_ A].
    rewrite count_app, Nat.add_comm; apply (adderALK_low a lft rgt out); auto.
    + rewrite Ll, <- Lul; apply count_le.
    + rewrite Lr, <- Lur; apply count_le.
  - intros a Ha; rewrite count_app, Nat.add_comm in Ha.
    destruct (Kl3 a ltac:(auto) (count a ul)) as [a1 [Ag1 Ex1]].
    { intros Es; rewrite Es in Iul; destruct Iul as [_ [_ Il]]; destruct (Kl1 Es) as [x [Ex _]].
      exists x; split; [exact Ex|]; rewrite <- Il, Ex; reflexivity. }
    destruct (Kr3 a1 ltac:(auto) (count a ur)) as [a2 [Ag2 Ex2]].
    { intros Es; assert (Es1 : split = 1) by lia; destruct (Kr1 Es) as [x [Ex Ei]].
      rewrite Es1 in Iul; destruct Iul as [I1 [I2 _]].
      exists x; split; [exact Ex|].
      assert (ur = [x]).
      { rewrite Lr, Es in Ec2; cbn in Ec2; injection Ec2 as _ <- _.
        rewrite I1, I2, Ei, <- app_assoc in Iur; apply app_inv_head in Iur.
        apply app_inv_tail in Iur; symmetry; exact Iur. }
      subst ur; symmetry; apply agree_count with n; assumption. }
    assert (Ag02 : agree n a a2) by (apply agree_trans with n1 a1; assumption).
    assert (Ex1' : exactly a2 lft (count a ul)).
    { intros i Hi'; rewrite <- Ex1 by exact Hi'; apply (agree_lval n1 a1 a2 _ Ag2), scoped_at; assumption. }
    assert (Exo : exactly a2 out (count a ul + count a ur)).
    { intros i Hi'; rewrite <- Ha by exact Hi'; apply (agree_lval n a a2 _ Ag02), scoped_at; assumption. }
    assert (Sa2 : sat a2 adders).
    { unfold adders; apply sat_app; split.
      - destruct (isUpper b); [|apply sat_nil]; apply adderAMK_complete with (count a ul) (count a ur); auto.
      - destruct (isLower b); [|apply sat_nil]; apply adderALK_complete with (count a ul) (count a ur); auto.
        + rewrite Ll, <- Lul; apply count_le.
        + rewrite Lr, <- Lur; apply count_le. }
    destruct (Cl3 a2) as [a3 [Ag3 Sa3]].
    { rewrite (agree_count n a a2 ul Ag02 Snl); exact Ex1'. }
    destruct (Cr3 a3) as [a4 [Ag4 Sa4]].
    { rewrite (agree_count n2 a2 a3 ur Ag3) by now apply scoped_le with n.
      rewrite (agree_count n a a2 ur Ag02 Snr).
      intros i Hi'; rewrite <- Ex2 by exact Hi'; apply (agree_lval n2 a2 a3 _ Ag3), scoped_at; assumption. }
    assert (Ag24 : agree n2 a2 a4) by (apply agree_trans with n3 a3; assumption).
    exists a4; split; [apply agree_trans with n2 a2; assumption|].
    apply sat_app; split; [exact (agree_sat n2 a2 a4 _ Ag24 Sad Sa2)|].
    apply sat_app; split; [exact (agree_sat n3 a3 a4 _ Ag4 Sc1 Sa3) | exact Sa4].
Qed.

Lemma totalizer_ok : forall ls rhs b n cs out n',
  2 <= length ls -> scoped n ls -> totalizer ls rhs b n = (cs, out, n') ->
  cle n n' /\ cscoped n' cs /\ scoped n' out /\ length out = length ls /\
  (isUpper b = true -> forall a, sat a cs -> upTo a out (count a ls) (rhs + 1)) /\
  (isLower b = true -> forall a, sat a cs -> notAbove a out (count a ls)) /\
  (forall a, exists a', agree n a a' /\ sat a' cs /\ exactly a' out (count a ls)).
Proof.
  intros ls rhs b n cs out n' Hl Hs E; unfold totalizer in E.
  set (o := auxs ACC (length ls) n) in *; set (n1 := bump ACC (length ls) n) in *.
  destruct (toCNF (length ls) o ls rhs b n1) as [[cs0 inv'] n2] eqn:E1.
  apply pair3 in E as [<- [<- <-]].
  assert (Lo : length o = length ls) by apply auxs_length.
  assert (So : scoped n1 o) by apply auxs_scoped.
  assert (H01 : cle n n1) by apply cle_bump.
  destruct (toCNF_ok (length ls) o ls rhs b n1 cs0 inv' n2 ltac:(lia) ltac:(lia) So
              (scoped_le n n1 ls H01 Hs) E1) as [used [U1 [U2 [U3 [U4 [U5 [U6 U7]]]]]]].
  assert (inv' = []) as ->.
  { apply (f_equal (@length _)) in U1; rewrite app_length in U1; destruct inv'; [reflexivity | simpl in U1; lia]. }
  cbn [app] in U1; subst used.
  split; [now apply cle_trans with n1|]; split; [exact U4|]; split; [now apply scoped_le with n1|].
  split; [exact Lo|]; split; [exact U5|]; split; [exact U6|].
  intros a; set (a1 := upd ACC (fresh ACC n) (fun i => i <? count a ls) a).
  assert (Ag1 : agree n a a1) by apply upd_agree.
  assert (Ex1 : exactly a1 o (count a ls)).
  { intros i Hi; unfold a1, o; rewrite upd_at by lia; reflexivity. }
  destruct (U7 a1) as [a2 [Ag2 Sa2]]; [rewrite (agree_count n a a1 ls Ag1 Hs); exact Ex1|].
  exists a2; split; [now apply agree_trans with n1 a1|]; split; [exact Sa2|].
  intros i Hi; rewrite <- Ex1 by exact Hi; apply (agree_lval n1 a1 a2 _ Ag2), scoped_at; assumption.
Qed.

Lemma totUpper_sat : forall a out r,
  sat a (totUpper out r) <-> forall i, r <= i < length out -> lval a (at_ out i) = false.
Proof.
  intros a out r; unfold totUpper; rewrite sat_map; split; intros H i Hi.
  - apply lval_neg_true, csat1, H, in_seq; lia.
  - apply in_seq in Hi; apply csat1, lval_neg_true, H; lia.
Qed.

Lemma totLower_sat : forall a out r,
  sat a (totLower out r) <-> forall i, i < r -> lval a (at_ out i) = true.
Proof.
  intros a out r; unfold totLower; rewrite sat_map; split; intros H i Hi.
  - apply csat1, H, in_seq; lia.
  - apply in_seq in Hi; apply csat1, H; lia.
Qed.

Lemma totUpper_scoped : forall n out r, scoped n out -> cscoped n (totUpper out r).
Proof.
  intros n out r H; apply cscoped_map; intros i Hi; apply in_seq in Hi; split_scoped.
  apply scoped_at; [exact H | lia].
Qed.

Lemma totLower_scoped : forall n out r, scoped n out -> r <= length out -> cscoped n (totLower out r).
Proof.
  intros n out r H Hr; apply cscoped_map; intros i Hi; apply in_seq in Hi; split_scoped.
  apply scoped_at; [exact H | lia].
Qed.

Lemma totalizer_upper : forall ls rhs n cs out n',
  2 <= length ls -> scoped n ls -> rhs < length ls -> totalizer ls rhs BUpper n = (cs, out, n') ->
  tightens (fun r a => count a ls <= r) (fun r => r <= rhs) (totUpper out) n (cs, n').
Proof.
  intros ls rhs n cs out n' Hl Hs Hr E.
  destruct (totalizer_ok _ _ _ _ _ _ _ Hl Hs E) as [H1 [H2 [H3 [H4 [H5 [_ H7]]]]]].
  split; [exact H1|]; split; [exact H2|]; split; [|split]; cbn [fst snd].
  - intros r _; now apply totUpper_scoped.
  - intros a Ha r Hrr Hb; rewrite totUpper_sat in Hb.
    destruct (Nat.le_gt_cases (count a ls) r) as [|Hgt]; [assumption|exfalso].
    pose proof (H5 eq_refl a Ha (r + 1) ltac:(lia) ltac:(lia)) as T.
    replace (r + 1 - 1) with r in T by lia; rewrite Hb in T; [discriminate|].
    pose proof (count_le a ls); lia.
  - intros a; destruct (H7 a) as [b [Ag [Sb Ex]]]; exists b; split; [exact Ag|]; split; [exact Sb|].
    intros r _ Hc; apply totUpper_sat; intros i Hi; rewrite Ex by lia; apply Nat.ltb_ge; lia.
Qed.

Lemma totalizer_lower : forall ls rhs n cs out n',
  2 <= length ls -> scoped n ls -> totalizer ls rhs BLower n = (cs, out, n') ->
  tightens (fun r a => r <= count a ls) (fun r => r <= length ls) (totLower out) n (cs, n').
Proof.
  intros ls rhs n cs out n' Hl Hs E.
  destruct (totalizer_ok _ _ _ _ _ _ _ Hl Hs E) as [H1 [H2 [H3 [H4 [_ [H6 H7]]]]]].
  split; [exact H1|]; split; [exact H2|]; split; [|split]; cbn [fst snd].
  - intros r Hr; apply totLower_scoped; [exact H3 | lia].
  - intros a Ha r Hr Hb; rewrite totLower_sat in Hb; destruct r as [|r]; [lia|].
    apply (H6 eq_refl a Ha (S r)); [lia|]; apply Hb; lia.
  - intros a; destruct (H7 a) as [b [Ag [Sb Ex]]]; exists b; split; [exact Ag|]; split; [exact Sb|].
    intros r Hr Hc; apply totLower_sat; intros i Hi; rewrite Ex by lia; apply Nat.ltb_lt; lia.
Qed.

Lemma totalizer_exact : forall ls rhs n cs out n',
  2 <= length ls -> scoped n ls -> rhs < length ls -> totalizer ls rhs BBoth n = (cs, out, n') ->
  encodes (fun a => count a ls = rhs) n (cs ++ totLower out rhs ++ totUpper out rhs, n').
Proof.
  intros ls rhs n cs out n' Hl Hs Hr E.
  destruct (totalizer_ok _ _ _ _ _ _ _ Hl Hs E) as [H1 [H2 [H3 [H4 [H5 [H6 H7]]]]]].
  split; [exact H1|]; split; [|split]; cbn [fst snd].
  - split_scoped; [exact H2 | apply totLower_scoped; [exact H3 | lia] | now apply totUpper_scoped].
  - intros a Ha; apply sat_app in Ha as [A Ha]; apply sat_app in Ha as [B C].
    rewrite totLower_sat in B; rewrite totUpper_sat in C.
    pose proof (count_le a ls).
    assert (count a ls <= rhs).
    { destruct (Nat.le_gt_cases (count a ls) rhs) as [|Hgt]; [assumption|exfalso].
      pose proof (H5 eq_refl a A (rhs + 1) ltac:(lia) ltac:(lia)) as T.
      replace (rhs + 1 - 1) with rhs in T by lia; rewrite C in T; [discriminate | lia]. }
    assert (rhs <= count a ls); [|lia].
    destruct rhs as [|r]; [lia|]; apply (H6 eq_refl a A (S r)); [lia|]; apply B; lia.
  - intros a Ha; destruct (H7 a) as [b [Ag [Sb Ex]]]; exists b; split; [exact Ag|].
    apply sat_app; split; [exact Sb|]; apply sat_app; split.
    + apply totLower_sat; intros i Hi; rewrite Ex by lia; apply Nat.ltb_lt; lia.
    + apply totUpper_sat; intros i Hi; rewrite Ex by lia; apply Nat.ltb_ge; lia.
Qed.
