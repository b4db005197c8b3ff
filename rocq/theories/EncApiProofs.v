(** * Correctness of the entry points for cardinality constraints *)

From Coq Require Import String List Bool Arith ZArith Lia.
From Verif Require Import Spec EncSpec EncAmo EncLemmas EncAmoProofs EncCc EncTotProofs EncModProofs
  EncCn EncCnProofs EncApi.
Import ListNotations.

(** ** Both readings of an encoding at once

    [z = true] allows the literal 0 and reads it as false, [z = false] forbids it. *)

Definition lscopeZ (z : bool) (n : ctr) (l : elit) : Prop :=
  lscope n l \/ (z = true /\ l = (Zero, true)).
Definition cscopedZ (z : bool) (n : ctr) (cs : list clause) : Prop :=
  forall c, In c cs -> forall l, In l c -> lscopeZ z n l.
Definition envZ (z : bool) (a : env) : Prop := z = true -> a Zero = false.

Definition encodesZ (z : bool) (P : env -> Prop) (n : ctr) (out : list clause * ctr) : Prop :=
  cle n (snd out) /\
  cscopedZ z (snd out) (fst out) /\
  (forall a, envZ z a -> sat a (fst out) -> P a) /\
  (forall a, envZ z a -> P a -> exists b, agree n a b /\ envZ z b /\ sat b (fst out)).

Definition tightensZ (z : bool) (Q : nat -> env -> Prop) (ok : nat -> Prop) (bnd : nat -> list clause)
                    (n : ctr) (out : list clause * ctr) : Prop :=
  cle n (snd out) /\
  cscopedZ z (snd out) (fst out) /\
  (forall r, ok r -> cscopedZ z (snd out) (bnd r)) /\
  (forall a, envZ z a -> sat a (fst out) -> forall r, ok r -> sat a (bnd r) -> Q r a) /\
  (forall a, envZ z a -> exists b, agree n a b /\ envZ z b /\ sat b (fst out) /\
                                   forall r, ok r -> Q r a -> sat b (bnd r)).

Lemma encodesZ_false : forall P n out, encodesZ false P n out -> encodes P n out.
Proof.
  intros P n out [H1 [H2 [H3 H4]]]; split; [exact H1|]; split; [|split].
  - intros c Hc l Hl; destruct (H2 c Hc l Hl) as [H|[H _]]; [exact H | discriminate].
  - intros a Ha; apply H3; [intros H; discriminate | exact Ha].
  - intros a Ha; destruct (H4 a ltac:(intros H; discriminate) Ha) as [b [B1 [_ B2]]]; now exists b.
Qed.

Lemma encodesZ_true : forall P n out, encodesZ true P n out -> encodes0 P n out.
Proof.
  intros P n out [H1 [H2 [H3 H4]]]; split; [exact H1|]; split; [|split].
  - intros c Hc l Hl; destruct (H2 c Hc l Hl) as [H|[_ H]]; [now left | now right].
  - intros a Hz Ha; apply H3; [now intros _ | exact Ha].
  - intros a Hz Ha; destruct (H4 a ltac:(now intros _) Ha) as [b [B1 [B2 B3]]]; exists b; split; [exact B1|].
    split; [now apply B2 | exact B3].
Qed.

Lemma cscoped_Z : forall z n cs, cscoped n cs -> cscopedZ z n cs.
Proof. intros z n cs H c Hc l Hl; left; exact (H c Hc l Hl). Qed.

Lemma cscoped0_Z : forall n cs, cscoped0 n cs -> cscopedZ true n cs.
Proof. intros n cs H c Hc l Hl; destruct (H c Hc l Hl) as [E|E]; [now left | right; now split]. Qed.

Lemma cscopedZ_app : forall z n c d, cscopedZ z n (c ++ d) <-> cscopedZ z n c /\ cscopedZ z n d.
Proof.
  intros z n c d; split.
  - intros H; split; intros x Hx; apply (H x), in_app_iff; [now left | now right].
  - intros [H K] x Hx; apply in_app_iff in Hx as [Hx|Hx]; [exact (H x Hx) | exact (K x Hx)].
Qed.

(** Setting the literal 0 to false changes nothing else. *)
Definition unzero (a : env) : env := fun v => match v with Zero => false | _ => a v end.

Lemma unzero_agree : forall n a, agree n a (unzero a).
Proof. intros n a [] H; reflexivity || destruct H. Qed.

Lemma unzero_envZ : forall z a, envZ z (unzero a).
Proof. intros z a _; reflexivity. Qed.

Lemma encodes_Z : forall z P n out, encodes P n out -> encodesZ z P n out.
Proof.
  intros z P n out [H1 [H2 [H3 H4]]]; split; [exact H1|]; split; [|split].
  - now apply cscoped_Z.
  - intros a _; apply H3.
  - intros a _ Ha; destruct (H4 a Ha) as [b [B1 B2]]; exists (unzero b); split; [|split].
    + exact (agree_trans n n a b (unzero b) (cle_refl n) B1 (unzero_agree n b)).
    + apply unzero_envZ.
    + exact (agree_sat (snd out) b (unzero b) (fst out) (unzero_agree _ b) H2 B2).
Qed.

Lemma tightens_Z : forall z Q ok bnd n out, tightens Q ok bnd n out -> tightensZ z Q ok bnd n out.
Proof.
  intros z Q ok bnd n out [H1 [H2 [H3 [H4 H5]]]]; split; [exact H1|]; split; [|split; [|split]].
  - now apply cscoped_Z.
  - intros r Hr; apply cscoped_Z; auto.
  - intros a _; apply H4.
  - intros a _; destruct (H5 a) as [b [B1 [B2 B3]]]; exists (unzero b); split; [|split; [|split]].
    + exact (agree_trans n n a b (unzero b) (cle_refl n) B1 (unzero_agree n b)).
    + apply unzero_envZ.
    + exact (agree_sat (snd out) b (unzero b) (fst out) (unzero_agree _ b) H2 B2).
    + intros r Hr Hq; exact (agree_sat (snd out) b (unzero b) _ (unzero_agree _ b) (H3 r Hr) (B3 r Hr Hq)).
Qed.

Lemma encodesZ_ext : forall z P Q n out, (forall a, P a <-> Q a) -> encodesZ z P n out -> encodesZ z Q n out.
Proof.
  intros z P Q n out E [H1 [H2 [H3 H4]]]; split; [exact H1|]; split; [exact H2|]; split.
  - intros a Hz Ha; apply E; auto.
  - intros a Hz Ha; apply H4; [exact Hz | now apply E].
Qed.

Lemma tightensZ_encodes : forall z Q ok bnd n cs n' rs,
  tightensZ z Q ok bnd n (cs, n') -> (forall r, In r rs -> ok r) ->
  encodesZ z (fun a => forall r, In r rs -> Q r a) n (cs ++ flat_map bnd rs, n').
Proof.
  intros z Q ok bnd n cs n' rs [H1 [H2 [H3 [H4 H5]]]] Hok; cbn [fst snd] in *.
  split; [exact H1|]; cbn [fst snd]; split; [|split].
  - apply cscopedZ_app; split; [exact H2|]; intros c Hc; apply in_flat_map in Hc as [r [Hr Hc]].
    exact (H3 r (Hok r Hr) c Hc).
  - intros a Hz Ha r Hr; apply sat_app in Ha as [A B]; rewrite sat_flat_map in B; apply H4; auto.
  - intros a Hz Ha; destruct (H5 a Hz) as [b [Ag [Zb [Sb Hb]]]]; exists b; split; [exact Ag|].
    split; [exact Zb|].
    apply sat_app; split; [exact Sb|]; apply sat_flat_map; auto.
Qed.

Lemma tightensZ_encodes1 : forall z Q ok bnd n cs n' r,
  tightensZ z Q ok bnd n (cs, n') -> ok r -> encodesZ z (Q r) n (cs ++ bnd r, n').
Proof.
  intros z Q ok bnd n cs n' r H Hr.
  pose proof (tightensZ_encodes z Q ok bnd n cs n' [r] H) as E; cbn [flat_map] in E; rewrite app_nil_r in E.
  apply encodesZ_ext with (fun a => forall r', In r' [r] -> Q r' a).
  - intros a; split; [intros Ha; apply Ha; now left | intros Ha r' [<-|[]]; exact Ha].
  - apply E; intros r' [<-|[]]; exact Hr.
Qed.

(** Renaming the bounds. *)
Lemma tightensZ_map : forall z Q ok bnd n out (f : nat -> nat) (Q' : nat -> env -> Prop) (ok' : nat -> Prop) bnd',
  tightensZ z Q ok bnd n out ->
  (forall r, ok' r -> ok (f r)) -> (forall r a, ok' r -> Q' r a <-> Q (f r) a) ->
  (forall r, ok' r -> bnd' r = bnd (f r)) ->
  tightensZ z Q' ok' bnd' n out.
Proof.
  intros z Q ok bnd n out f Q' ok' bnd' [H1 [H2 [H3 [H4 H5]]]] Hok HQ Hb.
  split; [exact H1|]; split; [exact H2|]; split; [|split].
  - intros r Hr; rewrite Hb by exact Hr; apply H3; auto.
  - intros a Hz Ha r Hr Hs; rewrite Hb in Hs by exact Hr; apply HQ; [exact Hr|].
    apply (H4 a Hz Ha (f r)); auto.
  - intros a Hz; destruct (H5 a Hz) as [b [B1 [B2 [B3 B4]]]]; exists b.
    split; [exact B1|]; split; [exact B2|]; split; [exact B3|].
    intros r Hr Hq; rewrite Hb by exact Hr; apply B4; [auto | now apply HQ].
Qed.

(** ** Trivial constraints *)

Lemma encodes_true : forall (P : env -> Prop) n, (forall a, P a) -> encodes P n ([], n).
Proof.
  intros P n H; split; [apply cle_refl|]; split; [apply cscoped_nil|]; split; [intros; apply H|].
  intros a _; exists a; split; [apply agree_refl | apply sat_nil].
Qed.

Lemma encodes_false : forall (P : env -> Prop) n, (forall a, ~ P a) -> encodes P n ([[]], n).
Proof.
  intros P n H; split; [apply cle_refl|]; split; [|split]; cbn [fst snd].
  - intros c [<-|[]]; apply scoped_nil.
  - intros a Ha; apply sat1 in Ha; now apply csat_nil in Ha.
  - intros a Ha; now apply H in Ha.
Qed.

Lemma encodes_same : forall (P : env -> Prop) n cs, cscoped n cs -> (forall a, sat a cs <-> P a) ->
  encodes P n (cs, n).
Proof.
  intros P n cs Hs H; split; [apply cle_refl|]; split; [exact Hs|]; split; [intros a; apply H|].
  intros a Ha; exists a; split; [apply agree_refl | now apply H].
Qed.

Lemma units_scoped : forall n ls, scoped n ls -> cscoped n (map (fun l => [l]) ls).
Proof. intros n ls H; apply cscoped_map; intros l Hl m [<-|[]]; auto. Qed.

Lemma negs_scoped : forall n ls, scoped n ls -> cscoped n (map (fun l => [neg l]) ls).
Proof. intros n ls H; apply cscoped_map; intros l Hl m [<-|[]]; apply lscope_neg; auto. Qed.

Lemma units_sat : forall a ls, sat a (map (fun l => [l]) ls) <-> count a ls = length ls.
Proof.
  intros a ls; rewrite sat_map; induction ls as [|l ls IH]; cbn [count length].
  - split; [reflexivity | intros _ x []].
  - pose proof (count_le a ls) as Cl; split.
    + intros H; pose proof (H l (or_introl eq_refl)) as E; apply csat1 in E; rewrite E.
      rewrite (proj1 IH); [reflexivity|]; intros x Hx; apply H; now right.
    + intros H x [<-|Hx]; [apply csat1; destruct (lval a l); [reflexivity | lia]|].
      apply IH; [destruct (lval a l); lia | exact Hx].
Qed.

Lemma negs_sat : forall a ls, sat a (map (fun l => [neg l]) ls) <-> count a ls = 0.
Proof.
  intros a ls; rewrite sat_map; induction ls as [|l ls IH]; cbn [count length].
  - split; [reflexivity | intros _ x []].
  - split.
    + intros H; pose proof (H l (or_introl eq_refl)) as E; apply csat1, lval_neg_true in E; rewrite E.
      apply IH; intros x Hx; apply H; now right.
    + intros H x [<-|Hx]; [apply csat1, lval_neg_true; destruct (lval a l); [lia | reflexivity]|].
      apply IH; [lia | exact Hx].
Qed.

(** ** Bounds on the outputs of a sorting network *)

Definition netUpper (out : list elit) (r : nat) : list clause :=
  if r <? length out then [[neg (at_ out r)]] else [].

(** [z] is true, or the network has no literal 0. *)
Lemma sort_upper : forall z ls rhs n cs out n',
  (z = true \/ clean (rhs + 1) (length ls)) ->
  scoped n ls -> rhs < length ls -> sort (rhs + 1) ls InOut n = (cs, out, n') ->
  tightensZ z (fun r a => count a ls <= r) (fun r => r <= rhs) (netUpper out) n (cs, n') /\
  length out = rhs + 1.
Proof.
  intros z ls rhs n cs out n' Hz Hs Hr E.
  assert (H : cle n n' /\ cscopedZ z n' cs /\ scoped n' out /\ length out = rhs + 1 /\
    (forall a, envZ z a -> sat a cs -> trO a out 0 (count a ls)) /\
    (forall a, envZ z a -> exists b, agree n a b /\ envZ z b /\ sat b cs /\ exO b out 0 (count a ls))).
  { destruct Hz as [->|Hc].
    - destruct (sort_fwd0_ok (rhs + 1) ls n cs out n' Hs ltac:(lia) E) as [A1 [A2 [A3 [A4 [A5 A6]]]]].
      split; [exact A1|]; split; [now apply cscoped0_Z|]; split; [exact A3|]; split; [lia|]; split.
      + intros a Ez; apply A5; now apply Ez.
      + intros a Ez; destruct (A6 a (Ez eq_refl)) as [b [B1 [B2 [B3 B4]]]]; exists b.
        split; [exact B1|]; split; [now intros _|]; now split.
    - destruct (sort_fwd_ok (rhs + 1) ls n cs out n' Hs ltac:(lia) Hc E) as [A1 [A2 [A3 [A4 [A5 [_ A6]]]]]].
      split; [exact A1|]; split; [now apply cscoped_Z|]; split; [exact A3|]; split; [lia|]; split.
      + intros a _; now apply A5.
      + intros a _; destruct (A6 a) as [b [B1 [B2 B3]]]; exists (unzero b).
        split; [exact (agree_trans n n a b (unzero b) (cle_refl n) B1 (unzero_agree n b))|].
        split; [apply unzero_envZ|].
        split; [exact (agree_sat n' b (unzero b) cs (unzero_agree _ b) A2 B2)|].
        intros k Hk; rewrite (agree_lval n' b (unzero b)); [now apply B3 | apply unzero_agree |].
        apply scoped_at; [exact A3 | lia]. }
  destruct H as [H1 [H2 [H3 [H4 [H5 H6]]]]]; split; [|exact H4].
  split; [exact H1|]; split; [exact H2|]; unfold netUpper; split; [|split]; cbn [fst snd].
  - intros r Hrr; destruct (Nat.ltb_spec r (length out)); [|intros c []].
    intros c [<-|[]] l [<-|[]]; left; apply lscope_neg, scoped_at; [exact H3 | lia].
  - intros a Ez Ha r Hrr; destruct (Nat.ltb_spec r (length out)); [|lia].
    intros Hb; rewrite sat1, csat1, lval_neg_true in Hb.
    destruct (Nat.le_gt_cases (count a ls) r) as [|G]; [assumption|].
    pose proof (H5 a Ez Ha (r + 1) ltac:(lia) ltac:(lia)) as F.
    replace (r + 1 - 1) with r in F by lia; congruence.
  - intros a Ez; destruct (H6 a Ez) as [b [B1 [B2 [B3 B4]]]]; exists b.
    split; [exact B1|]; split; [exact B2|]; split; [exact B3|].
    intros r Hrr Hq; destruct (Nat.ltb_spec r (length out)); [|apply sat_nil].
    rewrite sat1, csat1, lval_neg_true.
    destruct (lval b (at_ out r)) eqn:F; [|reflexivity].
    destruct (B4 (r + 1) ltac:(lia)) as [B5 _]; replace (r + 1 - 1) with r in B5 by lia.
    specialize (B5 F); lia.
Qed.

Lemma sort_lower : forall ls g n cs out n',
  scoped n ls -> g <= length ls -> sort g ls OutIn n = (cs, out, n') ->
  encodes (fun a => g <= count a ls) n (cs ++ map (fun i => [at_ out i]) (seq 0 g), n').
Proof.
  intros ls g n cs out n' Hs Hg E.
  destruct (sort_bwd_ok OutIn g ls n cs out n' eq_refl Hs E) as [A1 [A2 [A3 [A4 [_ [A5 A6]]]]]].
  split; [exact A1|]; cbn [fst snd]; split; [|split].
  - apply cscoped_app; split; [exact A2|]; apply cscoped_map; intros i Hi l [<-|[]].
    apply in_seq in Hi; apply scoped_at; [exact A3 | lia].
  - intros a Ha; apply sat_app in Ha as [Ha Hb]; rewrite sat_map in Hb.
    destruct g as [|g]; [lia|].
    pose proof (A5 eq_refl a Ha (S g) ltac:(lia)) as F; cbn [plus] in F; apply F.
    replace (S g - 1) with g by lia; apply csat1, Hb, in_seq; lia.
  - intros a Ha; destruct (A6 a) as [b [B1 [B2 B3]]]; exists b; split; [exact B1|].
    apply sat_app; split; [exact B2|]; apply sat_map; intros i Hi; apply in_seq in Hi; apply csat1.
    destruct (B3 (i + 1) ltac:(lia)) as [_ B4]; replace (i + 1 - 1) with i in B4 by lia.
    apply B4; lia.
Qed.

(** ** At most k *)

Definition amkClean (cf : ccConfig) (k : nat) (rhs : Z) : Prop :=
  c_amk cf = AMKCardinalityNetwork -> ~ (k = 3 /\ rhs = 1%Z) /\ ~ (k = 4 /\ rhs = 2%Z).

Definition cmpZ (c : cmp) (rhs : Z) (ls : list elit) (a : env) : Prop :=
  cmp_holds c (Z.of_nat (count a ls)) rhs = true.

Lemma amk_ok : forall z cf rhs ls n, (0 <= rhs)%Z -> scoped n ls ->
  (z = true \/ amkClean cf (length ls) rhs) ->
  encodesZ z (cmpZ LE rhs ls) n (amk cf rhs ls n).
Proof.
  intros z cf rhs ls n Hr Hs Hz; unfold amk, cmpZ; cbn [cmp_holds].
  destruct (Z.leb_spec (Z.of_nat (length ls)) rhs) as [H1|H1].
  { apply encodes_Z, encodes_true; intros a; apply Z.leb_le; pose proof (count_le a ls); lia. }
  destruct (Z.eqb_spec rhs 0) as [H2|H2].
  { apply encodes_Z, encodes_same; [now apply negs_scoped|].
    intros a; rewrite negs_sat, Z.leb_le; lia. }
  destruct (Z.ltb_spec rhs 0) as [H3|H3]; [lia|].
  remember (Z.to_nat rhs) as r eqn:Er.
  apply encodesZ_ext with (fun a => count a ls <= r); [intros a; rewrite Z.leb_le; lia|].
  assert (Hm : forall q, q = modtotalizerAMK ls r n -> encodesZ z (fun a => count a ls <= r) n q).
  { intros q ->; unfold modtotalizerAMK.
    destruct (modTotalizer ls r n) as [[[[cs up] lw] md] n'] eqn:E.
    apply encodes_Z.
    apply (tightens_encodes1 _ _ _ _ _ _ r (modTotalizer_upper ls r n _ _ _ _ _ Hs ltac:(lia) ltac:(lia) E)); lia. }
  destruct (c_amk cf) eqn:K; [| now apply Hm | | now apply Hm].
  - unfold totalizerAMK; destruct (totalizer ls r BUpper n) as [[cs out] n'] eqn:E.
    apply encodes_Z.
    apply (tightens_encodes1 _ _ _ _ _ _ r (totalizer_upper ls r n _ _ _ ltac:(lia) Hs ltac:(lia) E)); lia.
  - unfold cnAmk; destruct (Nat.ltb_spec (length ls / 2) r) as [H4|H4].
    + destruct (sort (length ls - r) (map neg ls) OutIn n) as [[cs out] n'] eqn:E.
      apply encodes_Z.
      apply encodes_ext with (fun a => length ls - r <= count a (map neg ls)).
      { intros a; rewrite count_neg; pose proof (count_le a ls); lia. }
      apply sort_lower; [now apply scoped_map_neg | rewrite map_length; lia | exact E].
    + destruct (sort (r + 1) ls InOut n) as [[cs out] n'] eqn:E.
      assert (Hz' : z = true \/ clean (r + 1) (length ls)).
      { destruct Hz as [Hz|Hz]; [now left|]; right; destruct (Hz K) as [G1 G2]; unfold clean.
        intros [G|[G G']].
        - apply G1; split; [exact G|]; rewrite G in H4; change (3 / 2) with 1 in H4; lia.
        - apply G2; split; [exact G|]; rewrite G in H4; change (4 / 2) with 2 in H4; lia. }
      destruct (sort_upper z ls r n cs out n' Hz' Hs ltac:(lia) E) as [T L].
      pose proof (tightensZ_encodes1 _ _ _ _ _ _ _ r T) as F; specialize (F (le_n _)).
      unfold netUpper in F; destruct (Nat.ltb_spec r (length out)); [exact F | lia].
Qed.

(** ** At least k *)

Definition alkClean (cf : ccConfig) (k : nat) (rhs : Z) : Prop :=
  c_alk cf = ALKCardinalityNetwork -> ~ (k = 3 /\ rhs = 2%Z) /\ ~ (k = 4 /\ rhs = 2%Z).

Lemma alk_ok : forall z cf rhs ls n, (0 <= rhs)%Z -> scoped n ls ->
  (z = true \/ alkClean cf (length ls) rhs) ->
  encodesZ z (cmpZ GE rhs ls) n (alk cf rhs ls n).
Proof.
  intros z cf rhs ls n Hr Hs Hz; unfold alk, cmpZ; cbn [cmp_holds].
  destruct (Z.ltb_spec (Z.of_nat (length ls)) rhs) as [H1|H1].
  { apply encodes_Z, encodes_false; intros a; rewrite Z.leb_le; pose proof (count_le a ls); lia. }
  destruct (Z.eqb_spec rhs 0) as [H2|H2].
  { apply encodes_Z, encodes_true; intros a; rewrite Z.leb_le; lia. }
  destruct (Z.eqb_spec rhs 1) as [H3|H3].
  { apply encodes_Z, encodes_same; [intros c [<-|[]]; exact Hs|].
    intros a; rewrite sat1, csat_exists, Z.leb_le; lia. }
  destruct (Z.eqb_spec rhs (Z.of_nat (length ls))) as [H4|H4].
  { apply encodes_Z, encodes_same; [now apply units_scoped|].
    intros a; rewrite units_sat, Z.leb_le; pose proof (count_le a ls); lia. }
  remember (Z.to_nat rhs) as r eqn:Er.
  apply encodesZ_ext with (fun a => r <= count a ls); [intros a; rewrite Z.leb_le; lia|].
  assert (Hm : forall q, q = modtotalizerALK ls r n -> encodesZ z (fun a => r <= count a ls) n q).
  { intros q ->; unfold modtotalizerALK.
    destruct (modTotalizer (map neg ls) (length ls - r) n) as [[[[cs up] lw] md] n'] eqn:E.
    apply encodes_Z.
    apply encodes_ext with (fun a => count a (map neg ls) <= length ls - r).
    { intros a; rewrite count_neg; pose proof (count_le a ls); lia. }
    assert (L : length (map neg ls) = length ls) by apply map_length.
    apply (tightens_encodes1 _ _ _ _ _ _ (length ls - r)
             (modTotalizer_upper (map neg ls) (length ls - r) n _ _ _ _ _ (scoped_map_neg _ _ Hs) ltac:(lia) ltac:(lia) E)); lia. }
  destruct (c_alk cf) eqn:K; [| now apply Hm | | now apply Hm].
  - unfold totalizerALK; destruct (totalizer ls r BLower n) as [[cs out] n'] eqn:E.
    apply encodes_Z.
    apply (tightens_encodes1 _ _ _ _ _ _ r (totalizer_lower ls r n _ _ _ ltac:(lia) Hs E)); lia.
  - unfold cnAlk; destruct (Nat.ltb_spec (length ls / 2) (length ls - r)) as [H5|H5].
    + replace (length ls - (length ls - r)) with r by lia.
      destruct (sort r ls OutIn n) as [[cs out] n'] eqn:E.
      apply encodes_Z; apply sort_lower; [exact Hs | lia | exact E].
    + destruct (sort (length ls - r + 1) (map neg ls) InOut n) as [[cs out] n'] eqn:E.
      assert (L : length (map neg ls) = length ls) by apply map_length.
      assert (Hz' : z = true \/ clean (length ls - r + 1) (length (map neg ls))).
      { destruct Hz as [Hz|Hz]; [now left|]; right; destruct (Hz K) as [G1 G2]; unfold clean.
        rewrite L; intros [G|[G G']].
        - apply G1; split; [exact G|]; rewrite G in H5; change (3 / 2) with 1 in H5; lia.
        - apply G2; split; [exact G|]; rewrite G in H5; change (4 / 2) with 2 in H5; lia. }
      destruct (sort_upper z (map neg ls) (length ls - r) n cs out n' Hz' (scoped_map_neg _ _ Hs) ltac:(lia) E)
        as [T Lo].
      apply encodesZ_ext with (fun a => count a (map neg ls) <= length ls - r).
      { intros a; rewrite count_neg; pose proof (count_le a ls); lia. }
      pose proof (tightensZ_encodes1 _ _ _ _ _ _ _ (length ls - r) T) as F; specialize (F (le_n _)).
      unfold netUpper in F; destruct (Nat.ltb_spec (length ls - r) (length out)); [exact F | lia].
Qed.

(** ** Exactly k *)

Lemma exk_ok : forall cf rhs ls n, (0 <= rhs)%Z -> scoped n ls ->
  encodes (cmpZ EQ rhs ls) n (exk cf rhs ls n).
Proof.
  intros cf rhs ls n Hr Hs; unfold exk, cmpZ; cbn [cmp_holds].
  destruct (Z.ltb_spec (Z.of_nat (length ls)) rhs) as [H1|H1].
  { apply encodes_false; intros a; rewrite Z.eqb_eq; pose proof (count_le a ls); lia. }
  destruct (Z.eqb_spec rhs 0) as [H2|H2].
  { apply encodes_same; [now apply negs_scoped|].
    intros a; rewrite negs_sat, Z.eqb_eq; lia. }
  destruct (Z.eqb_spec rhs (Z.of_nat (length ls))) as [H4|H4].
  { apply encodes_same; [now apply units_scoped|].
    intros a; rewrite units_sat, Z.eqb_eq; lia. }
  remember (Z.to_nat rhs) as r eqn:Er.
  apply encodes_ext with (fun a => count a ls = r); [intros a; rewrite Z.eqb_eq; lia|].
  assert (Hm : forall q, q = totalizerEXK ls r n -> encodes (fun a => count a ls = r) n q).
  { intros q ->; unfold totalizerEXK; destruct (totalizer ls r BBoth n) as [[cs out] n'] eqn:E.
    exact (totalizer_exact ls r n _ _ _ ltac:(lia) Hs ltac:(lia) E). }
  destruct (c_exk cf) eqn:K; [now apply Hm | | now apply Hm].
  unfold cnExk; destruct (sort (r + 1) ls BothDir n) as [[cs out] n'] eqn:E.
  destruct (sort_bwd_ok BothDir (r + 1) ls n cs out n' eq_refl Hs E) as [A1 [A2 [A3 [A4 [A5 [A6 A7]]]]]].
  split; [exact A1|]; cbn [fst snd]; split; [|split].
  - apply cscoped_app; split; [exact A2|].
    intros c [<-|[<-|[]]] l [<-|[]]; [apply lscope_neg|]; apply scoped_at; (exact A3 || lia).
  - intros a Ha; apply sat_app in Ha as [Ha Hb].
    rewrite sat_cons, csat1, sat1, csat1, lval_neg_true in Hb; destruct Hb as [Hb Hc].
    pose proof (A6 eq_refl a Ha r ltac:(lia) Hc).
    destruct (Nat.le_gt_cases (count a ls) r) as [|G]; [lia|].
    pose proof (A5 eq_refl a Ha (r + 1) ltac:(lia) ltac:(lia)) as F.
    replace (r + 1 - 1) with r in F by lia; congruence.
  - intros a Ha; destruct (A7 a) as [b [B1 [B2 B3]]]; exists b; split; [exact B1|].
    apply sat_app; split; [exact B2|]; rewrite sat_cons, csat1, sat1, csat1, lval_neg_true; split.
    + destruct (lval b (at_ out r)) eqn:F; [|reflexivity].
      destruct (B3 (r + 1) ltac:(lia)) as [B4 _]; replace (r + 1 - 1) with r in B4 by lia.
      specialize (B4 F); lia.
    + apply B3; lia.
Qed.

(** ** Every constraint *)

Definition ccClean (cf : ccConfig) (c : cmp) (rhs : Z) (k : nat) : Prop :=
  match c with
  | LE => amkClean cf k rhs
  | LT => amkClean cf k (rhs - 1)
  | GE => alkClean cf k rhs
  | GT => alkClean cf k (rhs + 1)
  | EQ => True
  end.

Lemma encodeCC_ok : forall z cf c rhs ls n,
  goodAmo (c_base cf) -> (0 <= rhs)%Z -> ~ (c = LT /\ rhs = 0%Z) -> scoped n ls ->
  (z = true \/ ccClean cf c rhs (length ls)) ->
  encodesZ z (cmpZ c rhs ls) n (encodeCC cf c rhs ls n).
Proof.
  intros z cf c rhs ls n G Hr Hlt Hs Hz; destruct c; cbn [encodeCC ccClean] in *.
  - destruct (Z.eqb_spec rhs 1) as [->|].
    + apply encodes_Z, encodes_ext with (fun a => count a ls = 1); [|now apply exo_ok].
      intros a; unfold cmpZ; cbn [cmp_holds]; rewrite Z.eqb_eq; lia.
    + apply encodes_Z; now apply exk_ok.
  - destruct (Z.eqb_spec rhs 1) as [->|].
    + apply encodes_Z, encodes_ext with (atMost1 ls); [|now apply amo_ok].
      intros a; unfold cmpZ, atMost1; cbn [cmp_holds]; rewrite Z.leb_le; lia.
    + now apply amk_ok.
  - destruct (Z.eqb_spec rhs 2) as [->|].
    + apply encodes_Z, encodes_ext with (atMost1 ls); [|now apply amo_ok].
      intros a; unfold cmpZ, atMost1; cbn [cmp_holds]; rewrite Z.ltb_lt; lia.
    + apply encodesZ_ext with (cmpZ LE (rhs - 1) ls).
      { intros a; unfold cmpZ; cbn [cmp_holds]; rewrite Z.ltb_lt, Z.leb_le; lia. }
      apply amk_ok; [|exact Hs|exact Hz].
      destruct (Z.eq_dec rhs 0); [exfalso; apply Hlt; now split | lia].
  - now apply alk_ok.
  - apply encodesZ_ext with (cmpZ GE (rhs + 1) ls).
    { intros a; unfold cmpZ; cbn [cmp_holds]; rewrite Z.ltb_lt, Z.leb_le; lia. }
    apply alk_ok; [lia | exact Hs | exact Hz].
Qed.

(** ** Incremental constraints *)

(** What [amkIncremental] returns, as a family of bounds. *)
Lemma amkIncremental_ok : forall z cf rhs ls n cs d n', scoped n ls ->
  (z = true \/ (c_amk cf = AMKCardinalityNetwork -> clean (Z.to_nat rhs + 1) (length ls))) ->
  amkIncremental cf rhs ls n = (cs, Some d, n') ->
  (1 <= rhs < Z.of_nat (length ls))%Z /\ i_rhs d = rhs /\
  exists base bnd,
    cs = base ++ bnd (Z.to_nat rhs) /\
    tightensZ z (fun r a => count a ls <= r) (fun r => r <= Z.to_nat rhs) bnd n (base, n') /\
    forall d', i_kind d' = i_kind d -> i_vector1 d' = i_vector1 d -> i_vector2 d' = i_vector2 d ->
               i_mod d' = i_mod d -> i_nVars d' = i_nVars d ->
    forall r, (0 <= r < i_rhs d')%Z ->
      newUpperBound d' r = Some (bnd (Z.to_nat r), Build_incremental (i_kind d) (i_vector1 d) (i_vector2 d) (i_mod d) (i_nVars d) r).
Proof.
  intros z cf rhs ls n cs d n' Hs Hz E; unfold amkIncremental in E.
  destruct (Z.leb_spec (Z.of_nat (length ls)) rhs) as [H1|H1]; [discriminate|].
  destruct (Z.eqb_spec rhs 0) as [H2|H2]; [discriminate|].
  destruct (Z.ltb_spec rhs 0) as [H3|H3]; [discriminate|].
  split; [lia|].
  remember (Z.to_nat rhs) as r eqn:Er.
  assert (NU : forall d', forall r', (0 <= r' < i_rhs d')%Z ->
    newUpperBound d' r' = Some
     (match i_kind d' with
      | KModular => modUpper (i_vector1 d') (i_vector2 d') (i_mod d') (Z.to_nat r')
      | KTotalizer => totUpper (i_vector1 d') (Z.to_nat r')
      | KNetwork => netUpper (i_vector1 d') (Z.to_nat r')
      end, Build_incremental (i_kind d') (i_vector1 d') (i_vector2 d') (i_mod d') (i_nVars d') r')).
  { intros d' r' Hr'; unfold newUpperBound; destruct (Z.leb_spec (i_rhs d') r'); [lia|].
    destruct (Z.ltb_spec r' 0); [lia|]; reflexivity. }
  assert (Hm : (let '(cs, up, lw, md, n') := modTotalizer ls r n in
      (cs ++ modUpper up lw md r, Some (Build_incremental KModular up lw md 0 rhs), n')) = (cs, Some d, n') ->
    i_rhs d = rhs /\
    exists base bnd, cs = base ++ bnd r /\
    tightensZ z (fun r a => count a ls <= r) (fun r0 => r0 <= r) bnd n (base, n') /\
    forall d', i_kind d' = i_kind d -> i_vector1 d' = i_vector1 d -> i_vector2 d' = i_vector2 d ->
               i_mod d' = i_mod d -> i_nVars d' = i_nVars d ->
    forall r, (0 <= r < i_rhs d')%Z ->
      newUpperBound d' r = Some (bnd (Z.to_nat r), Build_incremental (i_kind d) (i_vector1 d) (i_vector2 d) (i_mod d) (i_nVars d) r)).
  { intros E'; destruct (modTotalizer ls r n) as [[[[cs0 up] lw] md] n0] eqn:T.
    apply pair3 in E' as [<- [Hd <-]]; apply (f_equal (fun o => match o with Some x => x | None => d end)) in Hd; subst d.
    split; [reflexivity|]; exists cs0, (modUpper up lw md); split; [reflexivity|]; split.
    - apply tightens_Z; exact (modTotalizer_upper ls r n _ _ _ _ _ Hs ltac:(lia) ltac:(lia) T).
    - intros d' K1 K2 K3 K4 K5 r' Hr'; rewrite NU by exact Hr'; rewrite K1, K2, K3, K4, K5; reflexivity. }
  destruct (c_amk cf) eqn:K; [| now apply Hm | | now apply Hm].
  - destruct (totalizer ls r BUpper n) as [[cs0 out] n0] eqn:T.
    apply pair3 in E as [<- [Hd <-]]; apply (f_equal (fun o => match o with Some x => x | None => d end)) in Hd; subst d.
    split; [reflexivity|]; exists cs0, (totUpper out); split; [reflexivity|]; split.
    + apply tightens_Z; exact (totalizer_upper ls r n _ _ _ ltac:(lia) Hs ltac:(lia) T).
    + intros d' K1 K2 K3 K4 K5 r' Hr'; rewrite NU by exact Hr'; rewrite K1, K2, K3, K4, K5; reflexivity.
  - destruct (sort (r + 1) ls InOut n) as [[cs0 out] n0] eqn:T.
    apply pair3 in E as [<- [Hd <-]]; apply (f_equal (fun o => match o with Some x => x | None => d end)) in Hd; subst d.
    assert (Hz' : z = true \/ clean (r + 1) (length ls)) by (destruct Hz as [Hz|Hz]; [now left | right; now apply Hz]).
    destruct (sort_upper z ls r n cs0 out n0 Hz' Hs ltac:(lia) T) as [Tz L].
    split; [reflexivity|]; exists cs0, (netUpper out); split.
    { unfold netUpper; destruct (Nat.ltb_spec r (length out)); [reflexivity | lia]. }
    split; [exact Tz|].
    intros d' K1 K2 K3 K4 K5 r' Hr'; rewrite NU by exact Hr'; rewrite K1, K2, K3, K4, K5; reflexivity.
Qed.

Lemma alkIncremental_ok : forall z cf rhs ls n cs d n', (0 <= rhs)%Z -> scoped n ls ->
  (z = true \/ (c_alk cf = ALKCardinalityNetwork -> clean (length ls - Z.to_nat rhs + 1) (length ls))) ->
  alkIncremental cf rhs ls n = (cs, Some d, n') ->
  (2 <= rhs < Z.of_nat (length ls))%Z /\ i_rhs d = rhs /\ i_nVars d = length ls /\
  exists base bnd,
    cs = base ++ bnd (Z.to_nat rhs) /\
    tightensZ z (fun r a => r <= count a ls) (fun r => Z.to_nat rhs <= r <= length ls) bnd n (base, n') /\
    forall d', i_kind d' = i_kind d -> i_vector1 d' = i_vector1 d -> i_vector2 d' = i_vector2 d ->
               i_mod d' = i_mod d -> i_nVars d' = i_nVars d ->
    forall r, (0 <= i_rhs d' < r)%Z -> (r <= Z.of_nat (length ls))%Z ->
      newLowerBound d' r = Some (bnd (Z.to_nat r), Build_incremental (i_kind d) (i_vector1 d) (i_vector2 d) (i_mod d) (i_nVars d) r).
Proof.
  intros z cf rhs ls n cs d n' H0 Hs Hz E; unfold alkIncremental in E.
  destruct (Z.ltb_spec (Z.of_nat (length ls)) rhs) as [H1|H1]; [discriminate|].
  destruct (Z.eqb_spec rhs 0) as [H2|H2]; [discriminate|].
  destruct (Z.eqb_spec rhs 1) as [H3|H3]; [discriminate|].
  destruct (Z.eqb_spec rhs (Z.of_nat (length ls))) as [H4|H4]; [discriminate|].
  split; [lia|]; cbv zeta in E.
  remember (Z.to_nat rhs) as r eqn:Er.
  assert (NU : forall d', i_nVars d' = length ls -> forall r', (0 <= i_rhs d' < r')%Z -> (r' <= Z.of_nat (length ls))%Z ->
    newLowerBound d' r' = Some
     (match i_kind d' with
      | KModular => modUpper (i_vector1 d') (i_vector2 d') (i_mod d') (length ls - Z.to_nat r')
      | KTotalizer => totLower (i_vector1 d') (Z.to_nat r')
      | KNetwork => netUpper (i_vector1 d') (length ls - Z.to_nat r')
      end, Build_incremental (i_kind d') (i_vector1 d') (i_vector2 d') (i_mod d') (i_nVars d') r')).
  { intros d' Hn r' Hr' Hl; unfold newLowerBound; rewrite Hn; destruct (Z.leb_spec r' (i_rhs d')); [lia|].
    destruct (Z.ltb_spec (Z.of_nat (length ls)) r'); [lia|]; destruct (i_kind d'); reflexivity. }
  assert (L : length (map neg ls) = length ls) by apply map_length.
  assert (Hm : (let '(cs, up, lw, md, n') := modTotalizer (map neg ls) (length ls - r) n in
      (cs ++ modUpper up lw md (length ls - r), Some (Build_incremental KModular up lw md (length ls) rhs), n')) = (cs, Some d, n') ->
    i_rhs d = rhs /\ i_nVars d = length ls /\
    exists base bnd, cs = base ++ bnd r /\
    tightensZ z (fun r a => r <= count a ls) (fun r0 => r <= r0 <= length ls) bnd n (base, n') /\
    forall d', i_kind d' = i_kind d -> i_vector1 d' = i_vector1 d -> i_vector2 d' = i_vector2 d ->
               i_mod d' = i_mod d -> i_nVars d' = i_nVars d ->
    forall r, (0 <= i_rhs d' < r)%Z -> (r <= Z.of_nat (length ls))%Z ->
      newLowerBound d' r = Some (bnd (Z.to_nat r), Build_incremental (i_kind d) (i_vector1 d) (i_vector2 d) (i_mod d) (i_nVars d) r)).
  { intros E'; destruct (modTotalizer (map neg ls) (length ls - r) n) as [[[[cs0 up] lw] md] n0] eqn:T.
    apply pair3 in E' as [<- [Hd <-]]; apply (f_equal (fun o => match o with Some x => x | None => d end)) in Hd; subst d.
    split; [reflexivity|]; split; [reflexivity|].
    exists cs0, (fun r => modUpper up lw md (length ls - r)); split; [reflexivity|]; split.
    - apply tightensZ_map with (fun r a => count a (map neg ls) <= r) (fun r' => r' <= length ls - r) (modUpper up lw md)
        (fun r => length ls - r).
      + apply tightens_Z; exact (modTotalizer_upper (map neg ls) (length ls - r) n _ _ _ _ _ (scoped_map_neg _ _ Hs) ltac:(lia) ltac:(lia) T).
      + intros; lia.
      + intros r' a Hr'; rewrite count_neg; pose proof (count_le a ls); lia.
      + reflexivity.
    - intros d' K1 K2 K3 K4 K5 r' Hr' Hl; rewrite NU by (exact K5 || assumption); rewrite K1, K2, K3, K4, K5; reflexivity. }
  destruct (c_alk cf) eqn:K; [| now apply Hm | | now apply Hm].
  - destruct (totalizer ls r BLower n) as [[cs0 out] n0] eqn:T.
    apply pair3 in E as [<- [Hd <-]]; apply (f_equal (fun o => match o with Some x => x | None => d end)) in Hd; subst d.
    split; [reflexivity|]; split; [reflexivity|]; exists cs0, (totLower out); split; [reflexivity|]; split.
    + apply tightensZ_map with (fun r a => r <= count a ls) (fun r => r <= length ls) (totLower out) (fun r => r).
      * apply tightens_Z; exact (totalizer_lower ls r n _ _ _ ltac:(lia) Hs T).
      * intros; lia.
      * reflexivity.
      * reflexivity.
    + intros d' K1 K2 K3 K4 K5 r' Hr' Hl; rewrite NU by (exact K5 || assumption); rewrite K1, K2, K3, K4, K5; reflexivity.
  - destruct (sort (length ls - r + 1) (map neg ls) InOut n) as [[cs0 out] n0] eqn:T.
    apply pair3 in E as [<- [Hd <-]]; apply (f_equal (fun o => match o with Some x => x | None => d end)) in Hd; subst d.
    assert (Hz' : z = true \/ clean (length ls - r + 1) (length (map neg ls)))
      by (rewrite L; destruct Hz as [Hz|Hz]; [now left | right; now apply Hz]).
    destruct (sort_upper z (map neg ls) (length ls - r) n cs0 out n0 Hz' (scoped_map_neg _ _ Hs) ltac:(lia) T) as [Tz Lo].
    split; [reflexivity|]; split; [reflexivity|]; exists cs0, (fun r => netUpper out (length ls - r)); split.
    { unfold netUpper; destruct (Nat.ltb_spec (length ls - r) (length out)); [reflexivity | lia]. }
    split.
    + apply tightensZ_map with (fun r a => count a (map neg ls) <= r) (fun r' => r' <= length ls - r) (netUpper out)
        (fun r => length ls - r).
      * exact Tz.
      * intros; lia.
      * intros r' a Hr'; rewrite count_neg; pose proof (count_le a ls); lia.
      * reflexivity.
    + intros d' K1 K2 K3 K4 K5 r' Hr' Hl; rewrite NU by (exact K5 || assumption); rewrite K1, K2, K3, K4, K5; reflexivity.
Qed.

(** A strictly decreasing (increasing) list of bounds below (above) a first one. *)
Fixpoint decreasing (r0 : Z) (rs : list Z) : Prop :=
  match rs with [] => True | r :: rest => (0 <= r < r0)%Z /\ decreasing r rest end.
Fixpoint increasing (r0 : Z) (top : nat) (rs : list Z) : Prop :=
  match rs with [] => True | r :: rest => (r0 < r <= Z.of_nat top)%Z /\ increasing r top rest end.

Lemma last_cons : forall (rs : list Z) r r0, List.last (r :: rs) r0 = List.last rs r.
Proof.
  induction rs as [|x rs IH]; intros r r0; [reflexivity|].
  change (List.last (x :: rs) r0 = List.last (x :: rs) r); now rewrite !IH.
Qed.

Lemma decreasing_last : forall rs r0, (0 <= r0)%Z -> decreasing r0 rs ->
  (0 <= List.last rs r0 <= r0)%Z /\ (forall r, In r rs -> List.last rs r0 <= r <= r0)%Z.
Proof.
  induction rs as [|r1 rs IH]; intros r0 H0 H; [cbn; split; [lia | intros r []]|].
  destruct H as [H1 H2]; rewrite last_cons; destruct (IH r1 ltac:(lia) H2) as [A B].
  split; [lia|]; intros r [<-|Hr]; [lia|]; specialize (B r Hr); lia.
Qed.

Lemma increasing_last : forall rs r0 top, (r0 <= Z.of_nat top)%Z -> increasing r0 top rs ->
  (r0 <= List.last rs r0 <= Z.of_nat top)%Z /\ (forall r, In r rs -> r0 <= r <= List.last rs r0)%Z.
Proof.
  induction rs as [|r1 rs IH]; intros r0 top H0 H; [cbn; split; [lia | intros r []]|].
  destruct H as [H1 H2]; rewrite last_cons; destruct (IH r1 top ltac:(lia) H2) as [A B].
  split; [lia|]; intros r [<-|Hr]; [lia|]; specialize (B r Hr); lia.
Qed.

Lemma last_in : forall (rs : list Z) r0, List.last rs r0 = r0 \/ In (List.last rs r0) rs.
Proof.
  induction rs as [|r1 rs IH]; intros r0; [now left|]; rewrite last_cons.
  destruct (IH r1) as [->|H]; right; [now left | now right].
Qed.

(** All bounds set so far together say what the last one says. *)
Lemma tightenUpper_ok : forall z cf rhs ls n cs d n' bounds, scoped n ls ->
  (z = true \/ (c_amk cf = AMKCardinalityNetwork -> clean (Z.to_nat rhs + 1) (length ls))) ->
  amkIncremental cf rhs ls n = (cs, Some d, n') -> decreasing rhs bounds ->
  exists cs', tightenAll newUpperBound d bounds = Some cs' /\
  encodesZ z (cmpZ LE (List.last bounds rhs) ls) n (cs ++ cs', n').
Proof.
  intros z cf rhs ls n cs d n' bounds Hs Hz E Hd.
  destruct (amkIncremental_ok z cf rhs ls n cs d n' Hs Hz E) as [H1 [H2 [base [bnd [H3 [H4 H5]]]]]].
  exists (flat_map bnd (map Z.to_nat bounds)); split.
  - assert (G : forall bs d', i_kind d' = i_kind d -> i_vector1 d' = i_vector1 d -> i_vector2 d' = i_vector2 d ->
               i_mod d' = i_mod d -> i_nVars d' = i_nVars d -> decreasing (i_rhs d') bs ->
               tightenAll newUpperBound d' bs = Some (flat_map bnd (map Z.to_nat bs))).
    { induction bs as [|b bs IH]; intros d' K1 K2 K3 K4 K5 D; [reflexivity|].
      destruct D as [D1 D2]; cbn [tightenAll map flat_map].
      rewrite (H5 d' K1 K2 K3 K4 K5 b D1), IH by (reflexivity || exact D2); reflexivity. }
    apply G; try reflexivity; now rewrite H2.
  - rewrite H3, <- app_assoc.
    destruct (decreasing_last bounds rhs ltac:(lia) Hd) as [A B].
    pose proof (tightensZ_encodes z _ _ _ _ _ _ (map Z.to_nat (rhs :: bounds)) H4) as F.
    apply encodesZ_ext with (2 := F ltac:(intros r Hr; apply in_map_iff in Hr as [b [<- [<-|Hb]]]; [lia | specialize (B b Hb); lia])).
    intros a; unfold cmpZ; cbn [cmp_holds]; rewrite Z.leb_le; split.
    + intros G; destruct (last_in bounds rhs) as [L|L].
      * rewrite L; specialize (G (Z.to_nat rhs) ltac:(now left)); cbv beta in G; lia.
      * specialize (G (Z.to_nat (List.last bounds rhs)) ltac:(apply in_map; now right)); cbv beta in G; lia.
    + intros G r Hr; apply in_map_iff in Hr as [b [<- [<-|Hb]]]; [lia | specialize (B b Hb); lia].
Qed.

Lemma tightenLower_ok : forall z cf rhs ls n cs d n' bounds, (0 <= rhs)%Z -> scoped n ls ->
  (z = true \/ (c_alk cf = ALKCardinalityNetwork -> clean (length ls - Z.to_nat rhs + 1) (length ls))) ->
  alkIncremental cf rhs ls n = (cs, Some d, n') -> increasing rhs (length ls) bounds ->
  exists cs', tightenAll newLowerBound d bounds = Some cs' /\
  encodesZ z (cmpZ GE (List.last bounds rhs) ls) n (cs ++ cs', n').
Proof.
  intros z cf rhs ls n cs d n' bounds H0 Hs Hz E Hd.
  destruct (alkIncremental_ok z cf rhs ls n cs d n' H0 Hs Hz E) as [H1 [H2 [_ [base [bnd [H3 [H4 H5]]]]]]].
  exists (flat_map bnd (map Z.to_nat bounds)); split.
  - assert (G : forall bs d', i_kind d' = i_kind d -> i_vector1 d' = i_vector1 d -> i_vector2 d' = i_vector2 d ->
               i_mod d' = i_mod d -> i_nVars d' = i_nVars d -> (0 <= i_rhs d')%Z -> increasing (i_rhs d') (length ls) bs ->
               tightenAll newLowerBound d' bs = Some (flat_map bnd (map Z.to_nat bs))).
    { induction bs as [|b bs IH]; intros d' K1 K2 K3 K4 K5 K6 D; [reflexivity|].
      destruct D as [D1 D2]; cbn [tightenAll map flat_map].
      rewrite (H5 d' K1 K2 K3 K4 K5 b ltac:(lia) ltac:(lia)), IH by (reflexivity || exact D2 || (cbn [i_rhs]; lia)).
      reflexivity. }
    apply G; try reflexivity; rewrite H2; [exact H0 | exact Hd].
  - rewrite H3, <- app_assoc.
    destruct (increasing_last bounds rhs (length ls) ltac:(lia) Hd) as [A B].
    pose proof (tightensZ_encodes z _ _ _ _ _ _ (map Z.to_nat (rhs :: bounds)) H4) as F.
    apply encodesZ_ext with (2 := F ltac:(intros r Hr; apply in_map_iff in Hr as [b [<- [<-|Hb]]]; [lia | specialize (B b Hb); lia])).
    intros a; unfold cmpZ; cbn [cmp_holds]; rewrite Z.leb_le; split.
    + intros G; destruct (last_in bounds rhs) as [L|L].
      * rewrite L; specialize (G (Z.to_nat rhs) ltac:(now left)); cbv beta in G; lia.
      * specialize (G (Z.to_nat (List.last bounds rhs)) ltac:(apply in_map; now right)); cbv beta in G; lia.
    + intros G r Hr; apply in_map_iff in Hr as [b [<- [<-|Hb]]]; [lia | specialize (B b Hb); lia].
Qed.
