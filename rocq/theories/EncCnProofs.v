(** * Correctness of the cardinality network encoders *)

From Coq Require Import String List Bool Arith ZArith Lia.
From Verif Require Import EncSpec EncAmo EncLemmas EncAmoProofs EncCc EncTotProofs EncCn.
Import ListNotations.

(** ** Sorted lists of literals

    Position [k] of the list stands for the value [off + k]. *)
Definition trO (a : env) (l : list elit) (off K : nat) : Prop :=
  forall k, 1 <= k <= length l -> off + k <= K -> lval a (at_ l (k - 1)) = true.
Definition nbO (a : env) (l : list elit) (off K : nat) : Prop :=
  forall k, 1 <= k <= length l -> lval a (at_ l (k - 1)) = true -> off + k <= K.
Definition exO (a : env) (l : list elit) (off K : nat) : Prop :=
  forall k, 1 <= k <= length l -> (lval a (at_ l (k - 1)) = true <-> off + k <= K).

Lemma trO_cons : forall a x l off K,
  trO a (x :: l) off K <-> (off + 1 <= K -> lval a x = true) /\ trO a l (off + 1) K.
Proof.
  intros a x l off K; split.
  - intros H; split.
    + intros HK; apply (H 1); simpl; lia.
    + intros k Hk HK; specialize (H (S k) ltac:(simpl; lia) ltac:(lia)).
      replace (S k - 1) with (S (k - 1)) in H by lia; now rewrite at_S in H.
  - intros [H1 H2] k Hk HK; simpl in Hk; destruct (Nat.eq_dec k 1) as [->|].
    + simpl; now apply H1.
    + replace (k - 1) with (S (k - 1 - 1)) by lia; rewrite at_S; apply H2; lia.
Qed.

Lemma nbO_cons : forall a x l off K,
  nbO a (x :: l) off K <-> (lval a x = true -> off + 1 <= K) /\ nbO a l (off + 1) K.
Proof.
  intros a x l off K; split.
  - intros H; split.
    + intros HK; apply (H 1); simpl; [lia | exact HK].
    + intros k Hk HK; specialize (H (S k) ltac:(simpl; lia)).
      replace (S k - 1) with (S (k - 1)) in H by lia; rewrite at_S in H; specialize (H HK); lia.
  - intros [H1 H2] k Hk HK; simpl in Hk; destruct (Nat.eq_dec k 1) as [->|].
    + simpl in HK; specialize (H1 HK); lia.
    + replace (k - 1) with (S (k - 1 - 1)) in HK by lia; rewrite at_S in HK.
      specialize (H2 (k - 1) ltac:(lia) HK); lia.
Qed.

Lemma exO_iff : forall a l off K, exO a l off K <-> trO a l off K /\ nbO a l off K.
Proof.
  intros a l off K; unfold exO, trO, nbO; split.
  - intros H; split; intros k Hk Hv; apply (H k Hk); exact Hv.
  - intros [H1 H2] k Hk; split; auto.
Qed.

Lemma exO_cons : forall a x l off K,
  exO a (x :: l) off K <-> (lval a x = true <-> off + 1 <= K) /\ exO a l (off + 1) K.
Proof. intros; rewrite !exO_iff, trO_cons, nbO_cons; tauto. Qed.

Lemma exO_nil : forall a off K, exO a [] off K.
Proof. intros a off K k Hk; simpl in Hk; lia. Qed.
Lemma trO_nil : forall a off K, trO a [] off K.
Proof. intros a off K k Hk; simpl in Hk; lia. Qed.
Lemma nbO_nil : forall a off K, nbO a [] off K.
Proof. intros a off K k Hk; simpl in Hk; lia. Qed.

Lemma exO_agree : forall n a b l off K, agree n a b -> scoped n l -> exO a l off K -> exO b l off K.
Proof.
  intros n a b l off K Ag S H k Hk.
  rewrite (agree_lval n a b); [now apply H | exact Ag | apply scoped_at; [exact S | lia]].
Qed.

Lemma exO_app : forall a l m off K,
  exO a (l ++ m) off K <-> exO a l off K /\ exO a m (off + length l) K.
Proof.
  induction l as [|x l IH]; intros m off K; cbn [app length].
  - rewrite Nat.add_0_r; split; [intros H; split; [apply exO_nil | exact H] | tauto].
  - rewrite !exO_cons, IH; replace (off + 1 + length l) with (off + S (length l)) by lia; tauto.
Qed.
Lemma trO_app : forall a l m off K,
  trO a (l ++ m) off K <-> trO a l off K /\ trO a m (off + length l) K.
Proof.
  induction l as [|x l IH]; intros m off K; cbn [app length].
  - rewrite Nat.add_0_r; split; [intros H; split; [apply trO_nil | exact H] | tauto].
  - rewrite !trO_cons, IH; replace (off + 1 + length l) with (off + S (length l)) by lia; tauto.
Qed.
Lemma nbO_app : forall a l m off K,
  nbO a (l ++ m) off K <-> nbO a l off K /\ nbO a m (off + length l) K.
Proof.
  induction l as [|x l IH]; intros m off K; cbn [app length].
  - rewrite Nat.add_0_r; split; [intros H; split; [apply nbO_nil | exact H] | tauto].
  - rewrite !nbO_cons, IH; replace (off + 1 + length l) with (off + S (length l)) by lia; tauto.
Qed.

(** ** Odd and even positions *)

Lemma odds_evens : forall l,
  (length (odds l) = (length l + 1) / 2 /\ forall i, i < length (odds l) -> at_ (odds l) i = at_ l (2 * i)) /\
  (length (evens l) = length l / 2 /\ forall i, i < length (evens l) -> at_ (evens l) i = at_ l (2 * i + 1)).
Proof.
  induction l as [|x l [[IHo IHo'] [IHe IHe']]]; [simpl; repeat split; lia|].
  cbn [odds evens length]; repeat split.
  - rewrite IHe; replace (S (length l) + 1) with (length l + 1 * 2) by lia; rewrite Nat.div_add by lia; lia.
  - intros [|i] Hi; [reflexivity|]; rewrite at_S, IHe' by lia.
    replace (2 * S i) with (S (2 * i + 1)) by lia; now rewrite at_S.
  - rewrite IHo; f_equal; lia.
  - intros i Hi; rewrite IHo' by exact Hi; replace (2 * i + 1) with (S (2 * i)) by lia; now rewrite at_S.
Qed.

Lemma div2_spec : forall x, 2 * (x / 2) <= x < 2 * (x / 2) + 2.
Proof. intros x; pose proof (Nat.div_mod x 2 ltac:(lia)); pose proof (Nat.mod_upper_bound x 2 ltac:(lia)); lia. Qed.

Lemma odds_length : forall l, length (odds l) = (length l + 1) / 2.
Proof. intros l; apply odds_evens. Qed.
Lemma evens_length : forall l, length (evens l) = length l / 2.
Proof. intros l; apply odds_evens. Qed.

Lemma odds_scoped : forall n l, scoped n l -> scoped n (odds l) /\ scoped n (evens l).
Proof.
  induction l as [|x l IH]; intros H; cbn [odds evens]; [split; apply scoped_nil|].
  apply scoped_cons in H as [Hx Hl]; destruct (IH Hl); split; [apply scoped_cons; auto | assumption].
Qed.

Lemma odds_pos : forall (a : env) l k, 1 <= k <= length (odds l) ->
  at_ (odds l) (k - 1) = at_ l (2 * k - 1 - 1) /\ 1 <= 2 * k - 1 <= length l.
Proof.
  intros a l k Hk; split.
  - destruct (odds_evens l) as [[_ H] _]; rewrite H by lia; f_equal; lia.
  - rewrite odds_length in Hk; pose proof (div2_spec (length l + 1)); lia.
Qed.
Lemma evens_pos : forall (a : env) l k, 1 <= k <= length (evens l) ->
  at_ (evens l) (k - 1) = at_ l (2 * k - 1) /\ 1 <= 2 * k <= length l.
Proof.
  intros a l k Hk; split.
  - destruct (odds_evens l) as [_ [_ H]]; rewrite H by lia; f_equal; lia.
  - rewrite evens_length in Hk; pose proof (div2_spec (length l)); lia.
Qed.

Lemma odds_tr : forall a l K, trO a l 0 K -> trO a (odds l) 0 ((K + 1) / 2) /\ trO a (evens l) 0 (K / 2).
Proof.
  intros a l K H; pose proof (div2_spec (K + 1)); pose proof (div2_spec K); split; intros k Hk HK.
  - destruct (odds_pos a l k Hk) as [-> ?]; apply H; lia.
  - destruct (evens_pos a l k Hk) as [-> ?]; apply H; lia.
Qed.
Lemma odds_nb : forall a l K, nbO a l 0 K -> nbO a (odds l) 0 ((K + 1) / 2) /\ nbO a (evens l) 0 (K / 2).
Proof.
  intros a l K H; pose proof (div2_spec (K + 1)); pose proof (div2_spec K); split; intros k Hk HV.
  - destruct (odds_pos a l k Hk) as [E B]; rewrite E in HV; specialize (H (2 * k - 1) B HV); lia.
  - destruct (evens_pos a l k Hk) as [E B]; rewrite E in HV; specialize (H (2 * k) B HV); lia.
Qed.
Lemma odds_ex : forall a l K, exO a l 0 K -> exO a (odds l) 0 ((K + 1) / 2) /\ exO a (evens l) 0 (K / 2).
Proof.
  intros a l K H; apply exO_iff in H as [H1 H2].
  apply odds_tr in H1 as [A B]; apply odds_nb in H2 as [C D]; split; apply exO_iff; auto.
Qed.

(** ** Comparators *)

Lemma cmp3_fwd : forall a x y z d, fwd d = true -> sat a (comparator3 x y z d) ->
  (lval a x = true \/ lval a y = true) -> lval a z = true.
Proof.
  intros a x y z d Hd H; unfold comparator3 in H; rewrite Hd in H; apply sat_app in H as [H _].
  apply sat_cons in H as [H1 H]; apply sat1 in H; rewrite csat2 in H, H1; tauto.
Qed.
Lemma cmp3_bwd : forall a x y z d, bwd d = true -> sat a (comparator3 x y z d) ->
  lval a z = true -> (lval a x = true \/ lval a y = true).
Proof.
  intros a x y z d Hd H; unfold comparator3 in H; rewrite Hd in H; apply sat_app in H as [_ H].
  apply sat1 in H; rewrite !csat_cons, lval_neg_true in H; intros Hz.
  destruct H as [H|[H|[H|H]]]; [congruence | now left | now right | now apply csat_nil in H].
Qed.
Lemma cmp3_complete : forall a x y z d,
  lval a z = lval a x || lval a y -> sat a (comparator3 x y z d).
Proof.
  intros a x y z d H; unfold comparator3; apply sat_app; split.
  - destruct (fwd d); [|apply sat_nil]; apply sat_cons; split; [|apply sat1]; apply csat2; intros V;
      rewrite H, V; auto using orb_true_r.
  - destruct (bwd d); [|apply sat_nil]; apply sat1; rewrite !csat_cons, lval_neg_true, H.
    destruct (lval a x), (lval a y); auto.
Qed.
Lemma cmp4_fwd : forall a x y z w d, fwd d = true -> sat a (comparator4 x y z w d) ->
  ((lval a x = true \/ lval a y = true) -> lval a z = true) /\
  (lval a x = true -> lval a y = true -> lval a w = true).
Proof.
  intros a x y z w d Hd H; unfold comparator4 in H; rewrite Hd in H; apply sat_app in H as [H _].
  apply sat_cons in H as [H1 H]; apply sat_cons in H as [H2 H]; apply sat1 in H.
  rewrite csat2 in H1, H2; rewrite csat3 in H; tauto.
Qed.
Lemma cmp4_bwd : forall a x y z w d, bwd d = true -> sat a (comparator4 x y z w d) ->
  (lval a z = true -> lval a x = true \/ lval a y = true) /\
  (lval a w = true -> lval a x = true /\ lval a y = true).
Proof.
  intros a x y z w d Hd H; unfold comparator4 in H; rewrite Hd in H; apply sat_app in H as [_ H].
  apply sat_cons in H as [H1 H]; apply sat_cons in H as [H2 H]; apply sat1 in H.
  rewrite csat2 in H2, H; rewrite !csat_cons, lval_neg_true in H1; split; [|tauto]; intros Hz.
  destruct H1 as [H1|[H1|[H1|H1]]]; [congruence | now left | now right | now apply csat_nil in H1].
Qed.
Lemma cmp4_complete : forall a x y z w d,
  lval a z = lval a x || lval a y -> lval a w = lval a x && lval a y -> sat a (comparator4 x y z w d).
Proof.
  intros a x y z w d H1 H2; unfold comparator4; apply sat_app; split.
  - destruct (fwd d); [|apply sat_nil]; apply sat_cons; split; [|apply sat_cons; split; [|apply sat1]].
    + apply csat2; intros V; rewrite H1, V; reflexivity.
    + apply csat2; intros V; rewrite H1, V; apply orb_true_r.
    + apply csat3; intros V W; rewrite H2, V, W; reflexivity.
  - destruct (bwd d); [|apply sat_nil]; apply sat_cons; split; [|apply sat_cons; split; [|apply sat1]].
    + rewrite !csat_cons, lval_neg_true, H1; destruct (lval a x), (lval a y); auto.
    + apply csat2; rewrite H2; intros V; now apply andb_true_iff in V.
    + apply csat2; rewrite H2; intros V; now apply andb_true_iff in V.
Qed.

Lemma cmp3_scoped : forall n x y z d, lscope n x -> lscope n y -> lscope n z -> cscoped n (comparator3 x y z d).
Proof.
  intros n x y z d Hx Hy Hz; unfold comparator3; apply cscoped_app; split;
    [destruct (fwd d) | destruct (bwd d)]; split_scoped; auto.
Qed.
Lemma cmp4_scoped : forall n x y z w d, lscope n x -> lscope n y -> lscope n z -> lscope n w ->
  cscoped n (comparator4 x y z w d).
Proof.
  intros n x y z w d Hx Hy Hz Hw; unfold comparator4; apply cscoped_app; split;
    [destruct (fwd d) | destruct (bwd d)]; split_scoped; auto.
Qed.

(** ** Merging *)

Lemma two_auxs : forall n, auxs ACC 2 n = [at_ (auxs ACC 2 n) 0; at_ (auxs ACC 2 n) 1].
Proof. reflexivity. Qed.
Lemma one_aux : forall n, auxs ACC 1 n = [at_ (auxs ACC 1 n) 0].
Proof. reflexivity. Qed.

Lemma aux_scope : forall k n i, i < k -> lscope (bump ACC k n) (at_ (auxs ACC k n) i).
Proof. intros; apply scoped_at; [apply auxs_scoped | now rewrite auxs_length]. Qed.

(** Choose two fresh variables. *)
Lemma fresh2 : forall a n p q, exists b, agree n a b /\
  lval b (at_ (auxs ACC 2 n) 0) = p /\ lval b (at_ (auxs ACC 2 n) 1) = q.
Proof.
  intros a n p q; exists (upd ACC (fresh ACC n) (fun i => if i =? 0 then p else q) a).
  split; [apply upd_agree|]; rewrite !upd_at by lia; split; reflexivity.
Qed.
Lemma fresh1 : forall a n p, exists b, agree n a b /\ lval b (at_ (auxs ACC 1 n) 0) = p.
Proof.
  intros a n p; exists (upd ACC (fresh ACC n) (fun i => p) a).
  split; [apply upd_agree|]; rewrite !upd_at by lia; reflexivity.
Qed.

Lemma bool_iff : forall (b c : bool) (P Q : Prop), (b = true <-> P) -> (c = true <-> Q) ->
  (b || c = true <-> P \/ Q) /\ (b && c = true <-> P /\ Q).
Proof. intros b c P Q H1 H2; rewrite orb_true_iff, andb_true_iff; tauto. Qed.

Lemma mergeLoop_ok : forall d od ev c j n cs outs n',
  mergeLoop d c (2 * j + 1) od ev n = (cs, outs, n') ->
  2 * j + 1 < c -> length od <= length ev + 1 -> length ev <= length od + 1 ->
  scoped n od -> scoped n ev ->
  cle n n' /\ cscoped n' cs /\ scoped n' outs /\
  length outs = Nat.min (c - (2 * j + 1)) (length od + length ev) /\
  forall O E, E <= O <= E + 2 ->
    (2 * (j + length ev) + 2 <= c -> E <= j + length ev) ->
    (2 * (j + length od) + 2 <= c -> O <= j + 1 + length od) ->
    (fwd d = true -> forall a, sat a cs -> trO a od (j + 1) O -> trO a ev j E -> trO a outs (2 * j + 1) (O + E)) /\
    (bwd d = true -> forall a, sat a cs -> nbO a od (j + 1) O -> nbO a ev j E -> nbO a outs (2 * j + 1) (O + E)) /\
    (forall a, exO a od (j + 1) O -> exO a ev j E ->
       exists b, agree n a b /\ sat b cs /\ exO b outs (2 * j + 1) (O + E)).
Proof.
  intros d; induction od as [|x od IH]; intros ev c j n cs outs n' Hm Hc L1 L2 So Se.
  - destruct ev as [|y ev].
    + apply pair3 in Hm as [<- [<- <-]].
      split; [apply cle_refl|]; split; [apply cscoped_nil|]; split; [apply scoped_nil|].
      split; [simpl; lia|]; intros O E HOE _ _; split; [|split].
      * intros; apply trO_nil.
      * intros; apply nbO_nil.
      * intros a _ _; exists a; split; [apply agree_refl|]; split; [apply sat_nil | apply exO_nil].
    + assert (ev = []) by (destruct ev; [reflexivity | simpl in L2; lia]); subst ev.
      apply pair3 in Hm as [<- [<- <-]]; change (at_ [y] (length [y] - 1)) with y.
      split; [apply cle_refl|]; split; [apply cscoped_nil|]; split; [exact Se|].
      split; [cbn [length]; lia|]; intros O E HOE HE HO; cbn [length] in HE, HO.
      specialize (HO ltac:(lia)); split; [|split].
      * intros _ a _ _ H; apply trO_cons in H as [H _]; apply trO_cons; split; [|apply trO_nil].
        intros; apply H; lia.
      * intros _ a _ _ H; apply nbO_cons in H as [H _]; apply nbO_cons; split; [|apply nbO_nil].
        intros V; specialize (H V); lia.
      * intros a _ H; exists a; split; [apply agree_refl|]; split; [apply sat_nil|].
        apply exO_cons in H as [H _]; apply exO_cons; split; [|apply exO_nil].
        rewrite H; lia.
  - destruct ev as [|y ev].
    + assert (od = []) by (destruct od; [reflexivity | simpl in L1; lia]); subst od.
      apply pair3 in Hm as [<- [<- <-]]; change (at_ [x] (length [x] - 1)) with x.
      split; [apply cle_refl|]; split; [apply cscoped_nil|]; split; [exact So|].
      split; [cbn [length]; lia|]; intros O E HOE HE HO; cbn [length] in HE, HO.
      specialize (HE ltac:(lia)); split; [|split].
      * intros _ a _ H _; apply trO_cons in H as [H _]; apply trO_cons; split; [|apply trO_nil].
        intros; apply H; lia.
      * intros _ a _ H _; apply nbO_cons in H as [H _]; apply nbO_cons; split; [|apply nbO_nil].
        intros V; specialize (H V); lia.
      * intros a H _; exists a; split; [apply agree_refl|]; split; [apply sat_nil|].
        apply exO_cons in H as [H _]; apply exO_cons; split; [|apply exO_nil].
        rewrite H; lia.
    + cbn [length] in L1, L2.
      apply scoped_cons in So as [Sx So]; apply scoped_cons in Se as [Sy Se].
      cbn [mergeLoop] in Hm.
      destruct (Nat.leb_spec (2 * j + 1 + 2) c) as [Hc2|Hc2].
      * set (z := auxs ACC 2 n) in *; set (n1 := bump ACC 2 n) in *.
        assert (C1 : cle n n1) by apply cle_bump.
        assert (Sz : scoped n1 z) by apply auxs_scoped.
        assert (Sz0 : lscope n1 (at_ z 0)) by (apply aux_scope; lia).
        assert (Sz1 : lscope n1 (at_ z 1)) by (apply aux_scope; lia).
        assert (Scmp : cscoped n1 (comparator4 x y (at_ z 0) (at_ z 1) d)).
        { apply cmp4_scoped; auto; eapply lscope_le; eauto. }
        destruct (Nat.eqb_spec (2 * j + 1 + 2) c) as [Ec|Ec].
        -- apply pair3 in Hm as [<- [<- <-]].
           split; [exact C1|]; split; [exact Scmp|]; split; [exact Sz|].
           split; [unfold z; rewrite auxs_length; cbn [length]; lia|].
           intros O E HOE _ _; split; [|split].
           ++ intros Hd a Hs H1 H2; apply trO_cons in H1 as [H1 _]; apply trO_cons in H2 as [H2 _].
              destruct (cmp4_fwd a x y (at_ z 0) (at_ z 1) d Hd Hs) as [F1 F2].
              unfold z; rewrite two_auxs; fold z; apply trO_cons; split; [|apply trO_cons; split; [|apply trO_nil]].
              ** intros HV; apply F1; destruct (Nat.le_gt_cases (j + 1) E); [right; apply H2 | left; apply H1]; lia.
              ** intros HV; apply F2; [apply H1 | apply H2]; lia.
           ++ intros Hd a Hs H1 H2; apply nbO_cons in H1 as [H1 _]; apply nbO_cons in H2 as [H2 _].
              destruct (cmp4_bwd a x y (at_ z 0) (at_ z 1) d Hd Hs) as [F1 F2].
              unfold z; rewrite two_auxs; fold z; apply nbO_cons; split; [|apply nbO_cons; split; [|apply nbO_nil]].
              ** intros HV; destruct (F1 HV) as [V|V]; [specialize (H1 V) | specialize (H2 V)]; lia.
              ** intros HV; destruct (F2 HV) as [V W]; specialize (H1 V); specialize (H2 W); lia.
           ++ intros a H1 H2; apply exO_cons in H1 as [H1 _]; apply exO_cons in H2 as [H2 _].
              destruct (fresh2 a n (lval a x || lval a y) (lval a x && lval a y)) as [b [Ag [B1 B2]]]; fold z in B1, B2.
              destruct (bool_iff _ _ _ _ H1 H2) as [I1 I2].
              exists b; split; [exact Ag|]; split.
              ** apply cmp4_complete; rewrite (agree_lval n a b x), (agree_lval n a b y) by auto; assumption.
              ** unfold z; rewrite two_auxs; fold z; rewrite !exO_cons, B1, B2, I1, I2.
                 split; [lia|]; split; [lia | apply exO_nil].
        -- replace (2 * j + 1 + 2) with (2 * S j + 1) in Hm by lia.
           destruct (mergeLoop d c (2 * S j + 1) od ev n1) as [[cs1 out1] n2] eqn:Er.
           apply pair3 in Hm as [<- [<- <-]].
           destruct (IH ev c (S j) n1 cs1 out1 n2 Er ltac:(lia) ltac:(lia) ltac:(lia)
                        ltac:(eapply scoped_le; eauto) ltac:(eapply scoped_le; eauto))
             as [R1 [R2 [R3 [R4 R5]]]].
           split; [now apply cle_trans with n1|].
           split; [apply cscoped_app; split; [now apply cscoped_le with n1 | exact R2]|].
           split; [apply scoped_app; split; [now apply scoped_le with n1 | exact R3]|].
           split; [rewrite app_length; unfold z; rewrite auxs_length; cbn [length]; lia|].
           intros O E HOE HE HO; cbn [length] in HE, HO.
           destruct (R5 O E HOE ltac:(lia) ltac:(lia)) as [G1 [G2 G3]].
           split; [|split].
           ++ intros Hd a Hs H1 H2; apply sat_app in Hs as [Hs Hs2].
              apply trO_cons in H1 as [H1 H1']; apply trO_cons in H2 as [H2 H2'].
              destruct (cmp4_fwd a x y (at_ z 0) (at_ z 1) d Hd Hs) as [F1 F2].
              apply trO_app; split.
              ** unfold z; rewrite two_auxs; fold z; apply trO_cons; split; [|apply trO_cons; split; [|apply trO_nil]].
                 --- intros HV; apply F1; destruct (Nat.le_gt_cases (j + 1) E); [right; apply H2 | left; apply H1]; lia.
                 --- intros HV; apply F2; [apply H1 | apply H2]; lia.
              ** unfold z; rewrite auxs_length; replace (2 * j + 1 + 2) with (2 * S j + 1) by lia.
                 apply (G1 Hd a Hs2); replace (S j + 1) with (j + 1 + 1) by lia; [exact H1'|].
                 replace (S j) with (j + 1) by lia; exact H2'.
           ++ intros Hd a Hs H1 H2; apply sat_app in Hs as [Hs Hs2].
              apply nbO_cons in H1 as [H1 H1']; apply nbO_cons in H2 as [H2 H2'].
              destruct (cmp4_bwd a x y (at_ z 0) (at_ z 1) d Hd Hs) as [F1 F2].
              apply nbO_app; split.
              ** unfold z; rewrite two_auxs; fold z; apply nbO_cons; split; [|apply nbO_cons; split; [|apply nbO_nil]].
                 --- intros HV; destruct (F1 HV) as [V|V]; [specialize (H1 V) | specialize (H2 V)]; lia.
                 --- intros HV; destruct (F2 HV) as [V W]; specialize (H1 V); specialize (H2 W); lia.
              ** unfold z; rewrite auxs_length; replace (2 * j + 1 + 2) with (2 * S j + 1) by lia.
                 apply (G2 Hd a Hs2); replace (S j + 1) with (j + 1 + 1) by lia; [exact H1'|].
                 replace (S j) with (j + 1) by lia; exact H2'.
           ++ intros a H1 H2; apply exO_cons in H1 as [H1 H1']; apply exO_cons in H2 as [H2 H2'].
              destruct (fresh2 a n (lval a x || lval a y) (lval a x && lval a y)) as [b [Ag [B1 B2]]]; fold z in B1, B2.
              destruct (bool_iff _ _ _ _ H1 H2) as [I1 I2].
              destruct (G3 b) as [b2 [Ag2 [Sb2 Eb2]]].
              { replace (S j + 1) with (j + 1 + 1) by lia; apply exO_agree with n a; auto. }
              { replace (S j) with (j + 1) by lia; apply exO_agree with n a; auto. }
              exists b2; split; [now apply agree_trans with n1 b|]; split.
              ** apply sat_app; split; [|exact Sb2].
                 apply agree_sat with n1 b; [exact Ag2 | exact Scmp|].
                 apply cmp4_complete; rewrite (agree_lval n a b x), (agree_lval n a b y) by auto; assumption.
              ** apply exO_app; split.
                 --- apply exO_agree with n1 b; [exact Ag2 | exact Sz|].
                     unfold z; rewrite two_auxs; fold z; rewrite !exO_cons, B1, B2, I1, I2.
                     split; [lia|]; split; [lia | apply exO_nil].
                 --- unfold z; rewrite auxs_length; replace (2 * j + 1 + 2) with (2 * S j + 1) by lia; exact Eb2.
      * destruct (Nat.eqb_spec (2 * j + 1 + 1) c) as [Ec|Ec]; [|lia].
        set (z := auxs ACC 1 n) in *; set (n1 := bump ACC 1 n) in *.
        assert (C1 : cle n n1) by apply cle_bump.
        assert (Sz : scoped n1 z) by apply auxs_scoped.
        assert (Sz0 : lscope n1 (at_ z 0)) by (apply aux_scope; lia).
        apply pair3 in Hm as [<- [<- <-]].
        split; [exact C1|]; split; [apply cmp3_scoped; auto; eapply lscope_le; eauto|]; split; [exact Sz|].
        split; [unfold z; rewrite auxs_length; cbn [length]; lia|].
        intros O E HOE _ _; split; [|split].
        -- intros Hd a Hs H1 H2; apply trO_cons in H1 as [H1 _]; apply trO_cons in H2 as [H2 _].
           pose proof (cmp3_fwd a x y (at_ z 0) d Hd Hs) as F1.
           unfold z; rewrite one_aux; fold z; apply trO_cons; split; [|apply trO_nil].
           intros HV; apply F1; destruct (Nat.le_gt_cases (j + 1) E); [right; apply H2 | left; apply H1]; lia.
        -- intros Hd a Hs H1 H2; apply nbO_cons in H1 as [H1 _]; apply nbO_cons in H2 as [H2 _].
           pose proof (cmp3_bwd a x y (at_ z 0) d Hd Hs) as F1.
           unfold z; rewrite one_aux; fold z; apply nbO_cons; split; [|apply nbO_nil].
           intros HV; destruct (F1 HV) as [V|V]; [specialize (H1 V) | specialize (H2 V)]; lia.
        -- intros a H1 H2; apply exO_cons in H1 as [H1 _]; apply exO_cons in H2 as [H2 _].
           destruct (fresh1 a n (lval a x || lval a y)) as [b [Ag B1]]; fold z in B1.
           destruct (bool_iff _ _ _ _ H1 H2) as [I1 _].
           exists b; split; [exact Ag|]; split.
           ++ apply cmp3_complete; rewrite (agree_lval n a b x), (agree_lval n a b y) by auto; assumption.
           ++ unfold z; rewrite one_aux; fold z; rewrite !exO_cons, B1, I1.
              split; [lia | apply exO_nil].
Qed.

Definition merges (m : nat) (A B : list elit) (d : dir) (n : ctr)
                  (cs : list clause) (out : list elit) (n' : ctr) : Prop :=
  cle n n' /\ cscoped n' cs /\ scoped n' out /\ length out = Nat.min m (length A + length B) /\
  forall VA VB, VA <= length A -> VB <= length B ->
    (fwd d = true -> forall a, sat a cs -> trO a A 0 VA -> trO a B 0 VB -> trO a out 0 (VA + VB)) /\
    (bwd d = true -> forall a, sat a cs -> nbO a A 0 VA -> nbO a B 0 VB -> nbO a out 0 (VA + VB)) /\
    (forall a, exO a A 0 VA -> exO a B 0 VB ->
       exists b, agree n a b /\ sat b cs /\ exO b out 0 (VA + VB)).

Lemma cons_at0 : forall l, l <> [] -> exists r, l = at_ l 0 :: r.
Proof. intros [|x l] H; [congruence|]; exists l; reflexivity. Qed.

Lemma merge_ok : forall d fuel m A B n cs out n',
  1 <= length A + length B <= fuel -> length A <= m -> length B <= m -> 1 <= m ->
  scoped n A -> scoped n B ->
  merge fuel m A B d n = (cs, out, n') -> merges m A B d n cs out n'.
Proof.
  intros d; induction fuel as [|fuel IH]; intros m A B n cs out n' Hf HA HB Hm SA SB E; [lia|].
  cbn [merge] in E; destruct (Nat.eqb_spec m 0); [lia|].
  destruct (Nat.eqb_spec (length A) 0) as [EA|EA].
  { cbn [orb] in E; apply pair3 in E as [<- [<- <-]].
    assert (A = []) by (destruct A; [reflexivity | simpl in EA; lia]); subst A; cbn [length] in *.
    split; [apply cle_refl|]; split; [apply cscoped_nil|]; split; [exact SB|]; split; [cbn [length]; lia|].
    intros VA VB HVA HVB; cbn [length] in HVA; assert (VA = 0) by lia; subst VA; cbn [Nat.add].
    split; [|split]; auto.
    intros a _ H; exists a; split; [apply agree_refl|]; split; [apply sat_nil | exact H]. }
  destruct (Nat.eqb_spec (length B) 0) as [EB|EB].
  { cbn [orb] in E; apply pair3 in E as [<- [<- <-]].
    assert (B = []) by (destruct B; [reflexivity | simpl in EB; lia]); subst B; cbn [length] in *.
    split; [apply cle_refl|]; split; [apply cscoped_nil|]; split; [exact SA|]; split; [cbn [length]; lia|].
    intros VA VB HVA HVB; cbn [length] in HVB; assert (VB = 0) by lia; subst VB; rewrite Nat.add_0_r.
    split; [|split]; auto.
    intros a H _; exists a; split; [apply agree_refl|]; split; [apply sat_nil | exact H]. }
  cbn [orb] in E; set (c := Nat.min m (length A + length B)) in *.
  assert (Hca : Nat.min (length A) c = length A) by (unfold c; lia).
  assert (Hcb : Nat.min (length B) c = length B) by (unfold c; lia).
  rewrite Hca, Hcb in E; rewrite !firstn_all in E.
  assert (SA0 : lscope n (at_ A 0)) by (apply scoped_at; [exact SA | lia]).
  assert (SB0 : lscope n (at_ B 0)) by (apply scoped_at; [exact SB | lia]).
  destruct (Nat.eqb_spec c 1) as [Ec|Ec].
  { apply pair3 in E as [<- [<- <-]].
    assert (LA : length A = 1 /\ length B = 1 /\ m = 1) by (unfold c in *; lia).
    destruct A as [|x [|]]; cbn [length] in LA; try lia; destruct B as [|y [|]]; cbn [length] in LA; try lia.
    rewrite !at_0 in *; set (z := auxs ACC 1 n) in *; set (n1 := bump ACC 1 n) in *.
    assert (C1 : cle n n1) by apply cle_bump.
    assert (Sz0 : lscope n1 (at_ z 0)) by (apply aux_scope; lia).
    split; [exact C1|]; split; [apply cmp3_scoped; auto; eapply lscope_le; eauto|].
    split; [apply auxs_scoped|]; split; [unfold z; rewrite auxs_length; cbn [length]; lia|].
    intros VA VB HVA HVB; unfold z; rewrite one_aux; fold z; split; [|split].
    - intros Hd a Hs H1 H2; apply trO_cons in H1 as [H1 _]; apply trO_cons in H2 as [H2 _].
      apply trO_cons; split; [|apply trO_nil]; intros HV; apply (cmp3_fwd a x y (at_ z 0) d Hd Hs).
      destruct (Nat.eq_dec VA 0); [right; apply H2 | left; apply H1]; lia.
    - intros Hd a Hs H1 H2; apply nbO_cons in H1 as [H1 _]; apply nbO_cons in H2 as [H2 _].
      apply nbO_cons; split; [|apply nbO_nil]; intros HV.
      destruct (cmp3_bwd a x y (at_ z 0) d Hd Hs HV) as [V|V]; [specialize (H1 V) | specialize (H2 V)]; lia.
    - intros a H1 H2; apply exO_cons in H1 as [H1 _]; apply exO_cons in H2 as [H2 _].
      destruct (fresh1 a n (lval a x || lval a y)) as [b [Ag B1]]; fold z in B1.
      destruct (bool_iff _ _ _ _ H1 H2) as [I1 _].
      exists b; split; [exact Ag|]; split.
      + apply cmp3_complete; rewrite (agree_lval n a b x), (agree_lval n a b y) by auto; assumption.
      + rewrite exO_cons, B1, I1; split; [lia | apply exO_nil]. }
  destruct ((length A =? 1) && (length B =? 1)) eqn:E11.
  { apply andb_true_iff in E11 as [L1 L2]; apply Nat.eqb_eq in L1, L2.
    apply pair3 in E as [<- [<- <-]].
    destruct A as [|x [|]]; cbn [length] in L1; try lia; destruct B as [|y [|]]; cbn [length] in L2; try lia.
    rewrite !at_0 in *; set (z := auxs ACC 2 n) in *; set (n1 := bump ACC 2 n) in *.
    assert (C1 : cle n n1) by apply cle_bump.
    assert (Sz0 : lscope n1 (at_ z 0)) by (apply aux_scope; lia).
    assert (Sz1 : lscope n1 (at_ z 1)) by (apply aux_scope; lia).
    split; [exact C1|]; split; [apply cmp4_scoped; auto; eapply lscope_le; eauto|].
    split; [apply auxs_scoped|]; split; [unfold z; rewrite auxs_length; unfold c in Ec; cbn [length] in *; lia|].
    intros VA VB HVA HVB; unfold z; rewrite two_auxs; fold z; cbn [length] in HVA, HVB; split; [|split].
    - intros Hd a Hs H1 H2; apply trO_cons in H1 as [H1 _]; apply trO_cons in H2 as [H2 _].
      destruct (cmp4_fwd a x y (at_ z 0) (at_ z 1) d Hd Hs) as [F1 F2].
      apply trO_cons; split; [|apply trO_cons; split; [|apply trO_nil]].
      + intros HV; apply F1; destruct (Nat.eq_dec VA 0); [right; apply H2 | left; apply H1]; lia.
      + intros HV; apply F2; [apply H1 | apply H2]; lia.
    - intros Hd a Hs H1 H2; apply nbO_cons in H1 as [H1 _]; apply nbO_cons in H2 as [H2 _].
      destruct (cmp4_bwd a x y (at_ z 0) (at_ z 1) d Hd Hs) as [F1 F2].
      apply nbO_cons; split; [|apply nbO_cons; split; [|apply nbO_nil]].
      + intros HV; destruct (F1 HV) as [V|V]; [specialize (H1 V) | specialize (H2 V)]; lia.
      + intros HV; destruct (F2 HV) as [V W]; specialize (H1 V); specialize (H2 W); lia.
    - intros a H1 H2; apply exO_cons in H1 as [H1 _]; apply exO_cons in H2 as [H2 _].
      destruct (fresh2 a n (lval a x || lval a y) (lval a x && lval a y)) as [b [Ag [B1 B2]]]; fold z in B1, B2.
      destruct (bool_iff _ _ _ _ H1 H2) as [I1 I2].
      exists b; split; [exact Ag|]; split.
      + apply cmp4_complete; rewrite (agree_lval n a b x), (agree_lval n a b y) by auto; assumption.
      + rewrite !exO_cons, B1, B2, I1, I2; split; [lia|]; split; [lia | apply exO_nil]. }
  assert (Hab : 3 <= length A + length B).
  { destruct (Nat.eqb_spec (length A) 1), (Nat.eqb_spec (length B) 1); cbn [andb] in E11; try discriminate; lia. }
  clear E11.
  destruct (merge fuel (c / 2 + 1) (odds A) (odds B) d n) as [[c1 od] n1] eqn:E1.
  destruct (merge fuel (c / 2) (evens A) (evens B) d n1) as [[c2 ev] n2] eqn:E2.
  destruct (mergeLoop d c 1 (tl od) ev n2) as [[c3 out3] n3] eqn:E3.
  apply pair3 in E as [<- [<- <-]].
  pose proof (div2_spec c) as Dc.
  pose proof (div2_spec (length A)) as DA; pose proof (div2_spec (length A + 1)) as DA1.
  pose proof (div2_spec (length B)) as DB; pose proof (div2_spec (length B + 1)) as DB1.
  destruct (odds_scoped n A SA) as [SoA SeA]; destruct (odds_scoped n B SB) as [SoB SeB].
  assert (M1 : merges (c / 2 + 1) (odds A) (odds B) d n c1 od n1).
  { apply (IH _ _ _ _ _ _ _) in E1; auto; rewrite ?odds_length; try (unfold c in *; lia). }
  destruct M1 as [C1 [Sc1 [So [Lo M1]]]].
  assert (M2 : merges (c / 2) (evens A) (evens B) d n1 c2 ev n2).
  { apply (IH _ _ _ _ _ _ _) in E2; auto; rewrite ?evens_length; try (unfold c in *; lia); eapply scoped_le; eauto. }
  destruct M2 as [C2 [Sc2 [Se [Le M2]]]].
  rewrite !odds_length in Lo; rewrite !evens_length in Le.
  assert (Hod : od <> []) by (intros ->; cbn [length] in Lo; unfold c in *; lia).
  destruct (cons_at0 od Hod) as [od' Eod].
  assert (Ltl : length od = S (length od')) by (rewrite Eod; reflexivity).
  assert (So2 : scoped n2 od) by now apply scoped_le with n1.
  assert (Etl : tl od = od') by (rewrite Eod; reflexivity).
  assert (Sod : lscope n2 (at_ od 0) /\ scoped n2 od') by (rewrite Eod in So2; now apply scoped_cons in So2).
  destruct Sod as [Sod0 Sod'].
  rewrite Etl in E3; change 1 with (2 * 0 + 1) in E3.
  destruct (mergeLoop_ok d od' ev c 0 n2 c3 out3 n3 E3) as [C3 [Sc3 [S3 [L3 M3]]]]; auto;
    try (unfold c in *; lia).
  split; [apply cle_trans with n1; [|apply cle_trans with n2]; assumption|].
  assert (C13 : cle n1 n3) by (apply cle_trans with n2; assumption).
  split; [apply cscoped_app; split; [now apply cscoped_le with n1|]; apply cscoped_app; split;
          [now apply cscoped_le with n2 | exact Sc3]|].
  split; [apply scoped_cons; split; [now apply lscope_le with n2 | exact S3]|].
  split; [cbn [length]; rewrite L3; unfold c in *; lia|].
  intros VA VB HVA HVB.
  pose proof (div2_spec VA) as DVA; pose proof (div2_spec (VA + 1)) as DVA1.
  pose proof (div2_spec VB) as DVB; pose proof (div2_spec (VB + 1)) as DVB1.
  set (O := (VA + 1) / 2 + (VB + 1) / 2) in *; set (Ev := VA / 2 + VB / 2) in *.
  assert (EO : VA + VB = O + Ev) by (unfold O, Ev; lia).
  destruct (M1 ((VA + 1) / 2) ((VB + 1) / 2)) as [P1 [P2 P3]]; rewrite ?odds_length; try lia; fold O in P1, P2, P3.
  destruct (M2 (VA / 2) (VB / 2)) as [Q1 [Q2 Q3]]; rewrite ?evens_length; try lia; fold Ev in Q1, Q2, Q3.
  destruct (M3 O Ev) as [R1 [R2 R3]]; try (unfold O, Ev, c in *; lia).
  rewrite EO; split; [|split].
  - intros Hd a Hs H1 H2; apply sat_app in Hs as [X1 Hs]; apply sat_app in Hs as [X2 X3].
    apply odds_tr in H1 as [H1o H1e]; apply odds_tr in H2 as [H2o H2e].
    pose proof (P1 Hd a X1 H1o H2o) as T1; pose proof (Q1 Hd a X2 H1e H2e) as T2.
    rewrite Eod in T1; apply trO_cons in T1 as [T0 T1].
    apply trO_cons; split; [intros; apply T0; unfold O, Ev in *; lia | apply (R1 Hd a X3 T1 T2)].
  - intros Hd a Hs H1 H2; apply sat_app in Hs as [X1 Hs]; apply sat_app in Hs as [X2 X3].
    apply odds_nb in H1 as [H1o H1e]; apply odds_nb in H2 as [H2o H2e].
    pose proof (P2 Hd a X1 H1o H2o) as T1; pose proof (Q2 Hd a X2 H1e H2e) as T2.
    rewrite Eod in T1; apply nbO_cons in T1 as [T0 T1].
    apply nbO_cons; split; [intros V; specialize (T0 V); lia | apply (R2 Hd a X3 T1 T2)].
  - intros a H1 H2; apply odds_ex in H1 as [H1o H1e]; apply odds_ex in H2 as [H2o H2e].
    destruct (P3 a H1o H2o) as [b1 [Ag1 [Sb1 Eb1]]].
    destruct (Q3 b1) as [b2 [Ag2 [Sb2 Eb2]]].
    { apply exO_agree with n a; auto. } { apply exO_agree with n a; auto. }
    assert (Eb1' : exO b2 od 0 O) by (apply exO_agree with n1 b1; auto).
    rewrite Eod in Eb1'; apply exO_cons in Eb1' as [T0 T1].
    destruct (R3 b2 T1 Eb2) as [b3 [Ag3 [Sb3 Eb3]]].
    exists b3; split; [apply agree_trans with n1 b1; auto; apply agree_trans with n2 b2; auto|]; split.
    + apply sat_app; split; [|apply sat_app; split; [|exact Sb3]].
      * apply agree_sat with n1 b1; auto; apply agree_trans with n2 b2; auto.
      * apply agree_sat with n2 b2; auto.
    + apply exO_cons; split; [|exact Eb3].
      rewrite (agree_lval n2 b2 b3), T0 by auto; unfold O, Ev in *; lia.
Qed.

(** ** Sorters *)

(** What a sorter guarantees about its outputs: they are the unary
    representation, cut off after [m] digits, of the number of true inputs. *)
Definition sorts (m : nat) (input : list elit) (d : dir) (n : ctr)
                 (cs : list clause) (out : list elit) (n' : ctr) : Prop :=
  cle n n' /\ cscoped n' cs /\ scoped n' out /\ length out = Nat.min m (length input) /\
  (fwd d = true -> forall a, sat a cs -> trO a out 0 (count a input)) /\
  (bwd d = true -> forall a, sat a cs -> nbO a out 0 (count a input)) /\
  (forall a, exists b, agree n a b /\ sat b cs /\ exO b out 0 (count a input)).

Lemma at_map_seq : forall (f : nat -> elit) k i, i < k -> at_ (map f (seq 0 k)) i = f i.
Proof.
  intros f k i H; unfold at_.
  rewrite (nth_indep _ _ (f 0)) by now rewrite map_length, seq_length.
  rewrite map_nth, seq_nth by exact H; reflexivity.
Qed.

Lemma count_firstn_S : forall a l i, i < length l ->
  count a (firstn (S i) l) = count a (firstn i l) + (if lval a (at_ l i) then 1 else 0).
Proof.
  induction l as [|x l IH]; intros i Hi; [simpl in Hi; lia|].
  destruct i as [|i]; [cbn [firstn count]; rewrite at_0; lia|].
  change (firstn (S (S i)) (x :: l)) with (x :: firstn (S i) l).
  change (firstn (S i) (x :: l)) with (x :: firstn i l).
  cbn [count]; rewrite IH, at_S by (simpl in Hi; lia); lia.
Qed.

Lemma counterRows_ok : forall nn k j n rows n', counterRows nn j k n = (rows, n') ->
  cle n n' /\ length rows = k /\
  (forall t, t < k -> scoped n' (nth t rows []) /\ length (nth t rows []) = nn - (j + t)) /\
  (forall a (G : nat -> nat -> bool), exists b, agree n a b /\
     forall t i, t < k -> i < nn - (j + t) -> lval b (at_ (nth t rows []) i) = G t i).
Proof.
  intros nn; induction k as [|k IH]; intros j n rows n' E; cbn [counterRows] in E.
  - injection E as <- <-; split; [apply cle_refl|]; split; [reflexivity|]; split; [intros; lia|].
    intros a G; exists a; split; [apply agree_refl | intros; lia].
  - destruct (counterRows nn (S j) k (bump ACC (nn - j) n)) as [rows1 n1] eqn:E1.
    assert (rows = auxs ACC (nn - j) n :: rows1 /\ n' = n1) as [-> ->]
      by (split; [exact (f_equal fst (eq_sym E)) | exact (f_equal snd (eq_sym E))]).
    destruct (IH _ _ _ _ E1) as [I1 [I2 [I3 I4]]].
    assert (C : cle n (bump ACC (nn - j) n)) by apply cle_bump.
    split; [now apply cle_trans with (bump ACC (nn - j) n)|]; split; [simpl; lia|]; split.
    + intros [|t] Ht; cbn [nth].
      * split; [apply scoped_le with (bump ACC (nn - j) n); [exact I1 | apply auxs_scoped]|].
        rewrite auxs_length; lia.
      * destruct (I3 t ltac:(lia)) as [A B]; split; [exact A | rewrite B; lia].
    + intros a G.
      destruct (I4 (upd ACC (fresh ACC n) (G 0) a) (fun t => G (S t))) as [b [Ag Hb]].
      exists b; split; [apply agree_trans with (bump ACC (nn - j) n) (upd ACC (fresh ACC n) (G 0) a);
                        [exact C | apply upd_agree | exact Ag]|].
      intros [|t] i Ht Hi; cbn [nth].
      * rewrite Nat.add_0_r in Hi.
        rewrite (agree_lval (bump ACC (nn - j) n) (upd ACC (fresh ACC n) (G 0) a) b);
          [apply upd_at; exact Hi | exact Ag | apply aux_scope; exact Hi].
      * apply Hb; lia.
Qed.

Lemma counterSorter_ok : forall k x n cs out n',
  1 <= k <= length x -> scoped n x ->
  counterSorter k x InOut n = (cs, out, n') -> sorts k x InOut n cs out n'.
Proof.
  intros k x n cs out n' Hk Sx E; unfold counterSorter in E; cbn [fwd] in E.
  destruct (counterRows (length x) 0 k n) as [rows n1] eqn:Er.
  apply pair3 in E as [<- [<- <-]]; set (nn := length x) in *.
  destruct (counterRows_ok _ _ _ _ _ _ Er) as [C [Lr [Rows Choose]]]; cbn [Nat.add] in Rows, Choose.
  assert (Cell : forall i j, j <= i -> cell rows i j = at_ (nth j rows []) (i - j)).
  { intros i j H; unfold cell; destruct (Nat.ltb_spec i j); [lia | reflexivity]. }
  assert (Scell : forall i j, j <= i -> i < nn -> j < k -> lscope n1 (cell rows i j)).
  { intros i j H1 H2 H3; rewrite Cell by exact H1; destruct (Rows j H3) as [A B].
    apply scoped_at; [exact A | rewrite B; lia]. }
  assert (Sat_x : forall i, i < nn -> lscope n1 (neg (at_ x i))).
  { intros i Hi; apply lscope_neg, (lscope_le n); [exact C | now apply scoped_at]. }
  split; [exact C|]; split; [|split; [|split; [|split; [|split]]]].
  - apply cscoped_app; split.
    + apply cscoped_flat_map; intros i Hi; apply in_seq in Hi.
      apply cscoped_cons; split; [|destruct (Nat.ltb_spec 0 i); split_scoped].
      * split_scoped; [apply Sat_x; lia | apply Scell; lia].
      * apply Scell; lia.
      * apply Scell; lia.
    + apply cscoped_flat_map; intros j Hj; apply cscoped_flat_map; intros i Hi; apply in_seq in Hj; apply in_seq in Hi.
      apply cscoped_cons; split; [|destruct (Nat.ltb_spec j i); split_scoped].
      * split_scoped; [apply Sat_x; lia | apply Scell; lia | apply Scell; lia].
      * apply Scell; lia.
      * apply Scell; lia.
  - intros l Hl; apply in_map_iff in Hl as [i [<- Hi]]; apply in_seq in Hi; apply Scell; lia.
  - rewrite map_length, seq_length; lia.
  - intros _ a Hs; apply sat_app in Hs as [H1 H2]; rewrite sat_flat_map in H1, H2.
    assert (Main : forall i, i < nn -> forall j, j < k -> j <= i ->
              j + 1 <= count a (firstn (S i) x) -> lval a (cell rows i j) = true).
    { induction i as [|i IH]; intros Hi j Hj Hji Hc; rewrite count_firstn_S in Hc by exact Hi.
      - assert (j = 0) by lia; subst j; cbn [firstn count] in Hc.
        specialize (H1 0 ltac:(apply in_seq; lia)); apply sat_cons in H1 as [H1 _]; rewrite csat2 in H1.
        apply H1; destruct (lval a (at_ x 0)); [reflexivity | lia].
      - destruct (lval a (at_ x (S i))) eqn:V.
        + destruct j as [|j].
          * specialize (H1 (S i) ltac:(apply in_seq; lia)); apply sat_cons in H1 as [H1 _]; rewrite csat2 in H1; auto.
          * specialize (H2 (S j) ltac:(apply in_seq; lia)); rewrite sat_flat_map in H2.
            specialize (H2 (S i) ltac:(apply in_seq; lia)); apply sat_cons in H2 as [H2 _]; rewrite csat3 in H2.
            apply H2; [exact V|]; replace (S i - 1) with i by lia; replace (S j - 1) with j by lia.
            apply IH; lia.
        + assert (Hji' : j <= i).
          { pose proof (count_le a (firstn (S i) x)) as CL; rewrite firstn_length in CL; lia. }
          assert (P : lval a (cell rows i j) = true) by (apply IH; lia).
          destruct j as [|j].
          * specialize (H1 (S i) ltac:(apply in_seq; lia)); apply sat_cons in H1 as [_ H1].
            change (0 <? S i) with true in H1; apply sat1 in H1; rewrite csat2 in H1.
            replace (S i - 1) with i in H1 by lia; auto.
          * specialize (H2 (S j) ltac:(apply in_seq; lia)); rewrite sat_flat_map in H2.
            specialize (H2 (S i) ltac:(apply in_seq; lia)); apply sat_cons in H2 as [_ H2].
            destruct (Nat.ltb_spec (S j) (S i)); [|lia]; apply sat1 in H2; rewrite csat2 in H2.
            replace (S i - 1) with i in H2 by lia; auto. }
    intros t Ht Hc; rewrite map_length, seq_length in Ht; rewrite at_map_seq by lia.
    apply Main; try lia; replace (S (nn - 1)) with nn by lia; unfold nn; rewrite firstn_all; lia.
  - intros Hd; discriminate.
  - intros a; destruct (Choose a (fun t i => t + 1 <=? count a (firstn (S (t + i)) x))) as [b [Ag Hb]].
    exists b; split; [exact Ag|].
    assert (Val : forall i j, j <= i -> i < nn -> j < k ->
              (lval b (cell rows i j) = true <-> j + 1 <= count a (firstn (S i) x))).
    { intros i j Hj1 Hi Hj2; rewrite Cell, Hb by lia; replace (j + (i - j)) with i by lia; apply Nat.leb_le. }
    assert (Vx : forall i, i < nn -> lval b (at_ x i) = lval a (at_ x i)).
    { intros i Hi; apply (agree_lval n); [exact Ag | now apply scoped_at]. }
    split.
    + apply sat_app; split.
      * apply sat_flat_map; intros i Hi; apply in_seq in Hi; apply sat_cons; split.
        -- apply csat2; intros V; rewrite Vx in V by lia; apply Val; try lia.
           rewrite count_firstn_S, V by (fold nn; lia); lia.
        -- destruct (Nat.ltb_spec 0 i); [|apply sat_nil]; apply sat1, csat2; intros V.
           apply Val in V; try lia; apply Val; try lia.
           rewrite count_firstn_S by (fold nn; lia); replace (S (i - 1)) with i in V by lia; lia.
      * apply sat_flat_map; intros j Hj; apply sat_flat_map; intros i Hi; apply in_seq in Hj; apply in_seq in Hi.
        apply sat_cons; split.
        -- apply csat3; intros V W; rewrite Vx in V by lia; apply Val in W; try lia; apply Val; try lia.
           rewrite count_firstn_S, V by (fold nn; lia); replace (S (i - 1)) with i in W by lia; lia.
        -- destruct (Nat.ltb_spec j i); [|apply sat_nil]; apply sat1, csat2; intros V.
           apply Val in V; try lia; apply Val; try lia.
           rewrite count_firstn_S by (fold nn; lia); replace (S (i - 1)) with i in V by lia; lia.
    + intros t Ht; rewrite map_length, seq_length in Ht; rewrite at_map_seq, Val by lia.
      replace (S (nn - 1)) with nn by lia; unfold nn; rewrite firstn_all; lia.
Qed.

Lemma sorter_small_ok : forall d fuel m input n cs out n',
  m = 0 \/ length input <= 2 -> scoped n input ->
  sorter (S fuel) m input d n = (cs, out, n') -> sorts m input d n cs out n'.
Proof.
  intros d fuel m input n cs out n' Hsm Si E.
  cbn [sorter] in E; set (nn := length input) in *.
  assert (Triv : sorts m input d n [] [] n \/ (m <> 0 /\ nn <> 0)).
  { destruct (Nat.eq_dec m 0) as [->|]; [left | destruct (Nat.eq_dec nn 0) as [En|]; [left | right; auto]].
    - split; [apply cle_refl|]; split; [apply cscoped_nil|]; split; [apply scoped_nil|]; split; [reflexivity|].
      split; [intros; apply trO_nil|]; split; [intros; apply nbO_nil|].
      intros a; exists a; split; [apply agree_refl|]; split; [apply sat_nil | apply exO_nil].
    - split; [apply cle_refl|]; split; [apply cscoped_nil|]; split; [apply scoped_nil|].
      split; [fold nn; rewrite En; simpl; lia|].
      split; [intros; apply trO_nil|]; split; [intros; apply nbO_nil|].
      intros a; exists a; split; [apply agree_refl|]; split; [apply sat_nil | apply exO_nil]. }
  destruct (Nat.eqb_spec m 0) as [Em|Em].
  { apply pair3 in E as [<- [<- <-]]; destruct Triv as [T|T]; [exact T | lia]. }
  destruct (Nat.eqb_spec nn 0) as [En|En].
  { apply pair3 in E as [<- [<- <-]]; destruct Triv as [T|T]; [exact T | lia]. }
  clear Triv; destruct (Nat.eqb_spec nn 1) as [E1|E1].
  { apply pair3 in E as [<- [<- <-]].
    destruct input as [|x [|]]; cbn [length] in nn; unfold nn in E1; cbn [length] in E1; try lia; rewrite at_0.
    split; [apply cle_refl|]; split; [apply cscoped_nil|]; split; [exact Si|]; split; [cbn [length]; lia|].
    assert (X : forall a, exO a [x] 0 (count a [x])).
    { intros a; apply exO_cons; split; [|apply exO_nil]; cbn [count]; destruct (lval a x); split; lia || congruence. }
    split; [intros _ a _; apply exO_iff, X|]; split; [intros _ a _; apply exO_iff, X|].
    intros a; exists a; split; [apply agree_refl|]; split; [apply sat_nil | apply X]. }
  destruct (Nat.eqb_spec nn 2) as [E2|E2].
  { assert (Two : exists x y, input = [x; y]).
    { unfold nn in E2; destruct input as [|x [|y [|]]]; cbn [length] in E2; try lia; eauto. }
    destruct Two as [x [y ->]]; change (at_ [x; y] 0) with x in E; change (at_ [x; y] 1) with y in E.
    apply scoped_cons in Si as [Sx Si]; apply scoped_cons in Si as [Sy _].
    assert (Cn : forall a, count a [x; y] = (if lval a x then 1 else 0) + (if lval a y then 1 else 0)).
    { intros a; cbn [count]; lia. }
    destruct (Nat.eqb_spec (Nat.min m nn) 2) as [Em2|Em2]; apply pair3 in E as [<- [<- <-]].
    - set (z := auxs ACC 2 n) in *; set (n1 := bump ACC 2 n) in *.
      assert (C1 : cle n n1) by apply cle_bump.
      assert (Sz0 : lscope n1 (at_ z 0)) by (apply aux_scope; lia).
      assert (Sz1 : lscope n1 (at_ z 1)) by (apply aux_scope; lia).
      split; [exact C1|]; split; [apply cmp4_scoped; auto; eapply lscope_le; eauto|].
      split; [apply auxs_scoped|]; split; [unfold z; rewrite auxs_length; cbn [length]; lia|].
      unfold z; rewrite two_auxs; fold z; split; [|split].
      + intros Hd' a Hs; destruct (cmp4_fwd a x y (at_ z 0) (at_ z 1) d Hd' Hs) as [F1 F2]; rewrite Cn.
        apply trO_cons; split; [|apply trO_cons; split; [|apply trO_nil]]; intros HV;
          destruct (lval a x), (lval a y); auto; lia.
      + intros Hb a Hs; destruct (cmp4_bwd a x y (at_ z 0) (at_ z 1) d Hb Hs) as [F1 F2]; rewrite Cn.
        apply nbO_cons; split; [|apply nbO_cons; split; [|apply nbO_nil]]; intros HV.
        * destruct (F1 HV) as [-> | ->]; lia.
        * destruct (F2 HV) as [-> ->]; lia.
      + intros a; destruct (fresh2 a n (lval a x || lval a y) (lval a x && lval a y)) as [b [Ag [B1 B2]]]; fold z in B1, B2.
        exists b; split; [exact Ag|]; split.
        * apply cmp4_complete; rewrite (agree_lval n a b x), (agree_lval n a b y) by auto; assumption.
        * rewrite Cn, !exO_cons, B1, B2; destruct (lval a x), (lval a y); cbn [orb andb];
            (split; [split; lia || congruence|]; split; [split; lia || congruence | apply exO_nil]).
    - set (z := auxs ACC 1 n) in *; set (n1 := bump ACC 1 n) in *.
      assert (C1 : cle n n1) by apply cle_bump.
      assert (Sz0 : lscope n1 (at_ z 0)) by (apply aux_scope; lia).
      split; [exact C1|]; split; [apply cmp3_scoped; auto; eapply lscope_le; eauto|].
      split; [apply auxs_scoped|]; split; [unfold z; rewrite auxs_length; cbn [length]; lia|].
      unfold z; rewrite one_aux; fold z; split; [|split].
      + intros Hd' a Hs; pose proof (cmp3_fwd a x y (at_ z 0) d Hd' Hs) as F1; rewrite Cn.
        apply trO_cons; split; [|apply trO_nil]; intros HV; destruct (lval a x), (lval a y); auto; lia.
      + intros Hb a Hs; pose proof (cmp3_bwd a x y (at_ z 0) d Hb Hs) as F1; rewrite Cn.
        apply nbO_cons; split; [|apply nbO_nil]; intros HV; destruct (F1 HV) as [-> | ->]; lia.
      + intros a; destruct (fresh1 a n (lval a x || lval a y)) as [b [Ag B1]]; fold z in B1.
        exists b; split; [exact Ag|]; split.
        * apply cmp3_complete; rewrite (agree_lval n a b x), (agree_lval n a b y) by auto; assumption.
        * rewrite Cn, !exO_cons, B1; destruct (lval a x), (lval a y); cbn [orb andb];
            (split; [split; lia || congruence | apply exO_nil]). }
  exfalso; fold nn in Hsm; lia.
Qed.

Lemma sorter_bwd_ok : forall d, bwd d = true -> forall fuel m input n cs out n',
  length input < fuel -> scoped n input ->
  sorter fuel m input d n = (cs, out, n') -> sorts m input d n cs out n'.
Proof.
  intros d Hd; induction fuel as [|fuel IH]; intros m input n cs out n' Hf Si E; [lia|].
  destruct (Nat.eq_dec m 0) as [Em0|Em0]; [apply (sorter_small_ok d fuel); auto|].
  destruct (Nat.le_gt_cases (length input) 2) as [En0|En0]; [apply (sorter_small_ok d fuel); auto|].
  cbn [sorter] in E; set (nn := length input) in *.
  destruct (Nat.eqb_spec m 0) as [Em|Em]; [lia|].
  destruct (Nat.eqb_spec nn 0) as [En|En]; [lia|].
  destruct (Nat.eqb_spec nn 1) as [E1|E1]; [lia|].
  destruct (Nat.eqb_spec nn 2) as [E2|E2]; [lia|].
  rewrite Hd in E; set (m2 := Nat.min m nn) in *; set (l := nn / 2) in *.
  pose proof (div2_spec nn) as Dn; fold l in Dn.
  destruct (sorter fuel m2 (firstn l input) d n) as [[c1 o1] n1] eqn:S1.
  destruct (sorter fuel m2 (skipn l input) d n1) as [[c2 o2] n2] eqn:S2.
  destruct (merge (length o1 + length o2) m2 o1 o2 d n2) as [[c3 o3] n3] eqn:S3.
  apply pair3 in E as [<- [<- <-]].
  assert (La : length (firstn l input) = l) by (rewrite firstn_length; fold nn; lia).
  assert (Lb : length (skipn l input) = nn - l) by (rewrite skipn_length; fold nn; lia).
  assert (Sa : scoped n (firstn l input)) by now apply scoped_firstn.
  assert (Sb : scoped n (skipn l input)) by now apply scoped_skipn.
  apply IH in S1; [|lia|exact Sa]; destruct S1 as [C1 [Sc1 [So1 [L1 [F1 [G1 K1]]]]]].
  apply IH in S2; [|lia|now apply scoped_le with n]; destruct S2 as [C2 [Sc2 [So2 [L2 [F2 [G2 K2]]]]]].
  rewrite La in L1; rewrite Lb in L2.
  apply merge_ok in S3; try (unfold m2 in *; lia); [|now apply scoped_le with n1 | exact So2].
  destruct S3 as [C3 [Sc3 [So3 [L3 M3]]]].
  assert (C12 : cle n n2) by (apply cle_trans with n1; assumption).
  assert (C13 : cle n1 n3) by (apply cle_trans with n2; assumption).
  assert (Cnt : forall a, count a input = count a (firstn l input) + count a (skipn l input))
    by (intros a; apply count_skipn_firstn).
  assert (Bnd : forall a, count a (firstn l input) <= l /\ count a (skipn l input) <= nn - l).
  { intros a; pose proof (count_le a (firstn l input)); pose proof (count_le a (skipn l input)); lia. }
  (* values cut off at the number of outputs *)
  assert (Cut : forall a v v' o, (v <= length o \/ length o = m2) -> v' = Nat.min v m2 -> length o <= m2 ->
    (trO a o 0 v -> trO a o 0 v') /\ (nbO a o 0 v -> nbO a o 0 v') /\ (exO a o 0 v -> exO a o 0 v')).
  { intros a v v' o Ho -> Hm2; split; [|split].
    - intros H k Hk HK; apply H; lia.
    - intros H k Hk HK; specialize (H k Hk HK); lia.
    - intros H k Hk; rewrite (H k Hk); lia. }
  (* and back for the merged list *)
  assert (Back : forall a, let v1 := count a (firstn l input) in let v2 := count a (skipn l input) in
    forall e, (trO e o3 0 (Nat.min v1 m2 + Nat.min v2 m2) -> trO e o3 0 (count a input)) /\
              (nbO e o3 0 (Nat.min v1 m2 + Nat.min v2 m2) -> nbO e o3 0 (count a input)) /\
              (exO e o3 0 (Nat.min v1 m2 + Nat.min v2 m2) -> exO e o3 0 (count a input))).
  { intros a v1 v2 e; rewrite Cnt; fold v1; fold v2.
    split; [|split].
    - intros H k Hk HK; apply H; lia.
    - intros H k Hk HK; specialize (H k Hk HK); lia.
    - intros H k Hk; rewrite (H k Hk); lia. }
  split; [now apply cle_trans with n2|].
  split; [apply cscoped_app; split; [now apply cscoped_le with n1|]; apply cscoped_app; split;
          [now apply cscoped_le with n2 | exact Sc3]|].
  split; [exact So3|]; split; [rewrite L3, L1, L2; unfold m2; fold nn; lia|].
  split; [|split].
  - intros Hf' a Hs; apply sat_app in Hs as [X1 Hs]; apply sat_app in Hs as [X2 X3].
    destruct (Bnd a) as [B1 B2].
    destruct (M3 (Nat.min (count a (firstn l input)) m2) (Nat.min (count a (skipn l input)) m2)) as [P _]; try lia.
    apply (Back a a), (P Hf' a X3).
    + apply (Cut a (count a (firstn l input))); [lia | reflexivity | lia | apply (F1 Hf' a X1)].
    + apply (Cut a (count a (skipn l input))); [lia | reflexivity | lia | apply (F2 Hf' a X2)].
  - intros Hb a Hs; apply sat_app in Hs as [X1 Hs]; apply sat_app in Hs as [X2 X3].
    destruct (Bnd a) as [B1 B2].
    destruct (M3 (Nat.min (count a (firstn l input)) m2) (Nat.min (count a (skipn l input)) m2)) as [_ [P _]]; try lia.
    apply (Back a a), (P Hb a X3).
    + apply (Cut a (count a (firstn l input))); [lia | reflexivity | lia | apply (G1 Hb a X1)].
    + apply (Cut a (count a (skipn l input))); [lia | reflexivity | lia | apply (G2 Hb a X2)].
  - intros a; destruct (Bnd a) as [B1 B2].
    destruct (K1 a) as [b1 [Ag1 [Sb1 Eb1]]]; destruct (K2 b1) as [b2 [Ag2 [Sb2 Eb2]]].
    rewrite (agree_count n a b1) in Eb2 by auto.
    destruct (M3 (Nat.min (count a (firstn l input)) m2) (Nat.min (count a (skipn l input)) m2)) as [_ [_ P]]; try lia.
    destruct (P b2) as [b3 [Ag3 [Sb3 Eb3]]].
    + apply (Cut b2 (count a (firstn l input))); [lia | reflexivity | lia|].
      apply exO_agree with n1 b1; auto.
    + apply (Cut b2 (count a (skipn l input))); [lia | reflexivity | lia | exact Eb2].
    + exists b3; split; [apply agree_trans with n2 b2; auto; apply agree_trans with n1 b1; auto|].
      split; [|apply (Back a b3); exact Eb3].
      apply sat_app; split; [|apply sat_app; split; [|exact Sb3]].
      * apply agree_sat with n1 b1; auto; apply agree_trans with n2 b2; auto.
      * apply agree_sat with n2 b2; auto.
Qed.

(** ** The direct sorter, with the literal 0 read as the constant false *)

Fixpoint num (bs : list bool) : nat :=
  match bs with [] => 0 | b :: r => 2 * num r + Nat.b2n b end.

Lemma num_testbit : forall bs i, Nat.testbit (num bs) i = nth i bs false.
Proof.
  induction bs as [|b r IH]; intros i; cbn [num].
  - rewrite Nat.bits_0; destruct i; reflexivity.
  - destruct i as [|i]; [apply Nat.testbit_0_r | rewrite Nat.testbit_succ_r; apply IH].
Qed.

Lemma num_lt : forall bs, num bs < 2 ^ length bs.
Proof.
  induction bs as [|b r IH]; cbn [num length]; [simpl; lia|].
  rewrite Nat.pow_succ_r'; destruct b; cbn [Nat.b2n]; lia.
Qed.

Definition cnt (p : nat -> bool) (n : nat) : nat := length (filter p (seq 0 n)).

Lemma filter_map_length : forall (p : nat -> bool) l,
  length (filter p (map S l)) = length (filter (fun i => p (S i)) l).
Proof. intros p; induction l as [|x l IH]; [reflexivity|]; simpl; destruct (p (S x)); simpl; lia. Qed.

Lemma cnt_S : forall p n, cnt p (S n) = (if p 0 then 1 else 0) + cnt (fun i => p (S i)) n.
Proof.
  intros p n; unfold cnt; cbn [seq filter]; rewrite <- seq_shift.
  rewrite <- (filter_map_length p (seq 0 n)); destruct (p 0); simpl; reflexivity.
Qed.

Lemma cnt_mono : forall p q n, (forall i, i < n -> p i = true -> q i = true) -> cnt p n <= cnt q n.
Proof.
  intros p q n; revert p q; induction n as [|n IH]; intros p q H; [unfold cnt; simpl; lia|].
  rewrite !cnt_S; assert (IH' := IH (fun i => p (S i)) (fun i => q (S i)) ltac:(intros i Hi; apply H; lia)).
  pose proof (H 0 ltac:(lia)); destruct (p 0), (q 0); try lia; specialize (H0 eq_refl); discriminate.
Qed.

Lemma cnt_count : forall a l, cnt (fun i => lval a (at_ l i)) (length l) = count a l.
Proof.
  intros a; induction l as [|x l IH]; [reflexivity|].
  cbn [length count]; rewrite cnt_S, <- IH; f_equal.
Qed.

Lemma cnt_pos : forall p n, 1 <= cnt p n <-> exists i, i < n /\ p i = true.
Proof.
  intros p n; unfold cnt; split.
  - intros H; destruct (filter p (seq 0 n)) as [|i r] eqn:E; [simpl in H; lia|].
    assert (In i (filter p (seq 0 n))) as I by (rewrite E; now left).
    apply filter_In in I as [I1 I2]; apply in_seq in I1; exists i; split; [lia | exact I2].
  - intros [i [Hi Hp]]; assert (In i (filter p (seq 0 n))) as I by (apply filter_In; split; [apply in_seq; lia | exact Hp]).
    destruct (filter p (seq 0 n)); [destruct I | simpl; lia].
Qed.

(** Keep the first [k] true bits. *)
Fixpoint takeTrue (k : nat) (bs : list bool) : list bool :=
  match bs with
  | [] => []
  | b :: r =>
    match b, k with
    | true, S k' => true :: takeTrue k' r
    | true, 0 => false :: takeTrue 0 r
    | false, _ => false :: takeTrue k r
    end
  end.

Lemma takeTrue_spec : forall bs k,
  length (takeTrue k bs) = length bs /\
  (forall i, nth i (takeTrue k bs) false = true -> nth i bs false = true) /\
  (k <= cnt (fun i => nth i bs false) (length bs) -> cnt (fun i => nth i (takeTrue k bs) false) (length bs) = k).
Proof.
  induction bs as [|b r IH]; intros k.
  - split; [reflexivity|]; split; [auto|]; cbn; lia.
  - cbn [length]; rewrite !cnt_S; cbn [nth].
    destruct b; [destruct k as [|k]|]; cbn [takeTrue length nth];
      match goal with |- context [takeTrue ?k r] => destruct (IH k) as [I1 [I2 I3]] end;
      (split; [lia|]; split; [intros [|i] H; cbn [nth] in *; auto; try discriminate | intros H; lia]).
Qed.

Lemma directLoop_sat : forall a m input out masks z, a Zero = false ->
  (sat a (directLoop m input out masks z) <->
   forall k, In k masks -> length (selected k input) <= m ->
     csat a (selected k input ++ [at_ out (length (selected k input) - 1)])).
Proof.
  intros a m input out masks z Hz; revert z; induction masks as [|k masks IH]; intros z; cbn [directLoop].
  - split; [intros _ k [] | intros _; apply sat_nil].
  - assert (Rep : forall c, csat a (repeat (Zero, true) z ++ c) <-> csat a c).
    { intros c; rewrite csat_app; split; [|auto]; intros [[l [Hl Hv]]|H]; [|exact H].
      apply repeat_spec in Hl; subst l; unfold lval in Hv; simpl in Hv; congruence. }
    destruct (Nat.leb_spec (length (selected k input)) m) as [Hl|Hl].
    + rewrite sat_cons, Rep, IH; split.
      * intros [H1 H2] k' [<-|Hk]; auto.
      * intros H; split; [apply H; auto; now left | intros k' Hk; apply H; now right].
    + rewrite IH; split.
      * intros H k' [<-|Hk] Hlen; [lia | auto].
      * intros H k' Hk; apply H; now right.
Qed.

Lemma selected_length : forall k input, length (selected k input) = cnt (Nat.testbit k) (length input).
Proof. intros; unfold selected; now rewrite !map_length. Qed.

Lemma selected_csat : forall a k input, csat a (selected k input) <->
  exists i, i < length input /\ Nat.testbit k i = true /\ lval a (at_ input i) = false.
Proof.
  intros a k input; unfold selected; split.
  - intros [l [Hl Hv]]; apply in_map_iff in Hl as [l' [<- Hl]]; apply in_map_iff in Hl as [i [<- Hi]].
    apply filter_In in Hi as [H1 H2]; apply in_seq in H1; exists i; split; [lia|]; split; [exact H2|].
    now apply lval_neg_true.
  - intros [i [H1 [H2 H3]]]; exists (neg (at_ input i)); split; [|now apply lval_neg_true].
    apply in_map, in_map, filter_In; split; [apply in_seq; lia | exact H2].
Qed.

Lemma testbit_exists : forall k nn, 1 <= k < 2 ^ nn -> 1 <= cnt (Nat.testbit k) nn.
Proof.
  intros k nn [H1 H2]; apply cnt_pos; exists (Nat.log2 k); split.
  - apply Nat.log2_lt_pow2; lia.
  - apply Nat.bit_log2; lia.
Qed.

Lemma cscoped_0 : forall n cs, cscoped n cs -> cscoped0 n cs.
Proof. intros n cs H c Hc l Hl; left; exact (H c Hc l Hl). Qed.

Lemma cscoped0_app : forall n c d, cscoped0 n c -> cscoped0 n d -> cscoped0 n (c ++ d).
Proof. intros n c d H1 H2 x Hx; apply in_app_iff in Hx as [Hx|Hx]; [exact (H1 x Hx) | exact (H2 x Hx)]. Qed.

Lemma directSorter_ok : forall m input n cs out n',
  1 <= m <= length input -> scoped n input -> directSorter m input n = (cs, out, n') ->
  cle n n' /\ cscoped0 n' cs /\ scoped n' out /\ length out = Nat.min m (length input) /\
  (forall a, a Zero = false -> sat a cs -> trO a out 0 (count a input)) /\
  (forall a, a Zero = false -> exists b, agree n a b /\ b Zero = false /\ sat b cs /\ exO b out 0 (count a input)).
Proof.
  intros m input n cs out n' Hm Si E; unfold directSorter in E; apply pair3 in E as [<- [<- <-]].
  set (nn := length input) in *; set (out := auxs ACC m n); set (n1 := bump ACC m n).
  assert (C : cle n n1) by apply cle_bump.
  assert (Lo : length out = m) by apply auxs_length.
  assert (P : 1 <= 2 ^ nn) by (pose proof (Nat.pow_nonzero 2 nn); lia).
  split; [exact C|]; split; [|split; [apply auxs_scoped|split; [lia|split]]].
  - assert (G : forall masks z, (forall k, In k masks -> 1 <= k < 2 ^ nn) ->
                cscoped0 n1 (directLoop m input out masks z)).
    { induction masks as [|k masks IH]; intros z Hk; cbn [directLoop]; [intros c []|].
      assert (1 <= length (selected k input)).
      { rewrite selected_length; apply testbit_exists, Hk; now left. }
      assert (IH' : forall z, cscoped0 n1 (directLoop m input out masks z)) by (intros; apply IH; intros; apply Hk; now right).
      destruct (Nat.leb_spec (length (selected k input)) m); [|apply IH'].
      intros c [<-|Hc]; [|exact (IH' _ c Hc)].
      intros l Hl; rewrite !in_app_iff in Hl; destruct Hl as [Hl|[Hl|[<-|[]]]].
      - right; now apply repeat_spec in Hl.
      - left; unfold selected in Hl; apply in_map_iff in Hl as [l' [<- Hl]]; apply in_map_iff in Hl as [i [<- Hi]].
        apply filter_In in Hi as [Hi _]; apply in_seq in Hi.
        apply lscope_neg, (lscope_le n n1); [exact C | apply scoped_at; [exact Si | lia]].
      - left; apply scoped_at; [apply auxs_scoped | lia]. }
    apply G; intros k Hk; apply in_seq in Hk; lia.
  - intros a Hz Hs k Hk HK; cbn [Nat.add] in HK; rewrite directLoop_sat in Hs by exact Hz.
    set (bs := map (lval a) input).
    assert (Hbs : forall i, i < nn -> nth i bs false = lval a (at_ input i)).
    { intros i Hi; unfold bs, at_.
      rewrite (nth_indep _ _ (lval a (Bad, true))) by (rewrite map_length; exact Hi); apply map_nth. }
    assert (Lb : length bs = nn) by (unfold bs; now rewrite map_length).
    destruct (takeTrue_spec bs k) as [T1 [T2 T3]]; rewrite Lb in *.
    assert (Ec : cnt (fun i => nth i bs false) nn = count a input).
    { rewrite <- cnt_count; fold nn; apply Nat.le_antisymm; apply cnt_mono; intros i Hi H; rewrite Hbs in *; auto. }
    specialize (T3 ltac:(lia)).
    set (mask := num (takeTrue k bs)).
    assert (Cm : cnt (Nat.testbit mask) nn = k).
    { rewrite <- T3; apply Nat.le_antisymm; apply cnt_mono; intros i Hi H; unfold mask in *; rewrite num_testbit in *; auto. }
    assert (Rm : 1 <= mask < 2 ^ nn).
    { split; [|unfold mask; rewrite <- T1; apply num_lt].
      destruct (Nat.eq_dec mask 0) as [Z|]; [|lia].
      assert (1 <= cnt (Nat.testbit mask) nn) as Pp by lia; apply cnt_pos in Pp as [i [_ Hb]].
      rewrite Z, Nat.bits_0 in Hb; discriminate. }
    specialize (Hs mask ltac:(apply in_seq; lia)); rewrite selected_length in Hs; fold nn in Hs; rewrite Cm in Hs.
    specialize (Hs ltac:(lia)); apply csat_app in Hs as [Hs|Hs]; [|now apply csat1 in Hs].
    exfalso; apply selected_csat in Hs as [i [Hi [Hb Hv]]].
    unfold mask in Hb; rewrite num_testbit in Hb; apply T2 in Hb; rewrite Hbs in Hb by exact Hi; congruence.
  - intros a Hz; exists (upd ACC (fresh ACC n) (fun i => i <? count a input) a).
    set (b := upd ACC (fresh ACC n) (fun i => i <? count a input) a).
    assert (Ag : agree n a b) by apply upd_agree.
    assert (Vo : forall i, i < m -> lval b (at_ out i) = (i <? count a input)) by (intros i Hi; unfold b, out; now rewrite upd_at).
    split; [exact Ag|]; split; [exact Hz|]; split.
    + apply directLoop_sat; [exact Hz|]; intros k Hk Hl; apply in_seq in Hk.
      assert (L1 : 1 <= length (selected k input)) by (rewrite selected_length; apply testbit_exists; fold nn; lia).
      apply csat_app.
      destruct (Nat.le_gt_cases (length (selected k input)) (count a input)) as [Hc|Hc].
      * right; apply csat1; rewrite Vo by lia; apply Nat.ltb_lt; lia.
      * left; rewrite selected_length in Hc.
        assert (Ex : exists i, i < nn /\ Nat.testbit k i && negb (lval a (at_ input i)) = true).
        { apply cnt_pos.
          destruct (Nat.eq_dec (cnt (fun i => Nat.testbit k i && negb (lval a (at_ input i))) nn) 0) as [Z|]; [exfalso|lia].
          assert (cnt (Nat.testbit k) nn <= count a input); [|fold nn in Hc; lia].
          rewrite <- cnt_count; fold nn; apply cnt_mono; intros i Hi Hb.
          destruct (lval a (at_ input i)) eqn:V; [reflexivity|exfalso].
          assert (1 <= cnt (fun i => Nat.testbit k i && negb (lval a (at_ input i))) nn); [|lia].
          apply cnt_pos; exists i; rewrite Hb, V; auto. }
        destruct Ex as [i [Hi Hb]]; apply andb_true_iff in Hb as [Hb Hv]; apply negb_true_iff in Hv.
        apply selected_csat; exists i; split; [exact Hi|]; split; [exact Hb|].
        rewrite (agree_lval n a b); [exact Hv | exact Ag | now apply scoped_at].
    + intros k Hk; rewrite Lo in Hk; rewrite Vo by lia; rewrite Nat.ltb_lt; lia.
Qed.

(** ** When is the direct sorter chosen? *)

Lemma pow2_quad : forall k : nat, (Z.of_nat (k + 5) * Z.of_nat (k + 5) + 3 < 2 ^ Z.of_nat (k + 5))%Z.
Proof.
  induction k as [|k IH]; [reflexivity|].
  replace (Z.of_nat (S k + 5)) with (Z.succ (Z.of_nat (k + 5))) by lia.
  rewrite Z.pow_succ_r by lia; nia.
Qed.

Lemma useCounter_large : forall m n, 5 <= n -> 1 <= m <= n -> useCounter m n = true.
Proof.
  intros m n Hn Hm; unfold useCounter; destruct (Nat.ltb_spec 30 n); [reflexivity|]; cbn [orb].
  apply Z.ltb_lt; unfold counterValue.
  pose proof (pow2_quad (n - 5)) as P; replace (n - 5 + 5) with n in P by lia.
  set (N := Z.of_nat n) in *; set (M := Z.of_nat m).
  assert (1 <= M <= N)%Z by (unfold M, N; lia).
  assert (Q : (2 * ((M - 1) * (M - 2) / 2) = (M - 1) * (M - 2))%Z).
  { assert (D : exists k, ((M - 1) * (M - 2) = k * 2)%Z).
    { destruct (Z.Even_or_Odd M) as [[k ->]|[k ->]].
      - exists ((2 * k - 1) * (k - 1))%Z; ring.
      - exists (k * (2 * k + 1 - 2))%Z; ring. }
    destruct D as [k ->]; rewrite Z.div_mul by lia; ring. }
  rewrite Q; nia.
Qed.

(** The inputs for which the direct sorter is used: three literals, or four with
    at least three outputs. *)
Lemma useCounter_small : forall m n, 3 <= n -> 1 <= m <= n ->
  useCounter m n = false <-> n = 3 \/ (n = 4 /\ 3 <= m).
Proof.
  intros m n Hn Hm; destruct (Nat.le_gt_cases 5 n) as [H|H].
  - rewrite useCounter_large by lia; split; [discriminate | lia].
  - assert (n = 3 \/ n = 4) as [-> | ->] by lia.
    + assert (m = 1 \/ m = 2 \/ m = 3) as [-> | [-> | ->]] by lia;
        (split; [intros C; lia || (vm_compute in C; discriminate C) | intros C; reflexivity || lia]).
    + assert (m = 1 \/ m = 2 \/ m = 3 \/ m = 4) as [-> | [-> | [-> | ->]]] by lia;
        (split; [intros C; lia || (vm_compute in C; discriminate C) | intros C; reflexivity || lia]).
Qed.

(** Sorting with the clauses from the inputs to the outputs. *)
Definition clean (m nn : nat) : Prop := ~ (nn = 3 \/ (nn = 4 /\ 3 <= m)).

Lemma sort_fwd_ok : forall m input n cs out n', scoped n input -> 1 <= m -> clean m (length input) ->
  sort m input InOut n = (cs, out, n') -> sorts m input InOut n cs out n'.
Proof.
  intros m input n cs out n' Si Hm Hc E; unfold sort in E.
  destruct (Nat.le_gt_cases (length input) 2) as [En0|En0]; [eapply sorter_small_ok; eauto|].
  cbn [sorter] in E; set (nn := length input) in *.
  destruct (Nat.eqb_spec m 0); [lia|]; destruct (Nat.eqb_spec nn 0); [lia|].
  destruct (Nat.eqb_spec nn 1); [lia|]; destruct (Nat.eqb_spec nn 2); [lia|]; cbn [bwd] in E.
  destruct (useCounter (Nat.min m nn) nn) eqn:U.
  - apply counterSorter_ok in E; [|fold nn; lia|exact Si].
    destruct E as [A [B [C [D F]]]]; split; [exact A|]; split; [exact B|]; split; [exact C|]; split; [|exact F].
    rewrite D; fold nn; lia.
  - exfalso; apply useCounter_small in U; [|lia|lia]; apply Hc; lia.
Qed.

Lemma sort_bwd_ok : forall d m input n cs out n', bwd d = true -> scoped n input ->
  sort m input d n = (cs, out, n') -> sorts m input d n cs out n'.
Proof. intros d m input n cs out n' Hd Si E; eapply sorter_bwd_ok; eauto. Qed.

(** In every case, with the literal 0 read as false. *)
Lemma sort_fwd0_ok : forall m input n cs out n', scoped n input -> 1 <= m ->
  sort m input InOut n = (cs, out, n') ->
  cle n n' /\ cscoped0 n' cs /\ scoped n' out /\ length out = Nat.min m (length input) /\
  (forall a, a Zero = false -> sat a cs -> trO a out 0 (count a input)) /\
  (forall a, a Zero = false -> exists b, agree n a b /\ b Zero = false /\ sat b cs /\ exO b out 0 (count a input)).
Proof.
  intros m input n cs out n' Si Hm E.
  assert (D : clean m (length input) \/ ~ clean m (length input)).
  { unfold clean; destruct (Nat.eq_dec (length input) 3); [right; lia|].
    destruct (Nat.eq_dec (length input) 4), (Nat.le_gt_cases 3 m); [right | left | left | left]; lia. }
  destruct D as [D|D].
  - destruct (sort_fwd_ok m input n cs out n' Si Hm D E) as [A1 [A2 [A3 [A4 [A5 [_ A6]]]]]].
    split; [exact A1|]; split; [now apply cscoped_0|]; split; [exact A3|]; split; [exact A4|].
    split; [intros a _; apply A5; reflexivity|].
    intros a Hz; destruct (A6 a) as [b [B1 [B2 B3]]].
    set (b' := fun v => match v with Zero => false | _ => b v end).
    assert (V : forall l, lscope n' l -> lval b' l = lval b l).
    { intros [v s] Hl; unfold lval, lscope in *; cbn [fst snd] in *; destruct v; simpl in *; tauto. }
    exists b'; split; [intros v Hv; destruct v; simpl in *; try tauto; apply B1; exact Hv|].
    split; [reflexivity|]; split.
    + intros c Hc; destruct (B2 c Hc) as [l [Hl Hv]]; exists l; split; [exact Hl|].
      rewrite V; [exact Hv | exact (A2 c Hc l Hl)].
    + intros k Hk; rewrite V; [now apply B3 | apply scoped_at; [exact A3 | lia]].
  - unfold sort in E; cbn [sorter] in E; set (nn := length input) in *.
    assert (Hn : nn = 3 \/ nn = 4 /\ 3 <= m).
    { unfold clean in D; destruct (Nat.eq_dec nn 3); [now left|].
      destruct (Nat.eq_dec nn 4); [|exfalso; apply D; lia].
      destruct (Nat.le_gt_cases 3 m); [right; auto | exfalso; apply D; lia]. }
    destruct (Nat.eqb_spec m 0); [lia|]; destruct (Nat.eqb_spec nn 0); [lia|].
    destruct (Nat.eqb_spec nn 1); [lia|]; destruct (Nat.eqb_spec nn 2); [lia|]; cbn [bwd] in E.
    assert (U : useCounter (Nat.min m nn) nn = false) by (apply useCounter_small; lia); rewrite U in E.
    apply directSorter_ok in E; [|fold nn; lia|exact Si].
    destruct E as [A1 [A2 [A3 [A4 A5]]]]; split; [exact A1|]; split; [exact A2|]; split; [exact A3|].
    split; [rewrite A4; fold nn; lia | exact A5].
Qed.
