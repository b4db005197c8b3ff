(** * Meaning of the binary, n-ary and arithmetic constructors of the factory *)
From Coq Require Import String Ascii List Bool ZArith NArith Lia.
From Verif Require Import Spec Factory FactoryProofs.
Import ListNotations.
Local Open Scope N_scope.

Lemma samenames_refl s : samenames s s.
Proof. intros ? ?; auto. Qed.
Lemma samenames_trans a b c : samenames a b -> samenames b c -> samenames a c.
Proof. intros H1 H2 n Hn. auto. Qed.

Lemma Den_true s : Den s ftrue TTrue. Proof. apply DTrue, node_true. Qed.
Lemma Den_false s : Den s ffalse TFalse. Proof. apply DFalse, node_false. Qed.
Lemma Den_true_inv s t : Den s ftrue t -> t = TTrue.
Proof. intros H. eapply Den_fun; eauto using Den_true. Qed.
Lemma Den_false_inv s t : Den s ffalse t -> t = TFalse.
Proof. intros H. eapply Den_fun; eauto using Den_false. Qed.

(** ** Implication and equivalence *)
Definition impl_shape (ta tb t : tree) : Prop :=
  t = TTrue \/ t = tb \/ is_neg_of ta t \/ t = TImpl ta tb.

Lemma Implication_spec s a b ta tb r s' : wf s -> Den s a ta -> Den s b tb ->
  Implication a b s = (r, s') ->
  good s s' /\ samenames s s' /\ exists t, Den s' r t /\ equiv t (TImpl ta tb) /\ impl_shape ta tb t.
Proof.
  intros Hw Da Db H. pose proof Hw as [W T]. unfold Implication in H.
  assert (R : good s s /\ samenames s s) by (split; [apply good_refl; auto|apply samenames_refl]).
  destruct (feqb a ffalse || feqb b ftrue) eqn:E1.
  { inversion H; subst. destruct R; split; [|split]; auto. exists TTrue. split; [apply Den_true|]. split; [|left; auto].
    intros v. simpl. apply orb_true_iff in E1. destruct E1 as [E1|E1].
    - destruct (feqb_spec a ffalse); [|discriminate]. subst a. rewrite (Den_false_inv _ _ Da). reflexivity.
    - destruct (feqb_spec b ftrue); [|discriminate]. subst b. rewrite (Den_true_inv _ _ Db). simpl. destruct (eval v ta); auto. }
  destruct (feqb_spec a ftrue) as [->|Ha].
  { inversion H; subst. destruct R; split; [|split]; auto. exists tb. split; auto. split; [|right; left; auto].
    intros v. simpl. rewrite (Den_true_inv _ _ Da). reflexivity. }
  destruct (feqb b ffalse || (fid a =? negId (fid b))) eqn:E2.
  { destruct (Not_spec s a ta r s' Hw Da H) as (G & S1 & (u & Du & Hu) & _).
    split; [|split]; auto. exists u. split; auto. split; [|right; right; left; auto].
    intros v. rewrite (is_neg_of_eval _ _ v Hu). simpl.
    apply orb_true_iff in E2. destruct E2 as [E2|E2].
    - destruct (feqb_spec b ffalse); [|discriminate]. subst b. rewrite (Den_false_inv _ _ Db). simpl. destruct (eval v ta); auto.
    - apply N.eqb_eq in E2. rewrite (comp_eval s a b ta tb Hw Da Db E2 v). destruct (eval v tb); auto. }
  destruct (negb (conserve s) && feqb a b) eqn:E3.
  { inversion H; subst. destruct R; split; [|split]; auto. exists TTrue. split; [apply Den_true|]. split; [|left; auto].
    apply andb_true_iff in E3. destruct E3 as [_ E3]. destruct (feqb_spec a b); [|discriminate]. subst b.
    rewrite (Den_fun _ _ _ _ Db Da). intros v. simpl. destruct (eval v ta); auto. }
  destruct (implC s (a, b)) as [f|] eqn:Ec.
  { inversion H; subst. destruct R; split; [|split]; auto. exists (TImpl ta tb).
    apply (c_impl s' T) in Ec. apply node_impls in Ec; auto.
    split; [eapply DImpl; eauto|]. split; [intros v; auto|right; right; right; auto]. }
  assert (Hnt : implTriv (conserve s) a b = false).
  { unfold implTriv. rewrite E1, E2, E3. destruct (feqb_spec a ftrue); [contradiction|]. reflexivity. }
  clear E1 E2 E3.
  pose proof (nextPosId_spec s) as [Ho Hi]. destruct (nextPosId s) as [i s1] eqn:En. simpl in Ho, Hi.
  assert (Es1 : s1 = set_nid i s). { unfold nextPosId in En. inversion En; auto. }
  inversion H; subst r s'; clear H. subst s1. simpl.
  set (l := F SImpl i). set (s' := set_impls _ _).
  assert (Hfr : forall g, known s g -> fid g <> fid l) by (apply above_fresh; auto).
  destruct (fresh_none s l Hw Hfr) as (_ & _ & Hl & _).
  assert (A : adds s s' l (ShImpl a b)).
  { intros g. unfold node, s', upd; simpl. destruct (feqb_spec g l); [subst; reflexivity|]. destruct (srt g) eqn:Es; auto. }
  assert (Hnode : node s' l = Some (ShImpl a b)) by (rewrite A, feqb_refl; auto).
  destruct (wfn_add s s' l (ShImpl a b)) as [E' W']; auto; try (simpl; lia).
  - intros g Hg. apply node_impls in Hg; auto. apply (c_impl s T) in Hg. congruence.
  - split; auto.
  - repeat constructor; eauto using Den_known.
  - split; [|split; [intros ? ?; auto|]].
    + split; [split; auto|split; auto; apply frame_same; reflexivity].
      destruct T. constructor; auto; unfold s', upd; simpl; intros.
      * fresh4; auto. eapply t_impl; eauto.
      * split; intros Hx; repeat fresh4; try congruence; auto; apply c_impl in Hx; congruence.
    + exists (TImpl ta tb). split; [|split; [intros v; auto|right; right; right; auto]].
      eapply DImpl; eauto; eapply ext_Den; eauto.
Qed.

Definition equiv_shape (ta tb t : tree) : Prop :=
  t = TTrue \/ t = TFalse \/ t = ta \/ t = tb \/ is_neg_of ta t \/ is_neg_of tb t \/ t = TEquiv ta tb.

Lemma Equivalence_spec s a b ta tb r s' : wf s -> Den s a ta -> Den s b tb ->
  Equivalence a b s = (r, s') ->
  good s s' /\ samenames s s' /\ exists t, Den s' r t /\ equiv t (TEquiv ta tb) /\ equiv_shape ta tb t.
Proof.
  intros Hw Da Db H. pose proof Hw as [W T]. unfold Equivalence in H. unfold equiv_shape.
  assert (R : good s s /\ samenames s s) by (split; [apply good_refl; auto|apply samenames_refl]).
  destruct (feqb_spec a ftrue) as [->|Ha].
  { inversion H; subst. destruct R; split; [|split]; auto. exists tb. split; auto. split; [|tauto].
    intros v. simpl. rewrite (Den_true_inv _ _ Da). simpl. destruct (eval v tb); reflexivity. }
  destruct (feqb_spec b ftrue) as [->|Hb].
  { inversion H; subst. destruct R; split; [|split]; auto. exists ta. split; auto. split; [|tauto].
    intros v. simpl. rewrite (Den_true_inv _ _ Db). simpl. destruct (eval v ta); reflexivity. }
  destruct (feqb_spec a ffalse) as [->|Ha'].
  { destruct (Not_spec s b tb r s' Hw Db H) as (G & S1 & (u & Du & Hu) & _).
    split; [|split]; auto. exists u. split; auto. split; [|tauto].
    intros v. rewrite (is_neg_of_eval _ _ v Hu). rewrite (Den_false_inv _ _ Da). simpl. destruct (eval v tb); auto. }
  destruct (feqb_spec b ffalse) as [->|Hb'].
  { destruct (Not_spec s a ta r s' Hw Da H) as (G & S1 & (u & Du & Hu) & _).
    split; [|split]; auto. exists u. split; auto. split; [|tauto].
    intros v. rewrite (is_neg_of_eval _ _ v Hu). rewrite (Den_false_inv _ _ Db). simpl. destruct (eval v ta); auto. }
  destruct (negb (conserve s) && feqb a b) eqn:E3.
  { inversion H; subst. destruct R; split; [|split]; auto. exists TTrue. split; [apply Den_true|]. split; [|left; auto].
    apply andb_true_iff in E3. destruct E3 as [_ E3]. destruct (feqb_spec a b); [|discriminate]. subst b.
    rewrite (Den_fun _ _ _ _ Db Da). intros v. simpl. destruct (eval v ta); auto. }
  destruct (negb (conserve s) && (fid a =? negId (fid b))) eqn:E4.
  { inversion H; subst. destruct R; split; [|split]; auto. exists TFalse. split; [apply Den_false|]. split; [|tauto].
    apply andb_true_iff in E4. destruct E4 as [_ E4]. apply N.eqb_eq in E4.
    intros v. simpl. rewrite (comp_eval s' a b ta tb Hw Da Db E4 v). destruct (eval v tb); auto. }
  destruct (equivC s (a, b)) as [f|] eqn:Ec.
  { inversion H; subst. destruct R; split; [|split]; auto. exists (TEquiv ta tb).
    apply (c_equiv s' T) in Ec. apply node_equivs in Ec; auto.
    split; [eapply DEquiv; eauto|]. split; [intros v; auto|tauto]. }
  assert (Hnt : equivTriv (conserve s) a b = false).
  { unfold equivTriv. rewrite E3, E4. destruct (feqb_spec a ftrue), (feqb_spec a ffalse), (feqb_spec b ftrue), (feqb_spec b ffalse); try contradiction. reflexivity. }
  clear E3 E4.
  pose proof (nextPosId_spec s) as [Ho Hi]. destruct (nextPosId s) as [i s1] eqn:En. simpl in Ho, Hi.
  assert (Es1 : s1 = set_nid i s). { unfold nextPosId in En. inversion En; auto. }
  inversion H; subst r s'; clear H. subst s1. simpl.
  set (l := F SEquiv i). set (s' := set_equivs _ _).
  assert (Hfr : forall g, known s g -> fid g <> fid l) by (apply above_fresh; auto).
  destruct (fresh_none s l Hw Hfr) as (_ & _ & _ & Hl & _).
  assert (A : adds s s' l (ShEquiv a b)).
  { intros g. unfold node, s', upd; simpl. destruct (feqb_spec g l); [subst; reflexivity|]. destruct (srt g) eqn:Es; auto. }
  assert (Hnode : node s' l = Some (ShEquiv a b)) by (rewrite A, feqb_refl; auto).
  destruct (wfn_add s s' l (ShEquiv a b)) as [E' W']; auto; try (simpl; lia).
  - intros g Hg. apply node_equivs in Hg; auto. apply (c_equiv s T) in Hg. congruence.
  - split; auto.
  - repeat constructor; eauto using Den_known.
  - split; [|split; [intros ? ?; auto|]].
    + split; [split; auto|split; auto; apply frame_same; reflexivity].
      destruct T. constructor; auto; unfold s', upd; simpl; intros.
      * fresh4; auto. eapply t_equiv; eauto.
      * split; intros Hx; repeat fresh4; try congruence; auto; apply c_equiv in Hx; congruence.
    + exists (TEquiv ta tb). split; [|split; [intros v; auto|tauto]].
      eapply DEquiv; eauto; eapply ext_Den; eauto.
Qed.

(** ** Lookup of n-ary operators *)
Lemma findAnd_some s h ops f : wf s -> findAnd h ops s = Some f -> node s f = Some (ShAnd ops).
Proof.
  intros [W T] H. unfold findAnd in H. apply find_some in H. destruct H as [Hin He].
  apply (c_and s T) in Hin. destruct Hin as (l & Hl & _). unfold getops in He. rewrite Hl in He.
  destruct (opsEquals_spec l ops); [|discriminate]. subst. apply node_ands; auto.
Qed.
Lemma findAnd_none s ops : wf s -> findAnd (hashOperands ops) ops s = None -> forall f, node s f <> Some (ShAnd ops).
Proof.
  intros [W T] H f Hf. apply node_ands in Hf; auto.
  assert (Hin : In f (andC s (hashOperands ops))) by (apply (c_and s T); eauto).
  pose proof (find_none _ _ H f Hin) as Hx. unfold getops in Hx. rewrite Hf in Hx.
  destruct (opsEquals_spec ops ops); congruence.
Qed.
Lemma findOr_some s h ops f : wf s -> findOr h ops s = Some f -> node s f = Some (ShOr ops).
Proof.
  intros [W T] H. unfold findOr in H. apply find_some in H. destruct H as [Hin He].
  apply (c_or s T) in Hin. destruct Hin as (l & Hl & _). unfold getops in He. rewrite Hl in He.
  destruct (opsEquals_spec l ops); [|discriminate]. subst. apply node_ors; auto.
Qed.
Lemma findOr_none s ops : wf s -> findOr (hashOperands ops) ops s = None -> forall f, node s f <> Some (ShOr ops).
Proof.
  intros [W T] H f Hf. apply node_ors in Hf; auto.
  assert (Hin : In f (orC s (hashOperands ops))) by (apply (c_or s T); eauto).
  pose proof (find_none _ _ H f Hin) as Hx. unfold getops in Hx. rewrite Hf in Hx.
  destruct (opsEquals_spec ops ops); congruence.
Qed.

(** ** Allocation of n-ary operators *)
Lemma Dens_known s l ts : Forall2 (Den s) l ts -> Forall (known s) l.
Proof. induction 1; constructor; eauto using Den_known. Qed.

Lemma setCNFCaches_trans f b s k g r : transC (setCNFCaches f b s) k g = Some r ->
  transC s k g = Some r \/ (k = TransCNF /\ g = f /\ r = f /\ b = true).
Proof.
  unfold setCNFCaches. destruct b; simpl; auto.
  destruct (tsort_beq k TransCNF) eqn:Ek; simpl; auto. destruct (feqb_spec g f); simpl; auto.
  intros H; inversion H; subst. right. apply internal_tsort_dec_bl in Ek. auto.
Qed.
Lemma setCNFCaches_pred f b s k g r : predC (setCNFCaches f b s) k g = Some r ->
  predC s k g = Some r \/ (k = PredCNF /\ g = f /\ r = b).
Proof.
  unfold setCNFCaches. destruct b; simpl; auto;
  (destruct (psort_beq k PredCNF) eqn:Ek; simpl; auto; destruct (feqb_spec g f); simpl; auto;
  intros H; inversion H; subst; right; apply internal_psort_dec_bl in Ek; auto).
Qed.

Lemma allocAnd_spec s ops ts c r s' : wf s -> Forall2 (Den s) ops ts ->
  (forall f, node s f <> Some (ShAnd ops)) -> (2 <= length ops)%nat -> Forall (fun g => inner SAnd g = true) ops ->
  c = forallb is_clause ts ->
  allocAnd (hashOperands ops) ops c s = (r, s') ->
  good s s' /\ samenames s s' /\ Den s' r (TAnd ts).
Proof.
  intros Hw Hd Hnew Hlen Hin Hc H. pose proof Hw as [W T]. unfold allocAnd in H.
  pose proof (nextPosId_spec s) as [Ho Hi]. destruct (nextPosId s) as [i s1] eqn:En. simpl in Ho, Hi.
  assert (Es1 : s1 = set_nid i s). { unfold nextPosId in En. inversion En; auto. }
  inversion H; subst r s'; clear H. subst s1.
  set (l := F SAnd i). set (s' := set_ands _ _).
  assert (Hfr : forall g, known s g -> fid g <> fid l) by (apply above_fresh; auto).
  destruct (fresh_none s l Hw Hfr) as (_ & _ & _ & _ & Hl & _).
  assert (A : adds s s' l (ShAnd ops)).
  { intros g. unfold node, s', upd; destruct c; simpl; (destruct (feqb_spec g l); [subst; reflexivity|]; destruct (srt g) eqn:Es; auto). }
  assert (Hnode : node s' l = Some (ShAnd ops)) by (rewrite A, feqb_refl; auto).
  assert (Hnid : nid s' = i) by (unfold s'; destruct c; reflexivity).
  destruct (wfn_add s s' l (ShAnd ops)) as [E' W']; auto; try (rewrite Hnid; simpl; lia).
  - unfold s'; destruct c; reflexivity.
  - simpl; auto.
  - simpl. eapply Dens_known; eauto.
  - assert (D' : Den s' l (TAnd ts)) by (eapply DAnd; eauto; eapply ext_Dens; eauto).
    split; [|split; auto].
    + split; [split; auto|split; auto].
      * destruct T. constructor; auto; unfold s', upd; destruct c; simpl; auto; intros;
        try (destruct (feqb_spec f l) as [->|]; [reflexivity|eapply t_and; eassumption]).
        all: split; intros Hx;
        [ destruct (N.eqb_spec h (hashOperands ops)) as [->|Hh];
          [ rewrite in_app_iff in Hx; destruct Hx as [Hx|[Hx|[]]];
            [ apply c_and in Hx; destruct Hx as (l0 & Hl0 & Hh); destruct (feqb_spec f l) as [->|]; [congruence|eauto]
            | subst f; rewrite feqb_refl; eauto ]
          | apply c_and in Hx; destruct Hx as (l0 & Hl0 & Hh'); destruct (feqb_spec f l) as [->|]; [congruence|eauto] ]
        | destruct Hx as (l0 & Hl0 & Hh); destruct (feqb_spec f l) as [->|];
          [ injection Hl0 as <-; rewrite <- Hh, N.eqb_refl, in_app_iff; right; left; auto
          | assert (Hx : In f (andC s h)) by (apply c_and; eauto);
            destruct (N.eqb_spec h (hashOperands ops)) as [->|]; auto; rewrite in_app_iff; auto ] ].
      * constructor.
        -- intros k f g Hx. change (transC s') with (transC (setCNFCaches l c (set_nid i s))) in Hx.
           apply setCNFCaches_trans in Hx. destruct Hx as [Hx|(-> & -> & -> & Hcc)]; auto.
           right. split; auto. split; auto. exists (TAnd ts). split; auto. simpl. congruence.
        -- intros k f g Hx. change (predC s') with (predC (setCNFCaches l c (set_nid i s))) in Hx.
           apply setCNFCaches_pred in Hx. destruct Hx as [Hx|(-> & -> & ->)]; auto.
           right. split; auto. exists (TAnd ts). split; auto.
        -- unfold s'; destruct c; reflexivity.
        -- unfold s'; destruct c; reflexivity.
    + intros n. unfold names, s'; destruct c; auto.
Qed.

Lemma allocOr_spec s ops ts c r s' : wf s -> Forall2 (Den s) ops ts ->
  (forall f, node s f <> Some (ShOr ops)) -> (2 <= length ops)%nat -> Forall (fun g => inner SOr g = true) ops ->
  c = forallb is_lit ts ->
  allocOr (hashOperands ops) ops c s = (r, s') ->
  good s s' /\ samenames s s' /\ Den s' r (TOr ts).
Proof.
  intros Hw Hd Hnew Hlen Hin Hc H. pose proof Hw as [W T]. unfold allocOr in H.
  pose proof (nextPosId_spec s) as [Ho Hi]. destruct (nextPosId s) as [i s1] eqn:En. simpl in Ho, Hi.
  assert (Es1 : s1 = set_nid i s). { unfold nextPosId in En. inversion En; auto. }
  inversion H; subst r s'; clear H. subst s1.
  set (l := F SOr i). set (s' := set_ors _ _).
  assert (Hfr : forall g, known s g -> fid g <> fid l) by (apply above_fresh; auto).
  destruct (fresh_none s l Hw Hfr) as (_ & _ & _ & _ & _ & Hl & _).
  assert (A : adds s s' l (ShOr ops)).
  { intros g. unfold node, s', upd; destruct c; simpl; (destruct (feqb_spec g l); [subst; reflexivity|]; destruct (srt g) eqn:Es; auto). }
  assert (Hnode : node s' l = Some (ShOr ops)) by (rewrite A, feqb_refl; auto).
  assert (Hnid : nid s' = i) by (unfold s'; destruct c; reflexivity).
  destruct (wfn_add s s' l (ShOr ops)) as [E' W']; auto; try (rewrite Hnid; simpl; lia).
  - unfold s'; destruct c; reflexivity.
  - simpl; auto.
  - simpl. eapply Dens_known; eauto.
  - assert (D' : Den s' l (TOr ts)) by (eapply DOr; eauto; eapply ext_Dens; eauto).
    split; [|split; auto].
    + split; [split; auto|split; auto].
      * destruct T. constructor; auto; unfold s', upd; destruct c; simpl; auto; intros;
        try (destruct (feqb_spec f l) as [->|]; [reflexivity|eapply t_or; eassumption]).
        all: split; intros Hx;
        [ destruct (N.eqb_spec h (hashOperands ops)) as [->|Hh];
          [ rewrite in_app_iff in Hx; destruct Hx as [Hx|[Hx|[]]];
            [ apply c_or in Hx; destruct Hx as (l0 & Hl0 & Hh); destruct (feqb_spec f l) as [->|]; [congruence|eauto]
            | subst f; rewrite feqb_refl; eauto ]
          | apply c_or in Hx; destruct Hx as (l0 & Hl0 & Hh'); destruct (feqb_spec f l) as [->|]; [congruence|eauto] ]
        | destruct Hx as (l0 & Hl0 & Hh); destruct (feqb_spec f l) as [->|];
          [ injection Hl0 as <-; rewrite <- Hh, N.eqb_refl, in_app_iff; right; left; auto
          | assert (Hx : In f (orC s h)) by (apply c_or; eauto);
            destruct (N.eqb_spec h (hashOperands ops)) as [->|]; auto; rewrite in_app_iff; auto ] ].
      * constructor.
        -- intros k f g Hx. change (transC s') with (transC (setCNFCaches l c (set_nid i s))) in Hx.
           apply setCNFCaches_trans in Hx. destruct Hx as [Hx|(-> & -> & -> & Hcc)]; auto.
           right. split; auto. split; auto. exists (TOr ts). split; auto. simpl. congruence.
        -- intros k f g Hx. change (predC s') with (predC (setCNFCaches l c (set_nid i s))) in Hx.
           apply setCNFCaches_pred in Hx. destruct Hx as [Hx|(-> & -> & ->)]; auto.
           right. split; auto. exists (TOr ts). split; auto.
        -- unfold s'; destruct c; reflexivity.
        -- unfold s'; destruct c; reflexivity.
    + intros n. unfold names, s'; destruct c; auto.
Qed.
