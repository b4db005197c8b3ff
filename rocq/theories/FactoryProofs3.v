(** * Meaning of the n-ary and arithmetic constructors *)
From Coq Require Import String Ascii List Bool ZArith NArith Lia.
From Verif Require Import Spec Factory FactoryProofs FactoryProofs2.
Import ListNotations.
Local Open Scope N_scope.

Definition innerTA (u : tree) : bool := match u with TAnd _ | TTrue | TFalse => false | _ => true end.
Definition innerTO (u : tree) : bool := match u with TOr _ | TTrue | TFalse => false | _ => true end.
Definition flatA (ts : list tree) : list tree := flat_map (fun t => match t with TAnd l => l | _ => [t] end) ts.
Definition flatO (ts : list tree) : list tree := flat_map (fun t => match t with TOr l => l | _ => [t] end) ts.

(** Possible results of [And] / [Or] on operands [ts]. *)
Definition and_shape (ts : list tree) (t : tree) : Prop :=
  t = TTrue \/ t = TFalse \/ (In t (flatA ts) /\ innerTA t = true) \/
  exists us, t = TAnd us /\ incl us (flatA ts) /\ (2 <= length us)%nat /\ forallb innerTA us = true.
Definition or_shape (ts : list tree) (t : tree) : Prop :=
  t = TTrue \/ t = TFalse \/ (In t (flatO ts) /\ innerTO t = true) \/
  exists us, t = TOr us /\ incl us (flatO ts) /\ (2 <= length us)%nat /\ forallb innerTO us = true.

Lemma Den_sort s f t : Den s f t -> srt f = match t with
  | TFalse => SFalse | TTrue => STrue | TLit _ => SLit | TNot _ => SNot | TAnd _ => SAnd | TOr _ => SOr
  | TImpl _ _ => SImpl | TEquiv _ _ => SEquiv | TPBC true _ _ _ _ => SCC | TPBC false _ _ _ _ => SPBC end.
Proof. inversion 1; subst; match goal with H : node s f = Some _ |- _ => apply node_sort in H; auto end. Qed.

Lemma Den_not_inv s f t : Den s f (TNot t) -> exists g, node s f = Some (ShNot g) /\ Den s g t.
Proof. inversion 1; eauto. Qed.
Lemma Den_and_inv s f ts : Den s f (TAnd ts) -> exists l, node s f = Some (ShAnd l) /\ Forall2 (Den s) l ts.
Proof. inversion 1; eauto. Qed.
Lemma Den_or_inv s f ts : Den s f (TOr ts) -> exists l, node s f = Some (ShOr l) /\ Forall2 (Den s) l ts.
Proof. inversion 1; eauto. Qed.
Lemma Den_impl_inv s f t u : Den s f (TImpl t u) -> exists a b, node s f = Some (ShImpl a b) /\ Den s a t /\ Den s b u.
Proof. inversion 1; eauto 6. Qed.
Lemma Den_equiv_inv s f t u : Den s f (TEquiv t u) -> exists a b, node s f = Some (ShEquiv a b) /\ Den s a t /\ Den s b u.
Proof. inversion 1; eauto 6. Qed.
Lemma Den_litt_inv s f np : Den s f (TLit np) -> litDen s f np.
Proof. inversion 1; auto. Qed.
Lemma Den_pbc_inv s f k c r ls cs : Den s f (TPBC k c r ls cs) -> exists p, node s f = Some (if k then ShCC p else ShPBC p) /\
  Forall2 (litDen s) (p_lits p) ls /\ c = p_cmp p /\ r = p_rhs p /\ cs = p_coeffs p.
Proof. inversion 1; eexists; eauto 6. Qed.

Lemma inner_A s f t : Den s f t -> inner SAnd f = innerTA t.
Proof. intros H. unfold inner. rewrite (Den_sort _ _ _ H). destruct t; try reflexivity. destruct cc; reflexivity. Qed.
Lemma inner_O s f t : Den s f t -> inner SOr f = innerTO t.
Proof. intros H. unfold inner. rewrite (Den_sort _ _ _ H). destruct t; try reflexivity. destruct cc; reflexivity. Qed.
Lemma inners_A s l ts : Forall2 (Den s) l ts -> Forall (fun g => inner SAnd g = true) l -> forallb innerTA ts = true.
Proof. induction 1; intros Hf; inversion Hf; subst; simpl; auto. rewrite <- (inner_A _ _ _ H), H3. auto. Qed.
Lemma inners_O s l ts : Forall2 (Den s) l ts -> Forall (fun g => inner SOr g = true) l -> forallb innerTO ts = true.
Proof. induction 1; intros Hf; inversion Hf; subst; simpl; auto. rewrite <- (inner_O _ _ _ H), H3. auto. Qed.

Lemma flatA_inner ts : forallb innerTA ts = true -> flatA ts = ts.
Proof. induction ts; simpl; auto. intros H. apply andb_true_iff in H. destruct H. rewrite IHts; auto. destruct a; auto; discriminate. Qed.
Lemma flatO_inner ts : forallb innerTO ts = true -> flatO ts = ts.
Proof. induction ts; simpl; auto. intros H. apply andb_true_iff in H. destruct H. rewrite IHts; auto. destruct a; auto; discriminate. Qed.

Lemma flatA_eval ts b : forallb (eval b) (flatA ts) = forallb (eval b) ts.
Proof. induction ts; simpl; auto. rewrite forallb_app, IHts. f_equal. destruct a; simpl; auto; rewrite andb_true_r; auto. Qed.
Lemma flatO_eval ts b : existsb (eval b) (flatO ts) = existsb (eval b) ts.
Proof. induction ts; simpl; auto. rewrite existsb_app, IHts. f_equal. destruct a; simpl; auto; rewrite orb_false_r; auto. Qed.

Lemma Forall2_length {A B} (R : A -> B -> Prop) l l' : Forall2 R l l' -> length l = length l'.
Proof. induction 1; simpl; auto. Qed.
Lemma Forall2_in_l {A B} (R : A -> B -> Prop) l l' x : Forall2 R l l' -> In x l -> exists y, In y l' /\ R x y.
Proof. induction 1; simpl; [tauto|]. intros [->|Hi]; eauto. destruct (IHForall2 Hi) as (z & Hz & Hr); eauto. Qed.
Lemma Forall2_in_r {A B} (R : A -> B -> Prop) l l' y : Forall2 R l l' -> In y l' -> exists x, In x l /\ R x y.
Proof. induction 1; simpl; [tauto|]. intros [->|Hi]; eauto. destruct (IHForall2 Hi) as (z & Hz & Hr); eauto. Qed.

Lemma flatten_A s ops ts : wf s -> Forall2 (Den s) ops ts -> Forall2 (Den s) (flattenOps SAnd (ands s) ops) (flatA ts).
Proof.
  intros [W T]. induction 1; simpl; [constructor|]. apply Forall2_app; auto.
  destruct (fsort_eqb_spec (srt x) SAnd) as [E|E].
  - pose proof (Den_sort _ _ _ H) as Hs. rewrite E in Hs. destruct y; try discriminate; [|destruct cc; discriminate].
    inversion H; subst. apply node_ands in H2; auto. unfold getops. rewrite H2. auto.
  - destruct y; try (constructor; [assumption|constructor]). exfalso; apply E. rewrite (Den_sort _ _ _ H); auto.
Qed.
Lemma flatten_O s ops ts : wf s -> Forall2 (Den s) ops ts -> Forall2 (Den s) (flattenOps SOr (ors s) ops) (flatO ts).
Proof.
  intros [W T]. induction 1; simpl; [constructor|]. apply Forall2_app; auto.
  destruct (fsort_eqb_spec (srt x) SOr) as [E|E].
  - pose proof (Den_sort _ _ _ H) as Hs. rewrite E in Hs. destruct y; try discriminate; [|destruct cc; discriminate].
    inversion H; subst. apply node_ors in H2; auto. unfold getops. rewrite H2. auto.
  - destruct y; try (constructor; [assumption|constructor]). exfalso; apply E. rewrite (Den_sort _ _ _ H); auto.
Qed.

(** after flattening no operand has the flattened sort *)
Lemma flatten_sort_A s ops ts : wf s -> Forall2 (Den s) ops ts ->
  Forall (fun g => srt g <> SAnd) (flattenOps SAnd (ands s) ops).
Proof.
  intros [W T]. induction 1; simpl; [constructor|]. apply Forall_app; split; auto.
  destruct (fsort_eqb_spec (srt x) SAnd) as [E|E].
  - pose proof (Den_sort _ _ _ H) as Hs. rewrite E in Hs. destruct y; try discriminate; [|destruct cc; discriminate].
    inversion H; subst. destruct (w_ok s W x _ H2) as (_ & _ & Hi).
    apply node_ands in H2; auto. unfold getops. rewrite H2. eapply Forall_impl; [|exact Hi].
    intros a Ha Hs'. unfold inner in Ha. rewrite Hs' in Ha. discriminate.
  - constructor; auto.
Qed.
Lemma flatten_sort_O s ops ts : wf s -> Forall2 (Den s) ops ts ->
  Forall (fun g => srt g <> SOr) (flattenOps SOr (ors s) ops).
Proof.
  intros [W T]. induction 1; simpl; [constructor|]. apply Forall_app; split; auto.
  destruct (fsort_eqb_spec (srt x) SOr) as [E|E].
  - pose proof (Den_sort _ _ _ H) as Hs. rewrite E in Hs. destruct y; try discriminate; [|destruct cc; discriminate].
    inversion H; subst. destruct (w_ok s W x _ H2) as (_ & _ & Hi).
    apply node_ors in H2; auto. unfold getops. rewrite H2. eapply Forall_impl; [|exact Hi].
    intros a Ha Hs'. unfold inner in Ha. rewrite Hs' in Ha. discriminate.
  - constructor; auto.
Qed.

Lemma const_sort s f t : Den s f t -> f <> ffalse -> f <> ftrue -> srt f <> SFalse /\ srt f <> STrue.
Proof.
  intros H Hf Ht. apply Den_known in H. destruct H as [sh H]. unfold node in H.
  split; intros E; rewrite E in H; destruct f as [k i]; simpl in *; subst k.
  - destruct (N.eqb_spec i 0); [subst; apply Hf; reflexivity|discriminate].
  - destruct (N.eqb_spec i 1); [subst; apply Ht; reflexivity|discriminate].
Qed.

Lemma isCNFClause_eq s f t : wf s -> Den s f t -> isCNFClause s f = is_clause t.
Proof.
  intros [W T] H. unfold isCNFClause. rewrite (Den_sort _ _ _ H).
  destruct t; try reflexivity; [|destruct cc; reflexivity].
  inversion H; subst. apply node_ors in H1; auto. unfold getops; rewrite H1. simpl.
  clear H H1. induction H3; simpl; auto. rewrite IHForall2. f_equal.
  rewrite (Den_sort _ _ _ H). destruct y; try reflexivity. destruct cc; reflexivity.
Qed.
Lemma isLit_eq s f t : Den s f t -> fsort_eqb (srt f) SLit = is_lit t.
Proof. intros H. rewrite (Den_sort _ _ _ H). destruct t; try reflexivity. destruct cc; reflexivity. Qed.

(** no operand is the complement of another (unless trivial simplifications are off) *)
Definition nocomp (s : state) (ops : list formula) : Prop :=
  conserve s = false -> forall g h, In g ops -> In h ops -> fid g <> negId (fid h).

Lemma existsb_rev_map i ops : existsb (N.eqb i) (rev (map fid ops)) = true <-> exists g, In g ops /\ fid g = i.
Proof.
  rewrite existsb_exists. split.
  - intros (x & Hx & E). apply N.eqb_eq in E. subst x. rewrite <- in_rev, in_map_iff in Hx.
    destruct Hx as (g & E & Hg). eauto.
  - intros (g & Hg & E). exists i. split; [|apply N.eqb_refl]. rewrite <- in_rev, in_map_iff. eauto.
Qed.

Lemma containsComplement_true s ops f : containsComplement s (rev (map fid ops)) f = true ->
  exists g, In g ops /\ fid g = negId (fid f).
Proof. unfold containsComplement. destruct (conserve s); [discriminate|]. apply existsb_rev_map. Qed.
Lemma containsComplement_false s ops f : containsComplement s (rev (map fid ops)) f = false -> conserve s = false ->
  forall g, In g ops -> fid g <> negId (fid f).
Proof.
  unfold containsComplement. intros H Hc g Hg E. rewrite Hc in H.
  assert (existsb (N.eqb (negId (fid f))) (rev (map fid ops)) = true) by (apply existsb_rev_map; eauto). congruence.
Qed.

Lemma nocomp_add s ops f : nocomp s ops -> containsComplement s (rev (map fid ops)) f = false -> nocomp s (ops ++ [f]).
Proof.
  intros Hn Hc Hv g h Hg Hh. pose proof (containsComplement_false _ _ _ Hc Hv) as Hx.
  rewrite in_app_iff in Hg, Hh. destruct Hg as [Hg|[->|[]]], Hh as [Hh|[->|[]]]; auto.
  - intros E. apply (Hx h Hh). rewrite E, negId_invol. auto.
  - intros E. symmetry in E. apply negId_neq in E. auto.
Qed.

Lemma NoDup_add {A} (l : list A) x : NoDup l -> ~ In x l -> NoDup (l ++ [x]).
Proof.
  intros H Hi. induction H; simpl; [repeat constructor; auto|].
  constructor; [|apply IHNoDup; simpl in Hi; tauto]. rewrite in_app_iff. simpl in *. intuition.
Qed.

Lemma Forall2_app1 {A B} (R : A -> B -> Prop) l l' x y : Forall2 R l l' -> R x y -> Forall2 R (l ++ [x]) (l' ++ [y]).
Proof. intros. apply Forall2_app; auto. Qed.

Lemma fid_in_same s ops to f t : wf s -> Forall2 (Den s) ops to -> Den s f t -> In (fid f) (map fid ops) -> In t to.
Proof.
  intros [W T] Hd Hf Hi. apply in_map_iff in Hi. destruct Hi as (g & E & Hg).
  destruct (Forall2_in_l _ _ _ _ Hd Hg) as (u & Hu & Du).
  assert (g = f) by (apply (w_inj s W); eauto using Den_known). subst g.
  rewrite (Den_fun _ _ _ _ Hf Du). auto.
Qed.

Lemma forallb_in {A} (p : A -> bool) l x : In x l -> forallb p l = p x && forallb p l.
Proof. intros H. destruct (forallb p l) eqn:E; [|rewrite andb_false_r; auto]. rewrite forallb_forall in E. rewrite E; auto. Qed.
Lemma existsb_in {A} (p : A -> bool) l x : In x l -> existsb p l = p x || existsb p l.
Proof. intros H. destruct (p x) eqn:E; simpl; auto. apply existsb_exists; eauto. Qed.

Lemma condenseAnd_loop s : wf s -> forall l tl ops to cnf,
  Forall2 (Den s) l tl -> Forall2 (Den s) ops to -> Forall (fun g => srt g <> SAnd) l ->
  Forall (fun g => inner SAnd g = true) ops -> NoDup (map fid ops) -> nocomp s ops ->
  cnf = forallb is_clause to ->
  match condenseLoop (addFormulaAnd s) (rev (map fid ops)) ops cnf l with
  | None => forall b, forallb (eval b) to && forallb (eval b) tl = false
  | Some (ops', c) => exists to', Forall2 (Den s) ops' to' /\
      (forall b, forallb (eval b) to' = forallb (eval b) to && forallb (eval b) tl) /\
      c = forallb is_clause to' /\ Forall (fun g => inner SAnd g = true) ops' /\
      NoDup (map fid ops') /\ nocomp s ops' /\ incl to' (to ++ tl)
  end.
Proof.
  intros Hw l. induction l as [|f l IH]; intros tl ops to cnf Hl Hops Hs Hin Hnd Hnc Hc; inversion Hl; subst; simpl.
  - exists to. split; auto. split; [intros b; rewrite andb_true_r; auto|].
    repeat split; auto. rewrite app_nil_r. apply incl_refl.
  - rename y into t, l' into tl. pose proof (Forall_inv_tail Hs) as H5. pose proof (Forall_inv Hs) as H4. simpl in H4.
    unfold addFormulaAnd at 1.
    destruct (feqb_spec f ftrue) as [->|Hft].
    { rewrite (Den_true_inv _ _ H1). rewrite andb_true_r.
      specialize (IH tl ops to _ H3 Hops H5 Hin Hnd Hnc eq_refl).
      destruct (condenseLoop _ _ _ _ l) as [[ops' c]|]; simpl; auto.
      destruct IH as (to' & ? & ? & ? & ? & ? & ? & Hi). exists to'. repeat split; auto.
      intros x Hx. apply Hi in Hx. rewrite in_app_iff in *. simpl. tauto. }
    destruct (feqb_spec f ffalse) as [->|Hff].
    { simpl. intros b. rewrite (Den_false_inv _ _ H1). simpl. rewrite andb_false_r. auto. }
    simpl. destruct (containsComplement s (rev (map fid ops)) f) eqn:Ecc.
    { intros b. apply containsComplement_true in Ecc. destruct Ecc as (g & Hg & E).
      destruct (Forall2_in_l _ _ _ _ Hops Hg) as (u & Hu & Du).
      pose proof (comp_eval s g f u t Hw Du H1 E b) as Hx.
      rewrite (forallb_in (eval b) to u Hu), Hx. destruct (eval b t); simpl; rewrite ?andb_false_r; auto. }
    assert (Hinner : inner SAnd f = true).
    { destruct (const_sort _ _ _ H1 Hff Hft). unfold inner.
      destruct (fsort_eqb_spec (srt f) SAnd), (fsort_eqb_spec (srt f) SFalse), (fsort_eqb_spec (srt f) STrue); simpl; congruence. }
    destruct (existsb (N.eqb (fid f)) (rev (map fid ops))) eqn:Eex.
    + assert (Hti : In t to).
      { eapply fid_in_same; eauto. apply existsb_rev_map in Eex. destruct Eex as (g & Hg & E). rewrite <- E. apply in_map; auto. }
      rewrite (isCNFClause_eq s f t Hw H1).
      assert (Hcc : forallb is_clause to && is_clause t = forallb is_clause to).
      { rewrite andb_comm. symmetry. apply forallb_in; auto. }
      rewrite Hcc.
      specialize (IH tl ops to _ H3 Hops H5 Hin Hnd Hnc eq_refl).
      assert (Hev : forall b, forallb (eval b) to && forallb (eval b) (t :: tl) = forallb (eval b) to && forallb (eval b) tl).
      { intros b. simpl. rewrite andb_assoc, (andb_comm (forallb (eval b) to)). rewrite <- forallb_in; auto. }
      destruct (condenseLoop _ _ _ _ l) as [[ops' c]|].
      * destruct IH as (to' & ? & He & ? & ? & ? & ? & Hi). exists to'. split; auto. split; [intros b; rewrite He, <- Hev; auto|].
        repeat split; auto. intros x Hx. apply Hi in Hx. rewrite in_app_iff in *. simpl. tauto.
      * intros b. change (forallb (eval b) to && forallb (eval b) (t :: tl) = false). rewrite Hev. apply IH.
    + assert (Hni : ~ In (fid f) (map fid ops)).
      { intros Hx. apply in_map_iff in Hx. destruct Hx as (g & E & Hg).
        assert (existsb (N.eqb (fid f)) (rev (map fid ops)) = true) by (apply existsb_rev_map; eauto). congruence. }
      specialize (IH tl (ops ++ [f]) (to ++ [t]) (forallb is_clause to && isCNFClause s f) H3).
      replace (fid f :: rev (map fid ops)) with (rev (map fid (ops ++ [f]))) by (rewrite map_app, rev_app_distr; reflexivity).
      assert (Hev : forall b, forallb (eval b) (to ++ [t]) && forallb (eval b) tl = forallb (eval b) to && forallb (eval b) (t :: tl)).
      { intros b. rewrite forallb_app. simpl. rewrite andb_true_r, andb_assoc. auto. }
      assert (IH' := IH (Forall2_app1 _ _ _ _ _ Hops H1) H5).
      lapply IH'; [clear IH'; intros IH'|apply Forall_app; split; auto].
      lapply IH'; [clear IH'; intros IH'|rewrite map_app; apply NoDup_add; auto].
      lapply IH'; [clear IH'; intros IH'|apply nocomp_add; auto].
      lapply IH'; [clear IH'; intros IH'|rewrite forallb_app; simpl; rewrite andb_true_r, (isCNFClause_eq s f t Hw H1); auto].
      destruct (condenseLoop _ _ _ _ l) as [[ops' c]|].
      * destruct IH' as (to' & ? & He & ? & ? & ? & ? & Hi). exists to'. split; auto. split; [intros b; rewrite He, Hev; auto|].
        repeat split; auto. intros x Hx. apply Hi in Hx. rewrite !in_app_iff in *. simpl in *. tauto.
      * intros b. change (forallb (eval b) to && forallb (eval b) (t :: tl) = false). rewrite <- Hev. apply IH'.
Qed.

Lemma condenseOr_loop s : wf s -> forall l tl ops to cnf,
  Forall2 (Den s) l tl -> Forall2 (Den s) ops to -> Forall (fun g => srt g <> SOr) l ->
  Forall (fun g => inner SOr g = true) ops -> NoDup (map fid ops) -> nocomp s ops ->
  cnf = forallb is_lit to ->
  match condenseLoop (addFormulaOr s) (rev (map fid ops)) ops cnf l with
  | None => forall b, existsb (eval b) to || existsb (eval b) tl = true
  | Some (ops', c) => exists to', Forall2 (Den s) ops' to' /\
      (forall b, existsb (eval b) to' = existsb (eval b) to || existsb (eval b) tl) /\
      c = forallb is_lit to' /\ Forall (fun g => inner SOr g = true) ops' /\
      NoDup (map fid ops') /\ nocomp s ops' /\ incl to' (to ++ tl)
  end.
Proof.
  intros Hw l. induction l as [|f l IH]; intros tl ops to cnf Hl Hops Hs Hin Hnd Hnc Hc; inversion Hl; subst; simpl.
  - exists to. split; auto. split; [intros b; rewrite orb_false_r; auto|].
    repeat split; auto. rewrite app_nil_r. apply incl_refl.
  - rename y into t, l' into tl. pose proof (Forall_inv_tail Hs) as H5. pose proof (Forall_inv Hs) as H4. simpl in H4.
    unfold addFormulaOr at 1.
    destruct (feqb_spec f ffalse) as [->|Hff].
    { rewrite (Den_false_inv _ _ H1). rewrite andb_true_r.
      specialize (IH tl ops to _ H3 Hops H5 Hin Hnd Hnc eq_refl).
      destruct (condenseLoop _ _ _ _ l) as [[ops' c]|]; simpl; auto.
      destruct IH as (to' & ? & ? & ? & ? & ? & ? & Hi). exists to'. repeat split; auto.
      intros x Hx. apply Hi in Hx. rewrite in_app_iff in *. simpl. tauto. }
    destruct (feqb_spec f ftrue) as [->|Hft].
    { simpl. intros b. rewrite (Den_true_inv _ _ H1). simpl. rewrite orb_true_r. auto. }
    simpl. destruct (containsComplement s (rev (map fid ops)) f) eqn:Ecc.
    { intros b. apply containsComplement_true in Ecc. destruct Ecc as (g & Hg & E).
      destruct (Forall2_in_l _ _ _ _ Hops Hg) as (u & Hu & Du).
      pose proof (comp_eval s g f u t Hw Du H1 E b) as Hx.
      rewrite (existsb_in (eval b) to u Hu), Hx. destruct (eval b t); simpl; rewrite ?orb_true_r; auto. }
    assert (Hinner : inner SOr f = true).
    { destruct (const_sort _ _ _ H1 Hff Hft). unfold inner.
      destruct (fsort_eqb_spec (srt f) SOr), (fsort_eqb_spec (srt f) SFalse), (fsort_eqb_spec (srt f) STrue); simpl; congruence. }
    destruct (existsb (N.eqb (fid f)) (rev (map fid ops))) eqn:Eex.
    + assert (Hti : In t to).
      { eapply fid_in_same; eauto. apply existsb_rev_map in Eex. destruct Eex as (g & Hg & E). rewrite <- E. apply in_map; auto. }
      rewrite (isLit_eq s f t H1).
      assert (Hcc : forallb is_lit to && is_lit t = forallb is_lit to).
      { rewrite andb_comm. symmetry. apply forallb_in; auto. }
      rewrite Hcc.
      specialize (IH tl ops to _ H3 Hops H5 Hin Hnd Hnc eq_refl).
      assert (Hev : forall b, existsb (eval b) to || existsb (eval b) (t :: tl) = existsb (eval b) to || existsb (eval b) tl).
      { intros b. simpl. rewrite orb_assoc, (orb_comm (existsb (eval b) to)). rewrite <- existsb_in; auto. }
      destruct (condenseLoop _ _ _ _ l) as [[ops' c]|].
      * destruct IH as (to' & ? & He & ? & ? & ? & ? & Hi). exists to'. split; auto. split; [intros b; rewrite He, <- Hev; auto|].
        repeat split; auto. intros x Hx. apply Hi in Hx. rewrite in_app_iff in *. simpl. tauto.
      * intros b. change (existsb (eval b) to || existsb (eval b) (t :: tl) = true). rewrite Hev. apply IH.
    + assert (Hni : ~ In (fid f) (map fid ops)).
      { intros Hx. apply in_map_iff in Hx. destruct Hx as (g & E & Hg).
        assert (existsb (N.eqb (fid f)) (rev (map fid ops)) = true) by (apply existsb_rev_map; eauto). congruence. }
      specialize (IH tl (ops ++ [f]) (to ++ [t]) (forallb is_lit to && fsort_eqb (srt f) SLit) H3).
      replace (fid f :: rev (map fid ops)) with (rev (map fid (ops ++ [f]))) by (rewrite map_app, rev_app_distr; reflexivity).
      assert (Hev : forall b, existsb (eval b) (to ++ [t]) || existsb (eval b) tl = existsb (eval b) to || existsb (eval b) (t :: tl)).
      { intros b. rewrite existsb_app. simpl. rewrite orb_false_r, orb_assoc. auto. }
      assert (IH' := IH (Forall2_app1 _ _ _ _ _ Hops H1) H5).
      lapply IH'; [clear IH'; intros IH'|apply Forall_app; split; auto].
      lapply IH'; [clear IH'; intros IH'|rewrite map_app; apply NoDup_add; auto].
      lapply IH'; [clear IH'; intros IH'|apply nocomp_add; auto].
      lapply IH'; [clear IH'; intros IH'|rewrite forallb_app; simpl; rewrite andb_true_r, (isLit_eq s f t H1); auto].
      destruct (condenseLoop _ _ _ _ l) as [[ops' c]|].
      * destruct IH' as (to' & ? & He & ? & ? & ? & ? & Hi). exists to'. split; auto. split; [intros b; rewrite He, Hev; auto|].
        repeat split; auto. intros x Hx. apply Hi in Hx. rewrite !in_app_iff in *. simpl in *. tauto.
      * intros b. change (existsb (eval b) to || existsb (eval b) (t :: tl) = true). rewrite <- Hev. apply IH'.
Qed.

(** stored conjunctions and disjunctions are condensed *)
Definition condensed (s : state) : Prop :=
  forall f l, node s f = Some (ShAnd l) \/ node s f = Some (ShOr l) -> NoDup (map fid l) /\ nocomp s l.

Lemma allocAnd_adds h ops c s r s' : allocAnd h ops c s = (r, s') -> adds s s' r (ShAnd ops).
Proof.
  unfold allocAnd, nextPosId. intros H. inversion H; subst. intros g. unfold node, upd.
  destruct c; simpl; (destruct (feqb_spec g (F SAnd (if N.even (nid s) then nid s + 1 else nid s + 2))); [subst; reflexivity|]; destruct (srt g) eqn:Es; auto).
Qed.
Lemma allocOr_adds h ops c s r s' : allocOr h ops c s = (r, s') -> adds s s' r (ShOr ops).
Proof.
  unfold allocOr, nextPosId. intros H. inversion H; subst. intros g. unfold node, upd.
  destruct c; simpl; (destruct (feqb_spec g (F SOr (if N.even (nid s) then nid s + 1 else nid s + 2))); [subst; reflexivity|]; destruct (srt g) eqn:Es; auto).
Qed.
Lemma condensed_add s s' f sh : condensed s -> conserve s' = conserve s -> adds s s' f sh ->
  (forall l, sh = ShAnd l \/ sh = ShOr l -> NoDup (map fid l) /\ nocomp s l) -> condensed s'.
Proof.
  intros Hc He A Hn g l Hg. rewrite !A in Hg. unfold nocomp. rewrite He.
  destruct (feqb_spec g f); [|apply (Hc g l Hg)]. apply Hn. destruct Hg as [Hg|Hg]; inversion Hg; auto.
Qed.

Lemma And_spec s ops ts r s' : wf s -> Forall2 (Den s) ops ts -> And ops s = (r, s') ->
  good s s' /\ samenames s s' /\ (exists t, Den s' r t /\ equiv t (TAnd ts) /\ and_shape ts t) /\
  (condensed s -> condensed s').
Proof.
  intros Hw Hd H. pose proof Hw as [W T]. unfold And in H.
  destruct (findAnd (hashOperands ops) ops s) as [f|] eqn:Ef.
  { inversion H; subst. split; [apply good_refl; auto|]. split; [apply samenames_refl|]. split; auto.
    apply findAnd_some in Ef; auto. exists (TAnd ts). split; [eapply DAnd; eauto|]. split; [intros b; auto|].
    destruct (w_ok _ W _ _ Ef) as (_ & Hlen & Hi). pose proof (inners_A _ _ _ Hd Hi) as Hia.
    right; right; right. exists ts. rewrite (flatA_inner ts Hia). rewrite <- (Forall2_length _ _ _ Hd). repeat split; auto. apply incl_refl. }
  unfold condenseAnd in H.
  pose proof (condenseAnd_loop s Hw _ _ [] [] true (flatten_A _ _ _ Hw Hd) (Forall2_nil _) (flatten_sort_A _ _ _ Hw Hd) (Forall_nil _) (NoDup_nil _)) as HC.
  lapply HC; [clear HC; intros HC|intros _ g h []].
  specialize (HC eq_refl). simpl in HC.
  destruct (condenseLoop _ [] [] true _) as [[cond c]|] eqn:El.
  2:{ inversion H; subst. split; [apply good_refl; auto|]. split; [apply samenames_refl|]. split; auto.
      exists TFalse. split; [apply Den_false|]. split; [|right; left; auto].
      intros b. simpl. rewrite <- flatA_eval. symmetry. apply HC. }
  destruct HC as (to & Dto & Hev & Hcl & Hinn & Hnd & Hnc & Hincl).
  assert (Hev' : forall b, forallb (eval b) to = forallb (eval b) ts) by (intros b; rewrite Hev, flatA_eval; auto).
  destruct cond as [|f1 [|f2 cond]].
  - inversion Dto; subst. inversion H; subst. split; [apply good_refl; auto|]. split; [apply samenames_refl|]. split; auto.
    exists TTrue. split; [apply Den_true|]. split; [|left; auto]. intros b. simpl. rewrite <- Hev'. reflexivity.
  - inversion Dto; subst. inversion H4; subst. inversion H; subst. split; [apply good_refl; auto|]. split; [apply samenames_refl|]. split; auto.
    exists y. split; auto. split.
    + intros b. simpl. rewrite <- Hev'. simpl. rewrite andb_true_r; auto.
    + right; right; left. split; [apply Hincl; left; auto|]. inversion Hinn; subst. rewrite <- (inner_A _ _ _ H2); auto.
  - assert (Hsh : and_shape ts (TAnd to)).
    { right; right; right. exists to. split; auto. split; auto. split; [rewrite <- (Forall2_length _ _ _ Dto); simpl; lia|].
      eapply inners_A; eauto. }
    destruct (findAnd (hashOperands (f1 :: f2 :: cond)) (f1 :: f2 :: cond) s) as [f|] eqn:Ef2.
    + inversion H; subst. split; [apply good_refl; auto|]. split; [apply samenames_refl|]. split; auto.
      apply findAnd_some in Ef2; auto. exists (TAnd to). split; [eapply DAnd; eauto|]. split; auto.
    + pose proof (findAnd_none _ _ Hw Ef2) as Hnew.
      destruct (allocAnd_spec s _ to c r s' Hw Dto Hnew) as (G & SN & D'); auto; try (simpl; lia).
      split; auto. split; auto. split.
      * exists (TAnd to). auto.
      * intros Hcd. eapply condensed_add; [exact Hcd|apply G|eapply allocAnd_adds; eauto|].
        intros l [Hl|Hl]; inversion Hl; subst l. auto.
Qed.

Lemma Or_spec s ops ts r s' : wf s -> Forall2 (Den s) ops ts -> Or ops s = (r, s') ->
  good s s' /\ samenames s s' /\ (exists t, Den s' r t /\ equiv t (TOr ts) /\ or_shape ts t) /\
  (condensed s -> condensed s').
Proof.
  intros Hw Hd H. pose proof Hw as [W T]. unfold Or in H.
  destruct (findOr (hashOperands ops) ops s) as [f|] eqn:Ef.
  { inversion H; subst. split; [apply good_refl; auto|]. split; [apply samenames_refl|]. split; auto.
    apply findOr_some in Ef; auto. exists (TOr ts). split; [eapply DOr; eauto|]. split; [intros b; auto|].
    destruct (w_ok _ W _ _ Ef) as (_ & Hlen & Hi). pose proof (inners_O _ _ _ Hd Hi) as Hia.
    right; right; right. exists ts. rewrite (flatO_inner ts Hia). rewrite <- (Forall2_length _ _ _ Hd). repeat split; auto. apply incl_refl. }
  unfold condenseOr in H.
  pose proof (condenseOr_loop s Hw _ _ [] [] true (flatten_O _ _ _ Hw Hd) (Forall2_nil _) (flatten_sort_O _ _ _ Hw Hd) (Forall_nil _) (NoDup_nil _)) as HC.
  lapply HC; [clear HC; intros HC|intros _ g h []].
  specialize (HC eq_refl). simpl in HC.
  destruct (condenseLoop _ [] [] true _) as [[cond c]|] eqn:El.
  2:{ inversion H; subst. split; [apply good_refl; auto|]. split; [apply samenames_refl|]. split; auto.
      exists TTrue. split; [apply Den_true|]. split; [|left; auto].
      intros b. simpl. rewrite <- flatO_eval. symmetry. apply HC. }
  destruct HC as (to & Dto & Hev & Hcl & Hinn & Hnd & Hnc & Hincl).
  assert (Hev' : forall b, existsb (eval b) to = existsb (eval b) ts) by (intros b; rewrite Hev, flatO_eval; auto).
  destruct cond as [|f1 [|f2 cond]].
  - inversion Dto; subst. inversion H; subst. split; [apply good_refl; auto|]. split; [apply samenames_refl|]. split; auto.
    exists TFalse. split; [apply Den_false|]. split; [|right; left; auto]. intros b. simpl. rewrite <- Hev'. reflexivity.
  - inversion Dto; subst. inversion H4; subst. inversion H; subst. split; [apply good_refl; auto|]. split; [apply samenames_refl|]. split; auto.
    exists y. split; auto. split.
    + intros b. simpl. rewrite <- Hev'. simpl. rewrite orb_false_r; auto.
    + right; right; left. split; [apply Hincl; left; auto|]. inversion Hinn; subst. rewrite <- (inner_O _ _ _ H2); auto.
  - assert (Hsh : or_shape ts (TOr to)).
    { right; right; right. exists to. split; auto. split; auto. split; [rewrite <- (Forall2_length _ _ _ Dto); simpl; lia|].
      eapply inners_O; eauto. }
    destruct (findOr (hashOperands (f1 :: f2 :: cond)) (f1 :: f2 :: cond) s) as [f|] eqn:Ef2.
    + inversion H; subst. split; [apply good_refl; auto|]. split; [apply samenames_refl|]. split; auto.
      apply findOr_some in Ef2; auto. exists (TOr to). split; [eapply DOr; eauto|]. split; auto.
    + pose proof (findOr_none _ _ Hw Ef2) as Hnew.
      destruct (allocOr_spec s _ to c r s' Hw Dto Hnew) as (G & SN & D'); auto; try (simpl; lia).
      split; auto. split; auto. split.
      * exists (TOr to). auto.
      * intros Hcd. eapply condensed_add; [exact Hcd|apply G|eapply allocOr_adds; eauto|].
        intros l [Hl|Hl]; inversion Hl; subst l. auto.
Qed.

Lemma lits_inner k l : k <> SLit -> Forall (fun g => srt g = SLit) l -> Forall (fun g => inner k g = true) l.
Proof.
  intros Hk. apply Forall_impl. intros a Ha. unfold inner. rewrite Ha. destruct k; auto; congruence.
Qed.
Lemma lits_islit s l ts : Forall2 (Den s) l ts -> Forall (fun g => srt g = SLit) l -> forallb is_lit ts = true.
Proof.
  induction 1; intros Hf; inversion Hf; subst; simpl; auto. rewrite IHForall2, <- (isLit_eq _ _ _ H), H3; auto.
Qed.
Lemma lit_clause ts : forallb is_lit ts = true -> forallb is_clause ts = true.
Proof. rewrite !forallb_forall. intros H x Hx. specialize (H x Hx). destruct x; auto; discriminate. Qed.

Lemma Minterm_spec s ops ts r s' : wf s -> Forall2 (Den s) ops ts -> Forall (fun g => srt g = SLit) ops -> Minterm ops s = (r, s') ->
  good s s' /\ samenames s s' /\ exists t, Den s' r t /\ equiv t (TAnd ts) /\
    t = match ts with [] => TTrue | [u] => u | _ => TAnd ts end.
Proof.
  intros Hw Hd Hl H. pose proof Hw as [W T]. unfold Minterm in H.
  destruct (findAnd (hashOperands ops) ops s) as [f|] eqn:Ef.
  { inversion H; subst. split; [apply good_refl; auto|]. split; [apply samenames_refl|].
    apply findAnd_some in Ef; auto. exists (TAnd ts). split; [eapply DAnd; eauto|]. split; [intros b; auto|].
    destruct (w_ok _ W _ _ Ef) as (_ & Hlen & _). rewrite (Forall2_length _ _ _ Hd) in Hlen.
    destruct ts as [|? [|? ?]]; simpl in Hlen; auto; lia. }
  pose proof (findAnd_none _ _ Hw Ef) as Hnew.
  destruct ops as [|f [|g ops]].
  - inversion H; subst. inversion Hd; subst. split; [apply good_refl; auto|]. split; [apply samenames_refl|].
    exists TTrue. split; [apply Den_true|]. split; auto. intros b; auto.
  - inversion H; subst. inversion Hd; subst. inversion H4; subst. split; [apply good_refl; auto|]. split; [apply samenames_refl|].
    exists y. split; auto. split; auto. intros b; simpl. rewrite andb_true_r; auto.
  - destruct (allocAnd_spec s _ ts true r s' Hw Hd Hnew) as (G & SN & D'); auto.
    + simpl; lia.
    + apply lits_inner; auto; discriminate.
    + symmetry. eapply lit_clause, lits_islit; eauto.
    + split; auto. split; auto. exists (TAnd ts). split; auto. split; [intros b; auto|].
      inversion Hd; subst. inversion H4; subst. auto.
Qed.

Lemma Clause_spec s ops ts r s' : wf s -> Forall2 (Den s) ops ts -> Forall (fun g => srt g = SLit) ops -> Clause ops s = (r, s') ->
  good s s' /\ samenames s s' /\ exists t, Den s' r t /\ equiv t (TOr ts) /\
    t = match ts with [] => TFalse | [u] => u | _ => TOr ts end.
Proof.
  intros Hw Hd Hl H. pose proof Hw as [W T]. unfold Clause in H.
  destruct (findOr (hashOperands ops) ops s) as [f|] eqn:Ef.
  { inversion H; subst. split; [apply good_refl; auto|]. split; [apply samenames_refl|].
    apply findOr_some in Ef; auto. exists (TOr ts). split; [eapply DOr; eauto|]. split; [intros b; auto|].
    destruct (w_ok _ W _ _ Ef) as (_ & Hlen & _). rewrite (Forall2_length _ _ _ Hd) in Hlen.
    destruct ts as [|? [|? ?]]; simpl in Hlen; auto; lia. }
  pose proof (findOr_none _ _ Hw Ef) as Hnew.
  destruct ops as [|f [|g ops]].
  - inversion H; subst. inversion Hd; subst. split; [apply good_refl; auto|]. split; [apply samenames_refl|].
    exists TFalse. split; [apply Den_false|]. split; auto. intros b; auto.
  - inversion H; subst. inversion Hd; subst. inversion H4; subst. split; [apply good_refl; auto|]. split; [apply samenames_refl|].
    exists y. split; auto. split; auto. intros b; simpl. rewrite orb_false_r; auto.
  - destruct (allocOr_spec s _ ts true r s' Hw Hd Hnew) as (G & SN & D'); auto.
    + simpl; lia.
    + apply lits_inner; auto; discriminate.
    + symmetry. eapply lits_islit; eauto.
    + split; auto. split; auto. exists (TOr ts). split; auto. split; [intros b; auto|].
      inversion Hd; subst. inversion H4; subst. auto.
Qed.

(** ** Cardinality and pseudo-Boolean constraints *)
Lemma findCC_some s h p f : wf s -> findCC h p s = Some f -> node s f = Some (ShCC p).
Proof.
  intros [W T] H. unfold findCC in H. apply find_some in H. destruct H as [Hin He].
  apply (c_cc s T) in Hin. destruct Hin as (l & Hl & _). unfold getpbc in He. rewrite Hl in He.
  destruct (pbcsEquals_spec l p); [|discriminate]. subst. apply node_ccs; auto.
Qed.
Lemma findCC_none s p : wf s -> findCC (hashPbc p) p s = None -> forall f, node s f <> Some (ShCC p).
Proof.
  intros [W T] H f Hf. apply node_ccs in Hf; auto.
  assert (Hin : In f (ccC s (hashPbc p))) by (apply (c_cc s T); eauto).
  pose proof (find_none _ _ H f Hin) as Hx. unfold getpbc in Hx. rewrite Hf in Hx.
  destruct (pbcsEquals_spec p p); congruence.
Qed.
Lemma findPBC_some s h p f : wf s -> findPBC h p s = Some f -> node s f = Some (ShPBC p).
Proof.
  intros [W T] H. unfold findPBC in H. apply find_some in H. destruct H as [Hin He].
  apply (c_pbc s T) in Hin. destruct Hin as (l & Hl & _). unfold getpbc in He. rewrite Hl in He.
  destruct (pbcsEquals_spec l p); [|discriminate]. subst. apply node_pbcs; auto.
Qed.
Lemma findPBC_none s p : wf s -> findPBC (hashPbc p) p s = None -> forall f, node s f <> Some (ShPBC p).
Proof.
  intros [W T] H f Hf. apply node_pbcs in Hf; auto.
  assert (Hin : In f (pbcC s (hashPbc p))) by (apply (c_pbc s T); eauto).
  pose proof (find_none _ _ H f Hin) as Hx. unfold getpbc in Hx. rewrite Hf in Hx.
  destruct (pbcsEquals_spec p p); congruence.
Qed.

Lemma evaluateTrivial_holds c r : evaluateTrivial c r = cmp_holds c 0 r.
Proof. destruct c; simpl; auto using Z.eqb_sym. Qed.

Lemma Constant_spec s b : Den s (Constant b) (if b then TTrue else TFalse).
Proof. destruct b; [apply Den_true|apply Den_false]. Qed.

Lemma litDen_known s ls ns : Forall2 (litDen s) ls ns -> Forall (known s) ls.
Proof. induction 1; constructor; auto. red. unfold litDen in H. eauto. Qed.
Lemma litDen_ext s s' ls ns : ext s s' -> Forall2 (litDen s) ls ns -> Forall2 (litDen s') ls ns.
Proof. intros E. induction 1; constructor; auto. apply E; auto. Qed.

Lemma litDen_vars s s' ls ns : ext s s' -> Forall2 (litDen s) ls ns -> forallb snd ns = true ->
  Forall (fun l => exists n, node s' l = Some (ShLit n true)) ls.
Proof.
  intros E. induction 1; intros Hp; constructor; simpl in Hp; apply andb_true_iff in Hp; destruct Hp as [Hp Hq]; auto.
  destruct y as [n q]; simpl in *; subst. exists n. apply E. exact H.
Qed.
Lemma litDen_lits s s' ls ns : ext s s' -> Forall2 (litDen s) ls ns ->
  Forall (fun l => exists n q, node s' l = Some (ShLit n q)) ls.
Proof.
  intros E. induction 1; constructor; auto. destruct y as [n q]. exists n, q. apply E. exact H.
Qed.

(** shape of the result of a cardinality / pseudo-Boolean constructor *)
Definition trivial_pbc (c : cmp) (rhs : Z) : tree := if cmp_holds c 0 rhs then TTrue else TFalse.
Definition cc_tree (c : cmp) (rhs : Z) (ls : list lit) : tree :=
  match ls with [] => trivial_pbc c rhs | _ => TPBC true c rhs ls (map (fun _ => 1%Z) ls) end.
Definition pbc_tree (c : cmp) (rhs : Z) (ls : list lit) (cs : list Z) : tree :=
  match ls with [] => trivial_pbc c rhs | _ => TPBC false c rhs ls cs end.

Lemma constructCC_spec s c rhs vars ns r s' : wf s -> (0 <= rhs)%Z -> Forall2 (litDen s) vars ns -> forallb snd ns = true ->
  constructCC c rhs vars s = (r, s') ->
  good s s' /\ samenames s s' /\ Den s' r (cc_tree c rhs ns).
Proof.
  intros Hw Hrhs Hd Hpos H. pose proof Hw as [W T]. unfold constructCC in H.
  destruct vars as [|v0 vars0].
  { inversion H; subst. inversion Hd; subst. split; [apply good_refl; auto|]. split; [apply samenames_refl|].
    simpl. unfold trivial_pbc. rewrite <- evaluateTrivial_holds. apply Constant_spec. }
  remember (v0 :: vars0) as vars eqn:Ev.
  assert (Hne : vars <> []) by (subst; discriminate). assert (Hns : exists n0 ns0, ns = n0 :: ns0) by (subst vars; inversion Hd; eauto).
  clear v0 vars0 Ev.
  assert (Hmap : map (fun _ => 1%Z) vars = map (fun _ : lit => 1%Z) ns) by (clear -Hd; induction Hd; simpl; congruence).
  assert (Hcc : cc_tree c rhs ns = TPBC true c rhs ns (map (fun _ => 1%Z) vars)) by (destruct Hns as (? & ? & ->); rewrite Hmap; auto).
  rewrite Hcc. clear Hcc Hns. cbv zeta in H. set (p := Pbc vars (map (fun _ => 1%Z) vars) rhs c) in *.
  destruct (findCC (hashPbc p) p s) as [f|] eqn:Ef.
  { inversion H; subst r s'. split; [apply good_refl; auto|]. split; [apply samenames_refl|].
    apply findCC_some in Ef; auto. apply (DCC s f p); auto. }
  pose proof (findCC_none _ _ Hw Ef) as Hnew.
  pose proof (nextPosId_spec s) as [Ho Hi]. destruct (nextPosId s) as [i s1] eqn:En. simpl in Ho, Hi.
  assert (Es1 : s1 = set_nid i s). { unfold nextPosId in En. inversion En; auto. }
  inversion H; subst r s'; clear H. subst s1.
  set (l := F SCC i). set (s' := set_ccs _ _).
  assert (Hfr : forall g, known s g -> fid g <> fid l) by (apply above_fresh; auto).
  destruct (fresh_none s l Hw Hfr) as (_ & _ & _ & _ & _ & _ & Hl & _).
  assert (A : adds s s' l (ShCC p)).
  { intros g. unfold node, s', upd; simpl. destruct (feqb_spec g l); [subst; reflexivity|]. destruct (srt g) eqn:Es; auto. }
  assert (Hnode : node s' l = Some (ShCC p)) by (rewrite A, feqb_refl; auto).
  assert (Hext : ext s s').
  { apply (adds_ext s s' l _ A); [unfold node; simpl; rewrite Hl; reflexivity|simpl; lia|reflexivity]. }
  destruct (wfn_add s s' l (ShCC p)) as [E' W']; auto; try (simpl; lia).
  - simpl. split; auto. split; auto. split; auto.
    eapply litDen_vars; eauto.
  - simpl. eapply litDen_known; eauto.
  - split; [|split; [intros ? ?; auto|]].
    + split; [split; auto|split; auto; apply frame_same; reflexivity].
      destruct T. constructor; auto; unfold s', upd; simpl; auto; intros;
        try (destruct (feqb_spec f l) as [->|]; [reflexivity|eapply t_cc; eassumption]).
      split; intros Hx.
      * destruct (N.eqb_spec h (hashPbc p)) as [->|Hh].
        -- rewrite in_app_iff in Hx; destruct Hx as [Hx|[Hx|[]]].
           ++ apply c_cc in Hx; destruct Hx as (l0 & Hl0 & Hh); destruct (feqb_spec f l) as [->|]; [congruence|eauto].
           ++ subst f; rewrite feqb_refl; eauto.
        -- apply c_cc in Hx; destruct Hx as (l0 & Hl0 & Hh'); destruct (feqb_spec f l) as [->|]; [congruence|eauto].
      * destruct Hx as (l0 & Hl0 & Hh); destruct (feqb_spec f l) as [->|].
        -- injection Hl0 as <-; rewrite <- Hh, N.eqb_refl, in_app_iff; right; left; auto.
        -- assert (Hx : In f (ccC s h)) by (apply c_cc; eauto).
           destruct (N.eqb_spec h (hashPbc p)) as [->|]; auto; rewrite in_app_iff; auto.
    + apply (DCC s' l p); auto. eapply litDen_ext; eauto.
Qed.

Lemma constructPBC_spec s c rhs ls cs ns r s' : wf s -> isCC c rhs ls cs = false -> Forall2 (litDen s) ls ns -> length cs = length ls ->
  constructPBC c rhs ls cs s = (r, s') ->
  good s s' /\ samenames s s' /\ Den s' r (pbc_tree c rhs ns cs).
Proof.
  intros Hw Hcc0 Hd Hlen H. pose proof Hw as [W T]. unfold constructPBC in H.
  destruct ls as [|v0 vars0].
  { inversion H; subst. inversion Hd; subst. split; [apply good_refl; auto|]. split; [apply samenames_refl|].
    simpl. unfold trivial_pbc. rewrite <- evaluateTrivial_holds. apply Constant_spec. }
  remember (v0 :: vars0) as vars eqn:Ev.
  assert (Hne : vars <> []) by (subst; discriminate). assert (Hns : exists n0 ns0, ns = n0 :: ns0) by (subst vars; inversion Hd; eauto).
  clear v0 vars0 Ev.
  assert (Hcc : pbc_tree c rhs ns cs = TPBC false c rhs ns cs) by (destruct Hns as (? & ? & ->); auto).
  rewrite Hcc. clear Hcc Hns. cbv zeta in H. set (p := Pbc vars cs rhs c) in *.
  destruct (findPBC (hashPbc p) p s) as [f|] eqn:Ef.
  { inversion H; subst r s'. split; [apply good_refl; auto|]. split; [apply samenames_refl|].
    apply findPBC_some in Ef; auto. apply (DPBC s f p); auto. }
  pose proof (findPBC_none _ _ Hw Ef) as Hnew.
  pose proof (nextPosId_spec s) as [Ho Hi]. destruct (nextPosId s) as [i s1] eqn:En. simpl in Ho, Hi.
  assert (Es1 : s1 = set_nid i s). { unfold nextPosId in En. inversion En; auto. }
  inversion H; subst r s'; clear H. subst s1.
  set (l := F SPBC i). set (s' := set_pbcs _ _).
  assert (Hfr : forall g, known s g -> fid g <> fid l) by (apply above_fresh; auto).
  destruct (fresh_none s l Hw Hfr) as (_ & _ & _ & _ & _ & _ & _ & Hl).
  assert (A : adds s s' l (ShPBC p)).
  { intros g. unfold node, s', upd; simpl. destruct (feqb_spec g l); [subst; reflexivity|]. destruct (srt g) eqn:Es; auto. }
  assert (Hnode : node s' l = Some (ShPBC p)) by (rewrite A, feqb_refl; auto).
  assert (Hext : ext s s').
  { apply (adds_ext s s' l _ A); [unfold node; simpl; rewrite Hl; reflexivity|simpl; lia|reflexivity]. }
  destruct (wfn_add s s' l (ShPBC p)) as [E' W']; auto; try (simpl; lia).
  - simpl. split; auto. split; auto. split; auto.
    eapply litDen_lits; eauto.
  - simpl. eapply litDen_known; eauto.
  - split; [|split; [intros ? ?; auto|]].
    + split; [split; auto|split; auto; apply frame_same; reflexivity].
      destruct T. constructor; auto; unfold s', upd; simpl; auto; intros;
        try (destruct (feqb_spec f l) as [->|]; [reflexivity|eapply t_pbc; eassumption]).
      split; intros Hx.
      * destruct (N.eqb_spec h (hashPbc p)) as [->|Hh].
        -- rewrite in_app_iff in Hx; destruct Hx as [Hx|[Hx|[]]].
           ++ apply c_pbc in Hx; destruct Hx as (l0 & Hl0 & Hh); destruct (feqb_spec f l) as [->|]; [congruence|eauto].
           ++ subst f; rewrite feqb_refl; eauto.
        -- apply c_pbc in Hx; destruct Hx as (l0 & Hl0 & Hh'); destruct (feqb_spec f l) as [->|]; [congruence|eauto].
      * destruct Hx as (l0 & Hl0 & Hh); destruct (feqb_spec f l) as [->|].
        -- injection Hl0 as <-; rewrite <- Hh, N.eqb_refl, in_app_iff; right; left; auto.
        -- assert (Hx : In f (pbcC s h)) by (apply c_pbc; eauto).
           destruct (N.eqb_spec h (hashPbc p)) as [->|]; auto; rewrite in_app_iff; auto.
    + apply (DPBC s' l p); auto. eapply litDen_ext; eauto.
Qed.

(** the parity of a literal's id is its phase *)
Lemma litDen_pos s l np : wf s -> litDen s l np -> isPos l = snd np.
Proof. intros [W T] H. apply (w_ok s W) in H. destruct H as (H & _). exact H. Qed.
Lemma litDens_pos s ls ns : wf s -> Forall2 (litDen s) ls ns -> forallb isPos ls = forallb snd ns.
Proof. intros Hw. induction 1; simpl; auto. rewrite IHForall2, (litDen_pos s x y); auto. Qed.

(** the tree PBC builds: a cardinality constraint when all literals are positive, all
    coefficients 1 and the right-hand side is not negative *)
Definition pb_tree (c : cmp) (rhs : Z) (ls : list lit) (cs : list Z) : tree :=
  match ls with
  | [] => trivial_pbc c rhs
  | _ => if forallb snd ls && forallb (Z.eqb 1) cs && (match c with LT => Z.leb 1 rhs | _ => Z.leb 0 rhs end)
         then TPBC true c rhs ls cs else TPBC false c rhs ls cs
  end.

Lemma ones cs n : forallb (Z.eqb 1) cs = true -> length cs = n -> forall {A} (l : list A), length l = n -> cs = map (fun _ => 1%Z) l.
Proof.
  revert n. induction cs as [|x cs IH]; intros n H Hn A l Hl; destruct l; simpl in *; subst; try discriminate; auto.
  apply andb_true_iff in H. destruct H as [H1 H2]. change (Z.eqb 1 x = true) in H1. apply Z.eqb_eq in H1. subst x. f_equal. eapply IH; eauto.
Qed.

Lemma PBC_spec s c rhs ls cs ns r s' : wf s -> Forall2 (litDen s) ls ns -> length cs = length ls ->
  PBC c rhs ls cs s = (r, s') ->
  good s s' /\ samenames s s' /\ Den s' r (pb_tree c rhs ns cs).
Proof.
  intros Hw Hd Hlen H. unfold PBC in H. destruct ls as [|l0 ls0].
  { inversion H; subst. inversion Hd; subst. split; [apply good_refl; auto|]. split; [apply samenames_refl|].
    simpl. unfold trivial_pbc. rewrite <- evaluateTrivial_holds. apply Constant_spec. }
  remember (l0 :: ls0) as ls eqn:Els.
  assert (Hns : exists n0 ns0, ns = n0 :: ns0) by (subst ls; inversion Hd; eauto). clear Els.
  pose proof (eq_refl (isCC c rhs ls cs)) as HCC. unfold isCC in HCC at 2. rewrite (litDens_pos s ls ns Hw Hd) in HCC.
  assert (Hpt : pb_tree c rhs ns cs = if forallb snd ns && forallb (Z.eqb 1) cs && (match c with LT => Z.leb 1 rhs | _ => Z.leb 0 rhs end)
         then TPBC true c rhs ns cs else TPBC false c rhs ns cs).
  { destruct Hns as (? & ? & ->); reflexivity. }
  rewrite Hpt; clear Hpt.
  replace (match c with LE | GE | GT | EQ => Z.leb 0 rhs | LT => Z.leb 1 rhs end)
    with (match c with LT => Z.leb 1 rhs | _ => Z.leb 0 rhs end) in HCC by (destruct c; reflexivity).
  rewrite <- HCC. destruct (isCC c rhs ls cs) eqn:EC; symmetry in HCC; rename HCC into E.
  - apply andb_true_iff in E. destruct E as [E Er].
    assert (Hrhs : (0 <= rhs)%Z) by (destruct c; lia). apply andb_true_iff in E. destruct E as [E1 E2].
    destruct (constructCC_spec s c rhs ls ns r s' Hw Hrhs Hd E1 H) as (G & SN & D). split; auto. split; auto.
    rewrite (ones cs _ E2 Hlen ns); [|symmetry; eapply Forall2_length; eauto].
    destruct Hns as (? & ? & ->); exact D.
  - destruct (constructPBC_spec s c rhs ls cs ns r s' Hw EC Hd Hlen H) as (G & SN & D). split; auto. split; auto.
    destruct Hns as (? & ? & ->); exact D.
Qed.

(** a literal formula denotes a literal *)
Lemma Den_lit_inv s f t : Den s f t -> srt f = SLit -> exists n p, t = TLit (n, p) /\ litDen s f (n, p).
Proof.
  intros H Hs. pose proof (Den_sort _ _ _ H) as Hs'. rewrite Hs in Hs'. destruct t; try discriminate; [|destruct cc; discriminate].
  inversion H; subst. eauto.
Qed.
Lemma litDen_Den s f np : litDen s f np -> Den s f (TLit np).
Proof. destruct np. intros H. apply DLit; auto. Qed.
