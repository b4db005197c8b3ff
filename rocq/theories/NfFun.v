(** * Proofs about predicates and functions on formulas *)
From Coq Require Import String Ascii List Bool ZArith NArith Lia.
From Verif Require Import Spec Factory FactoryProofs FactoryProofs2 FactoryProofs3 FactoryApi FactoryProps Assign EncPbc NormalForm NfBase NfAssign NfEnc NfNnf NfCnf.
Import ListNotations.
Local Open Scope N_scope.

Lemma Operands_den s f t : wf s -> Den s f t -> Forall2 (Den s) (Operands f s) (subtrees t).
Proof.
  intros [W T] D. unfold Operands. rewrite (Den_sort _ _ _ D). destruct t; simpl; auto.
  - apply Den_not_inv in D. destruct D as (g & Hn & Hg). apply node_nots in Hn; auto. rewrite Hn. auto.
  - apply Den_and_inv in D. destruct D as (l & Hn & Hg). apply node_ands in Hn; auto. unfold getops. rewrite Hn. auto.
  - apply Den_or_inv in D. destruct D as (l & Hn & Hg). apply node_ors in Hn; auto. unfold getops. rewrite Hn. auto.
  - apply Den_impl_inv in D. destruct D as (a & b & Hn & Ha & Hb). apply node_impls in Hn; auto. unfold getpair. rewrite Hn. auto.
  - apply Den_equiv_inv in D. destruct D as (a & b & Hn & Ha & Hb). apply node_equivs in Hn; auto. unfold getpair. rewrite Hn. auto.
  - destruct cc; auto.
Qed.

(** ** Predicates *)
Lemma isDNF_ok t s V f : winv s V -> Den s f t -> wp (fun _ => isDNF f) s V (fun b s' V' => b = is_dnf t).
Proof.
  intros I D. unfold isDNF. apply wp_get. unfold lookupPred. destruct (predC s PredDNF f) as [b|] eqn:E.
  - destruct (k_pred _ _ (v_cache _ _ I) _ _ _ E) as (t' & Ht & ->). apply wp_ret; auto. simpl. rewrite (Den_fun _ _ _ _ Ht D). auto.
  - rewrite (Den_sort _ _ _ D).
    assert (G : forall b, b = is_dnf t -> wp (fun _ : nat => _ <- put (setPred PredDNF f b) ;; ret b) s V (fun b s' V' => b = is_dnf t)).
    { intros b Hb. destruct (winv_setPred s V PredDNF f b t I D Hb) as [I2 X2]. eapply wp_put; [exact X2|]. apply wp_ret; auto. }
    destruct t; try (apply wp_ret; auto; fail).
    + apply wp_get. apply G. rewrite (testTerm_ok s f (TAnd ts)); auto. apply I.
    + apply wp_get. apply G. pose proof (or_inner s f ts (v_wf _ _ I) D) as Hi.
      pose proof (opNary_or s f ts (v_wf _ _ I) D) as HF. simpl. clear -HF Hi I. induction HF; simpl in *; auto.
      apply andb_true_iff in Hi. destruct Hi as [Hi1 Hi2]. rewrite IHHF; auto. f_equal. rewrite (testTerm_ok s x y); auto; [|apply I].
      destruct y; auto; discriminate.
    + destruct cc; apply wp_ret; auto.
Qed.

Lemma isAIG_ok : forall t s V f, winv s V -> Den s f t -> wp (fun n => isAIG n f) s V (fun b s' V' => b = is_aig t).
Proof.
  induction t using tree_ind'; intros s V f I Hd; apply wp_S; cbn [isAIG]; apply wp_get; unfold lookupPred;
  (destruct (predC s PredAIG f) as [b|] eqn:E;
   [destruct (k_pred _ _ (v_cache _ _ I) _ _ _ E) as (t' & Ht & ->); apply wp_ret; auto; simpl; rewrite (Den_fun _ _ _ _ Ht Hd); reflexivity|]);
  rewrite (Den_sort _ _ _ Hd).
  all: match goal with |- wp (fun n => bind _ (fun b0 => bind (put (setPred PredAIG ?f b0)) _)) ?s ?V (fun b s' V' => b = is_aig ?t) =>
    assert (Fin : forall s' V' b, winv s' V' -> wext s V s' V' -> b = is_aig t -> wp (fun _ : nat => bind (put (setPred PredAIG f b)) (fun _ => ret b)) s' V' (fun b _ _ => b = is_aig t));
    [intros s' V' b I' X' Hb; destruct (winv_setPred s' V' PredAIG f b t I' (wext_Den _ _ _ _ _ _ X' Hd) Hb) as [I2 X2]; eapply wp_put; [exact X2|]; apply wp_ret; auto|] end.
  all: try (apply wp_bret; apply (Fin s V); auto using wext_refl; fail).
  - eapply wp_bind; [apply wp_get; apply (IHt s V (opNot f s)); auto; apply opNot_den; auto; apply I|].
    intros b s1 V1 I1 X1 Hb; apply Fin; auto.
  - eapply wp_bind; [apply wp_get|intros b s1 V1 I1 X1 Hb; apply Fin; auto; exact Hb].
    apply (allM_ok isAIG is_aig _ ts s V Den); auto.
    + intros s1 V1 s2 V2 X a c HD. eapply wext_Den; eauto.
    + intros a c Ha Hc s' V' I' HD. rewrite Forall_forall in H. apply (H c Hc); auto.
    + apply (Operands_den s f (TAnd ts)); auto. apply I.
  - destruct k; apply wp_bret; apply (Fin s V); auto using wext_refl.
Qed.

(** ** Numbers *)
Definition numPost (val : tree -> Z) (t : tree) (z : Z) (s' : state) (V' : asg -> Prop) : Prop := z = val t.
Lemma cache_num k (val : tree -> Z) t s V f (m : nat -> M Z) :
  (forall s t v, fspec s k t v <-> v = VNum (val t)) -> winv s V -> Den s f t ->
  wp m s V (numPost val t) ->
  wp (fun n => c <- get (lookupFunc k f) ;;
     match c with
     | Some (VNum z) => ret z
     | Some (VSet _) => fail
     | None => z <- m n ;; _ <- put (setFunc k f (VNum z)) ;; ret z
     end) s V (numPost val t).
Proof.
  intros Hk I D Hm. apply wp_get. unfold lookupFunc. destruct (funcC s k f) as [v|] eqn:E.
  - destruct (k_func _ _ (v_cache _ _ I) _ _ _ E) as (t' & Ht & Hs). rewrite (Den_fun _ _ _ _ Ht D) in Hs.
    apply Hk in Hs. subst v. apply wp_ret; auto. reflexivity.
  - eapply wp_bind; [exact Hm|]. intros z s1 V1 I1 X1 Hz.
    destruct (winv_setFunc s1 V1 k f (VNum z) t I1 (wext_Den _ _ _ _ _ _ X1 D)) as [I2 X2]; [apply Hk; congruence|].
    eapply wp_put; [exact X2|]. apply wp_ret; auto.
Qed.
Lemma num_ops (val : tree -> Z) (h : nat -> formula -> M Z) t s V f :
  Forall (fun t => forall s V f, winv s V -> Den s f t -> wp (fun n => h n f) s V (numPost val t)) (subtrees t) ->
  winv s V -> Den s f t ->
  wp (fun n => mapM (h n) (Operands f s)) s V (fun zs s' V' => zs = map val (subtrees t)).
Proof.
  intros IH I D. eapply wp_conseq.
  - apply (wp_mapM h Den (fun s V z t => z = val t)) with (cs := subtrees t); auto.
    + intros s1 V1 s2 V2 X a c HD. eapply wext_Den; eauto.
    + intros a c Ha Hc s' V' I' X' HD. rewrite Forall_forall in IH. apply (IH c Hc); auto.
    + apply Operands_den; auto. apply I.
  - intros zs s' V' _ _ HF. clear -HF. induction HF; simpl; subst; auto.
Qed.

Section SubtreeInd.
Variable P : tree -> Prop.
Variable step : forall t, Forall P (subtrees t) -> P t.
Lemma subtree_ind : forall t, P t.
Proof. induction t using tree_ind'; apply step; simpl; auto. Qed.
End SubtreeInd.

Lemma sumZ_sumz l : sumZ l = sumz l. Proof. reflexivity. Qed.
Lemma fold_max l : forall a, (0 <= a)%Z -> fold_left Z.max l a = Z.max a (maxz l).
Proof. induction l; intros b Hb; simpl; [lia|]. rewrite IHl; lia. Qed.

Lemma numberOfAtoms_ok : forall t s V f, winv s V -> Den s f t -> wp (fun n => numberOfAtoms n f) s V (numPost atoms t).
Proof.
  intros t. induction t as [t IH] using subtree_ind. intros s V f I D. apply wp_S. cbn [numberOfAtoms]. apply cache_num; auto.
  { intros s0 t0 [z|l]; simpl; split; try tauto; try congruence. }
  pose proof (num_ops atoms numberOfAtoms t s V f IH I D) as G.
  assert (G2 : forall g, (atoms t = g (map atoms (subtrees t))) ->
     wp (fun n => zs <- mapM (numberOfAtoms n) (Operands f s) ;; ret (g zs)) s V (numPost atoms t)).
  { intros g Hg. eapply wp_bind; [exact G|]. intros zs s1 V1 I1 X1 ->. apply wp_ret; auto. red. auto. }
  rewrite (Den_sort _ _ _ D). destruct t; try (apply wp_ret; auto; reflexivity); try (apply wp_get; apply (G2 sumZ); rewrite sumZ_sumz; unfold sumz; simpl; rewrite ?Z.add_0_r; reflexivity).
  destruct cc; apply wp_ret; auto; reflexivity.
Qed.
Lemma numberOfNodes_ok : forall t s V f, winv s V -> Den s f t -> wp (fun n => numberOfNodes n f) s V (numPost nodes t).
Proof.
  intros t. induction t as [t IH] using subtree_ind. intros s V f I D. apply wp_S. cbn [numberOfNodes]. apply cache_num; auto.
  { intros s0 t0 [z|l]; simpl; split; try tauto; try congruence. }
  pose proof (num_ops nodes numberOfNodes t s V f IH I D) as G.
  assert (G2 : forall g, (nodes t = g (map nodes (subtrees t))) ->
     wp (fun n => zs <- mapM (numberOfNodes n) (Operands f s) ;; ret (g zs)) s V (numPost nodes t)).
  { intros g Hg. eapply wp_bind; [exact G|]. intros zs s1 V1 I1 X1 ->. apply wp_ret; auto. red. auto. }
  rewrite (Den_sort _ _ _ D). destruct t; try (apply wp_ret; auto; reflexivity); try (apply wp_get; apply (G2 (fun zs => 1 + sumZ zs)%Z); cbv beta; rewrite sumZ_sumz; unfold sumz; cbn [subtrees nodes map fold_right]; rewrite ?Z.add_0_r; reflexivity).
  destruct (opPbc_den s f _ _ _ _ _ (v_wf _ _ I) D) as (HF & _). apply Forall2_length in HF.
  destruct cc; apply wp_get; apply wp_ret; auto; red; cbn [nodes]; rewrite HF; reflexivity.
Qed.
Lemma maxz_pos l : (0 <= maxz l)%Z.
Proof. unfold maxz. induction l; cbn [fold_right]; lia. Qed.
Lemma height_pos u : (0 <= height u)%Z.
Proof.
  induction u using tree_ind'; cbn [height]; try lia.
  - pose proof (maxz_pos (map height ts)). lia.
  - pose proof (maxz_pos (map height ts)). lia.
Qed.
Lemma depth_ok : forall t s V f, winv s V -> Den s f t -> wp (fun n => depth n f) s V (numPost height t).
Proof.
  intros t. induction t as [t IH] using subtree_ind. intros s V f I D. apply wp_S. cbn [depth]. apply cache_num; auto.
  { intros s0 t0 [z|l]; simpl; split; try tauto; try congruence. }
  pose proof (num_ops height depth t s V f IH I D) as G.
  assert (G2 : forall g, (height t = g (map height (subtrees t))) ->
     wp (fun n => zs <- mapM (depth n) (Operands f s) ;; ret (g zs)) s V (numPost height t)).
  { intros g Hg. eapply wp_bind; [exact G|]. intros zs s1 V1 I1 X1 ->. apply wp_ret; auto. red. auto. }
  assert (Hp : forall u, (0 <= height u)%Z) by apply height_pos.
  assert (Hm : forall us, (0 <= maxz (map height us))%Z) by (intros; apply maxz_pos).
  rewrite (Den_sort _ _ _ D). destruct t; try (apply wp_ret; auto; reflexivity);
    try (apply wp_get; apply (G2 (fun zs => fold_left Z.max zs 0 + 1)%Z); cbv beta; rewrite fold_max by lia; unfold maxz; cbn [subtrees height map fold_right];
         repeat match goal with |- context [height ?u] => lazymatch goal with K : (0 <= height u)%Z |- _ => fail | _ => pose proof (Hp u) end end; try lia).
  - specialize (Hm ts). unfold maxz in *. lia.
  - specialize (Hm ts). unfold maxz in *. lia.
  - destruct cc; apply wp_ret; auto; reflexivity.
Qed.

(** ** Sets *)
Section Sets.
Context {A : Type} (R : formula -> A -> Prop).
Hypothesis Rinj : forall f g a, R f a -> R g a -> f = g.
Hypothesis Rfun : forall f a b, R f a -> R f b -> a = b.
Lemma memF_in l : forall al f a, Forall2 R l al -> R f a -> memF f l = true <-> In a al.
Proof.
  intros al f a HF Hf. unfold memF. rewrite existsb_exists. split.
  - intros (g & Hg & E). destruct (feqb_spec f g); [subst|discriminate].
    clear E. induction HF; [contradiction|]. destruct Hg as [->|Hg]; simpl; eauto.
  - intros Hi. induction HF; [contradiction|]. destruct Hi as [->|Hi].
    + exists x. split; [left; auto|]. rewrite (Rinj f x a); auto. apply feqb_refl.
    + destruct (IHHF Hi) as (g & Hg & E). exists g. split; [right; auto|auto].
Qed.
Lemma addSet_ok l al f a : Forall2 R l al -> NoDup al -> R f a ->
  exists al', Forall2 R (addSet l f) al' /\ NoDup al' /\ (forall x, In x al' <-> In x al \/ x = a) /\ (al' = al /\ In a al \/ al' = al ++ [a] /\ ~ In a al).
Proof.
  intros HF Hn Hf. unfold addSet. destruct (memF f l) eqn:E.
  - apply (memF_in l al f a) in E; auto. exists al. split; auto. split; auto. split; [|auto]. intros x. split; auto. intros [H| ->]; auto.
  - assert (Hi : ~ In a al). { intros Hi. apply (memF_in l al f a) in Hi; auto. congruence. }
    exists (al ++ [a]). split; [apply Forall2_app; auto|]. split.
    + clear HF. induction Hn; simpl; [repeat constructor; auto|]. constructor.
      * rewrite in_app_iff. simpl. intros [H1|[->|[]]]; auto. apply Hi; left; auto.
      * apply IHHn. intros H1. apply Hi. right; auto.
    + split; [|auto]. intros x. rewrite in_app_iff. simpl. intuition congruence.
Qed.
Lemma addAll_ok m : forall am l al, Forall2 R l al -> NoDup al -> Forall2 R m am ->
  exists al', Forall2 R (addAll l m) al' /\ NoDup al' /\ (forall x, In x al' <-> In x al \/ In x am).
Proof.
  unfold addAll. induction m as [|f m IH]; intros am l al HF Hn HM; inversion HM; subst; simpl.
  - exists al. intuition.
  - destruct (addSet_ok l al f y HF Hn H1) as (al1 & F1 & N1 & E1 & _). destruct (IH l' _ al1 F1 N1 H3) as (al2 & F2 & N2 & E2).
    exists al2. split; auto. split; auto. intros x. rewrite E2, E1. intuition.
Qed.
End Sets.

(** *** Variables and literals *)
Definition setPost (k : fusort) (t : tree) (l : list formula) (s' : state) (V' : asg -> Prop) : Prop := fspec s' k t (VSet l).
Lemma setPost_ext k t l s V s' V' : wext s V s' V' -> setPost k t l s V -> setPost k t l s' V'.
Proof. intros X. apply fspec_ext. apply X. Qed.
Lemma cache_set k t s V f (m : nat -> M (list formula)) :
  (forall s t z, ~ fspec s k t (VNum z)) -> winv s V -> Den s f t ->
  wp m s V (setPost k t) ->
  wp (fun n => c <- get (lookupFunc k f) ;;
     match c with
     | Some (VSet l) => ret l
     | Some (VNum _) => fail
     | None => z <- m n ;; _ <- put (setFunc k f (VSet z)) ;; ret z
     end) s V (setPost k t).
Proof.
  intros Hk I D Hm. apply wp_get. unfold lookupFunc. destruct (funcC s k f) as [v|] eqn:E.
  - destruct (k_func _ _ (v_cache _ _ I) _ _ _ E) as (t' & Ht & Hs). rewrite (Den_fun _ _ _ _ Ht D) in Hs.
    destruct v as [l|z]; [|destruct (Hk _ _ _ Hs)]. apply wp_ret; auto.
  - eapply wp_bind; [exact Hm|]. intros z s1 V1 I1 X1 Hz.
    destruct (winv_setFunc s1 V1 k f (VSet z) t I1 (wext_Den _ _ _ _ _ _ X1 D) Hz) as [I2 X2].
    eapply wp_put; [exact X2|]. apply wp_ret; auto. eapply setPost_ext; eauto.
Qed.

Definition kAtoms (lits : bool) : fusort := if lits then FuncLiterals else FuncVariables.
(** the atoms in one notation: literals, or variables as positive literals *)
Definition atomIn (lits : bool) (t : tree) (l : lit) : Prop := if lits then lit_occurs l t else snd l = true /\ occurs (fst l) t.
Definition atomsOf (s : state) (lits : bool) (t : tree) (l : list formula) : Prop :=
  exists ns, Forall2 (litDen s) l ns /\ NoDup ns /\ forall n, In n ns <-> atomIn lits t n.
Lemma atomsOf_spec s lits t l : atomsOf s lits t l <-> fspec s (kAtoms lits) t (VSet l).
Proof.
  unfold atomsOf. destruct lits; simpl; [tauto|]. split.
  - intros (ns & HF & Hn & Hi).
    assert (Hp : forall n, In n ns -> snd n = true) by (intros n Hn'; apply Hi in Hn'; tauto).
    exists (map fst ns). split; [|split].
    + clear Hn Hi. induction HF; simpl; constructor; auto.
      * destruct y as [x' p]. specialize (Hp (x', p) (or_introl eq_refl)). simpl in *. subst. auto.
      * apply IHHF. intros; apply Hp; simpl; auto.
    + clear HF Hi. induction Hn; simpl; constructor.
      * rewrite in_map_iff. intros ([y q] & Hy & Hin). apply H. destruct x as [z p]. simpl in Hy. subst y.
        pose proof (Hp _ (or_introl eq_refl)). pose proof (Hp _ (or_intror Hin)). simpl in *. subst. auto.
      * apply IHHn. intros; apply Hp; simpl; auto.
    + intros x. rewrite in_map_iff. split.
      * intros ([y q] & <- & Hin). apply Hi in Hin. tauto.
      * intros Hx. exists (x, true). split; auto. apply Hi. simpl. auto.
  - intros (xs & HF & Hn & Hi). exists (map (fun x => (x, true)) xs). split; [|split].
    + clear -HF. induction HF; simpl; constructor; auto.
    + apply FinFun.Injective_map_NoDup; auto. intros a b Hab. congruence.
    + intros [x p]. rewrite in_map_iff. simpl. split.
      * intros (y & Hy & Hin). inversion Hy; subst. split; auto. apply Hi; auto.
      * intros [-> Hx]. exists x. split; auto. apply Hi; auto.
Qed.

Lemma litDen_inj s : wf s -> forall f g n, litDen s f n -> litDen s g n -> f = g.
Proof. intros [W T] f g n. unfold litDen. apply (w_uniq s W). Qed.
Lemma litDen_fun s : forall f n m, litDen s f n -> litDen s f m -> n = m.
Proof. intros f n m H1 H2. apply litDen_Den in H1, H2. pose proof (Den_fun _ _ _ _ H1 H2). congruence. Qed.
Lemma lit_occurs_list l ts : (fix go (r : list tree) : Prop := match r with [] => False | t :: r => lit_occurs l t \/ go r end) ts
  <-> exists t, In t ts /\ lit_occurs l t.
Proof.
  induction ts; simpl; [split; [tauto|intros (t & [] & _)]|]. rewrite IHts. split.
  - intros [H|(t & H & H')]; eauto.
  - intros (t & [->|H] & H'); eauto.
Qed.
Lemma atomIn_nary lits t ts l : t = TAnd ts \/ t = TOr ts -> (atomIn lits t l <-> exists u, In u ts /\ atomIn lits u l).
Proof.
  intros Ht. destruct lits; cbn [atomIn].
  - destruct Ht as [-> | ->]; apply lit_occurs_list.
  - assert (E : occurs (fst l) t <-> exists u, In u ts /\ occurs (fst l) u) by (destruct Ht as [-> | ->]; [apply occurs_and|apply occurs_or]).
    rewrite E. split; [intros (H & u & H1 & H2)|intros (u & H1 & H & H2)]; eauto 6.
Qed.
Lemma atomIn_bin lits t a b l : t = TImpl a b \/ t = TEquiv a b -> (atomIn lits t l <-> atomIn lits a l \/ atomIn lits b l).
Proof. intros [-> | ->]; destruct lits; simpl; tauto. Qed.

Definition RA (lits : bool) (t : tree) : Prop := forall s V f, winv s V -> Den s f t -> wp (fun n => atomSet lits n f) s V (setPost (kAtoms lits) t).
Lemma atomSet_ok lits : forall t s V f, winv s V -> Den s f t -> wp (fun n => atomSet lits n f) s V (setPost (kAtoms lits) t).
Proof.
  intros t. induction t as [t IH] using subtree_ind. intros s V f I D. apply wp_S. cbn [atomSet]. fold (kAtoms lits).
  apply cache_set; auto. { intros s0 t0 z. destruct lits; simpl; tauto. }
  assert (Conv : forall s' g n, wf s' -> litDen s' g n -> litDen s' (if lits then g else litVariable g) (if lits then n else (fst n, true))).
  { intros s' g [x p] Hw Hg. destruct lits; auto. eapply litVariable_den; eauto. }
  assert (Post : forall l s' V', atomsOf s' lits t l -> setPost (kAtoms lits) t l s' V') by (intros; apply atomsOf_spec; auto).
  assert (Post' : forall u l s' V', setPost (kAtoms lits) u l s' V' -> atomsOf s' lits u l) by (intros; apply atomsOf_spec; auto).
  pose proof (v_wf _ _ I) as Hw.
  assert (Nary : forall t' ts ops, t' = t -> (t' = TAnd ts \/ t' = TOr ts) -> Forall2 (Den s) ops ts ->
    wp (fun n => ls <- mapM (atomSet lits n) ops ;; ret (fold_left addAll ls [])) s V (setPost (kAtoms lits) t)).
  { intros t' ts ops <- Ht HO. eapply wp_bind.
    + apply (wp_mapM (fun n g => atomSet lits n g) Den (fun s V l t => setPost (kAtoms lits) t l s V)) with (cs := ts).
      * intros s1 V1 s2 V2 X a c HD. eapply wext_Den; eauto.
      * intros s1 V1 s2 V2 X a c HD. eapply setPost_ext; eauto.
      * intros a c Ha Hc s' V' I' X' HD. assert (IH' : Forall (fun t => forall s V f, winv s V -> Den s f t -> wp (fun n => atomSet lits n f) s V (setPost (kAtoms lits) t)) ts)
          by (destruct Ht as [-> | ->]; exact IH). rewrite Forall_forall in IH'. apply IH'; auto.
      * auto.
      * auto.
    + intros ls s1 V1 I1 X1 HF. apply wp_ret; auto. apply Post.
      assert (G : forall ls ts acc al, Forall2 (fun l t => setPost (kAtoms lits) t l s1 V1) ls ts -> Forall2 (litDen s1) acc al -> NoDup al ->
        exists al', Forall2 (litDen s1) (fold_left addAll ls acc) al' /\ NoDup al' /\ forall n, In n al' <-> In n al \/ exists u, In u ts /\ atomIn lits u n).
      { clear -I1 Post'. induction ls as [|l ls IH]; intros ts acc al HF Ha Hn; inversion HF; subst; simpl.
        - exists al. split; auto. split; auto. intros n. split; auto. intros [H|(u & [] & _)]; auto.
        - apply Post' in H1. destruct H1 as (ns & HF1 & Hn1 & Hi1).
          destruct (addAll_ok (litDen s1) (litDen_inj s1 (v_wf _ _ I1)) (litDen_fun s1) l ns acc al Ha Hn HF1) as (al1 & F1 & N1 & E1).
          destruct (IH l' _ al1 H3 F1 N1) as (al2 & F2 & N2 & E2). exists al2. split; auto. split; auto. intros n. rewrite E2, E1, Hi1. split.
          + intros [[H|H]|(u & Hu & H)]; eauto.
          + intros [H|(u & [->|Hu] & H)]; eauto. }
      destruct (G ls ts [] [] HF (Forall2_nil _) (NoDup_nil _)) as (al & F1 & N1 & E1). exists al. split; auto. split; auto.
      intros n. rewrite E1, (atomIn_nary lits t' ts n Ht). simpl. tauto. }
  assert (Bin : forall t' a b q, t' = t -> (t' = TImpl a b \/ t' = TEquiv a b) -> Den s (fst q) a /\ Den s (snd q) b ->
    wp (fun n => l <- atomSet lits n (fst q) ;; r <- atomSet lits n (snd q) ;; ret (addAll (addAll [] l) r)) s V (setPost (kAtoms lits) t)).
  { intros t' a b q <- Ht [Da Db].
    assert (IHa : RA lits a) by (destruct Ht as [-> | ->]; inversion IH; subst; auto).
    assert (IHb : RA lits b) by (destruct Ht as [-> | ->]; inversion IH as [|? ? H1 H2]; inversion H2; subst; auto).
    eapply wp_bind; [apply (IHa s V (fst q)); auto|]. intros l s1 V1 I1 X1 HP.
    eapply wp_bind; [apply (IHb s1 V1 (snd q)); auto; eapply wext_Den; eauto|]. intros r s2 V2 I2 X2 HP2.
    apply (setPost_ext _ _ _ _ _ _ _ X2) in HP. apply Post' in HP. apply Post' in HP2.
    destruct HP as (ns & HF & Hn & Hi), HP2 as (ms & HG & Hm & Hj). apply wp_ret; auto. apply Post.
    destruct (addAll_ok (litDen s2) (litDen_inj s2 (v_wf _ _ I2)) (litDen_fun s2) l ns [] []) as (al & F1 & N1 & E1); auto; [constructor|].
    destruct (addAll_ok (litDen s2) (litDen_inj s2 (v_wf _ _ I2)) (litDen_fun s2) r ms (addAll [] l) al) as (al2 & F2 & N2 & E2); auto.
    exists al2. split; auto. split; auto. intros n. rewrite E2, E1, Hi, Hj, (atomIn_bin lits t' a b n Ht). simpl. tauto. }
  rewrite (Den_sort _ _ _ D). destruct t; cbn [subtrees] in IH.
  - apply wp_ret; auto. apply Post. exists []. split; auto. split; [constructor|]. intros n. destruct lits; simpl; tauto.
  - apply wp_ret; auto. apply Post. exists []. split; auto. split; [constructor|]. intros n. destruct lits; simpl; tauto.
  - apply wp_ret; auto. apply Post. apply Den_litt_inv in D. exists [if lits then l else (fst l, true)]. split; [repeat constructor; auto|].
    split; [repeat constructor; simpl; tauto|]. intros [x p]. destruct lits, l; simpl; intuition congruence.
  - apply wp_get. inversion IH; subst. eapply wp_bind; [apply (H1 s V (opNot f s)); auto; apply opNot_den; auto|].
    intros l s1 V1 I1 X1 HP. apply Post' in HP. destruct HP as (ns & HF & Hn & Hi). apply wp_ret; auto. apply Post.
    destruct (addAll_ok (litDen s1) (litDen_inj s1 (v_wf _ _ I1)) (litDen_fun s1) l ns [] []) as (al & F1 & N1 & E1); auto; [constructor|].
    exists al. split; auto. split; auto. intros n. rewrite E1, Hi. destruct lits; simpl; tauto.
  - apply (Nary (TAnd ts) ts); auto. apply opNary_and; auto.
  - apply (Nary (TOr ts) ts); auto. apply opNary_or; auto.
  - apply (Bin (TImpl t1 t2) t1 t2); auto. apply opBin_impl; auto.
  - apply (Bin (TEquiv t1 t2) t1 t2); auto. apply opBin_equiv; auto.
  - assert (G : wp (fun _ => p <- get (opPbc f) ;; ret (addAll [] (map (fun l => if lits then l else litVariable l) (p_lits p)))) s V
      (setPost (kAtoms lits) (TPBC cc c rhs ls cs))).
    { apply wp_get. apply wp_ret; auto. apply Post. destruct (opPbc_den s f _ _ _ _ _ Hw D) as (HF & _).
      destruct (addAll_ok (litDen s) (litDen_inj s Hw) (litDen_fun s) (map (fun l => if lits then l else litVariable l) (p_lits (opPbc f s)))
        (map (fun n : lit => if lits then n else (fst n, true)) ls) [] []) as (al & F1 & N1 & E1); auto; [constructor| |].
      - clear -HF Hw Conv. induction HF; simpl; constructor; auto.
      - exists al. split; auto. split; auto. intros [x p]. rewrite E1, in_map_iff. destruct lits; simpl.
        + split; [intros [[]|(y & -> & H)]; auto|intros H; right; exists (x, p); auto].
        + split.
          * intros [[]|([y q] & Hy & H)]. inversion Hy; subst. split; auto. exists q; auto.
          * intros (-> & q & H). right. exists (x, q). auto. }
    destruct cc; exact G.
Qed.

(** *** Sub-nodes *)
Lemma subtree_trans u v w : subtree u v -> subtree v w -> subtree u w.
Proof. intros H1 H2. induction H2; auto. eapply sub_step; eauto. Qed.
Lemma bottomup_app : forall l B t, bottomup B (l ++ [t]) <-> bottomup B l /\ incl (subtrees t) (B ++ l).
Proof.
  induction l as [|x l IH]; intros B t; simpl.
  - rewrite app_nil_r. tauto.
  - rewrite IH, <- app_assoc. simpl. tauto.
Qed.
Lemma bottomup_mono : forall l B B', incl B B' -> bottomup B l -> bottomup B' l.
Proof.
  induction l as [|x l IH]; intros B B' Hi; simpl; auto. intros [H1 H2]. split; [eapply incl_tran; eauto|].
  eapply IH; [|exact H2]. apply incl_app; [apply incl_appl; auto|apply incl_appr, incl_refl].
Qed.
Section SubSets.
Variable s : state.
Hypothesis Hw : wf s.
Let Rinj : forall f g a, Den s f a -> Den s g a -> f = g. Proof. intros f g a H1 H2. eapply Den_inj; eauto. Qed.
Let Rfun : forall f a b, Den s f a -> Den s f b -> a = b. Proof. intros f a b H1 H2. eapply Den_fun; eauto. Qed.
Lemma addAll_sub m : forall am l al, Forall2 (Den s) l al -> NoDup al -> bottomup [] al -> Forall2 (Den s) m am -> bottomup al am ->
  exists al', Forall2 (Den s) (addAll l m) al' /\ NoDup al' /\ bottomup [] al' /\ (forall x, In x al' <-> In x al \/ In x am).
Proof.
  unfold addAll. induction m as [|f m IH]; intros am l al HF Hn Hb HM Hbm; inversion HM; subst; simpl.
  - exists al. intuition.
  - destruct Hbm as [Hi Hbm]. destruct (addSet_ok (Den s) Rinj Rfun l al f y HF Hn H1) as (al1 & F1 & N1 & E1 & C).
    assert (Hb1 : bottomup [] al1). { destruct C as [[-> _]|[-> _]]; auto. apply bottomup_app. auto. }
    destruct (IH l' _ al1 F1 N1 Hb1 H3) as (al2 & F2 & N2 & B2 & E2).
    { eapply bottomup_mono; [|exact Hbm]. intros x Hx. apply E1. apply in_app_iff in Hx. destruct Hx as [Hx|[->|[]]]; auto. }
    exists al2. split; auto. split; auto. split; auto. intros x. rewrite E2, E1. intuition.
Qed.
End SubSets.

Definition subGo (rec : formula -> M (list formula)) : list formula -> list formula -> M (list formula) :=
  fix go (l : list formula) (acc : list formula) : M (list formula) :=
    match l with
    | [] => ret acc
    | op :: r => if memF op acc then go r acc
                 else sub <- rec op ;; go r (addAll acc sub)
    end.
Lemma subNodes_S n f s : subNodes (S n) f s =
  (c <- get (lookupFunc FuncSubnodes f) ;;
   match c with
   | Some (VSet l) => ret l
   | Some (VNum _) => fail
   | None => z <- (ops <- get (Operands f) ;; acc <- subGo (subNodes n) ops [] ;; ret (addSet acc f)) ;;
             _ <- put (setFunc FuncSubnodes f (VSet z)) ;; ret z
   end) s.
Proof.
  cbn [subNodes]. fold (subGo (subNodes n)). unfold bind, get. destruct (lookupFunc FuncSubnodes f s) as [[l|z]|]; auto.
  destruct (subGo (subNodes n) (Operands f s) [] s) as [[a s']|]; reflexivity.
Qed.

Definition accOK (s : state) (acc : list formula) (done : list tree) : Prop :=
  exists al, Forall2 (Den s) acc al /\ NoDup al /\ bottomup [] al /\ forall u, In u al <-> exists v, In v done /\ subtree u v.
Lemma subGo_ok (ts0 : list tree) : forall l ts acc done s V,
  (forall t, In t ts -> forall s V f, winv s V -> Den s f t -> wp (fun n => subNodes n f) s V (setPost FuncSubnodes t)) ->
  winv s V -> Forall2 (Den s) l ts -> accOK s acc done ->
  wp (fun n => subGo (subNodes n) l acc) s V (fun r s' V' => accOK s' r (done ++ ts)).
Proof.
  induction l as [|op l IH]; intros ts acc done s V HR I HF HA; inversion HF; subst; cbn [subGo].
  - apply wp_ret; auto. rewrite app_nil_r. auto.
  - destruct HA as (al & F1 & N1 & B1 & E1).
    destruct (memF op acc) eqn:Em.
    + apply (memF_in (Den s) (fun f g a H1 H2 => Den_inj s (v_wf _ _ I) a f g H1 H2) (fun f a b H1 H2 => Den_fun s a f b H1 H2) acc al op y F1 H1) in Em.
      replace (done ++ y :: l') with ((done ++ [y]) ++ l') by (rewrite <- app_assoc; auto).
      apply (IH l' acc (done ++ [y])); auto. { intros; apply HR; simpl; auto. }
      exists al. split; auto. split; auto. split; auto. intros u. rewrite E1. split.
      * intros (v & Hv & Hs). exists v. split; auto. apply in_app_iff; auto.
      * intros (v & Hv & Hs). apply in_app_iff in Hv. destruct Hv as [Hv|[<-|[]]]; eauto.
        apply E1 in Em. destruct Em as (w & Hw & Hs'). exists w. split; auto. eapply subtree_trans; eauto.
    + eapply wp_bind; [apply (HR y); simpl; auto|]. intros sub s1 V1 I1 X1 (ts1 & F2 & N2 & B2 & E2).
      replace (done ++ y :: l') with ((done ++ [y]) ++ l') by (rewrite <- app_assoc; auto).
      apply (IH l' (addAll acc sub) (done ++ [y])); auto; [intros; apply HR; simpl; auto|eapply wext_Dens; eauto|].
      destruct (addAll_sub s1 (v_wf _ _ I1) sub ts1 acc al) as (al2 & F3 & N3 & B3 & E3); auto.
      * eapply wext_Dens; eauto.
      * eapply bottomup_mono; [|exact B2]. intros x [].
      * exists al2. split; auto. split; auto. split; auto. intros u. rewrite E3, E1, E2. split.
        -- intros [(v & Hv & Hs)|Hs]; [exists v; split; auto; apply in_app_iff; auto|exists y; split; auto; apply in_app_iff; simpl; auto].
        -- intros (v & Hv & Hs). apply in_app_iff in Hv. destruct Hv as [Hv|[<-|[]]]; eauto.
Qed.
Lemma subtree_size u v : subtree u v -> (tsize u <= tsize v)%nat /\ forall t, In v (subtrees t) -> (tsize u < tsize t)%nat.
Proof.
  assert (Hlt : forall v t, In v (subtrees t) -> (tsize v < tsize t)%nat).
  { intros w t. destruct t; simpl; try tauto.
    - intros [<-|[]]. lia.
    - intros H. apply tsize_in in H. lia.
    - intros H. apply tsize_in in H. lia.
    - intros [<-|[<-|[]]]; lia.
    - intros [<-|[<-|[]]]; lia. }
  intros H. assert (Hle : (tsize u <= tsize v)%nat).
  { induction H; auto. specialize (Hlt _ _ H). lia. }
  split; auto. intros t Ht. specialize (Hlt _ _ Ht). lia.
Qed.
Lemma subNodes_ok : forall t s V f, winv s V -> Den s f t -> wp (fun n => subNodes n f) s V (setPost FuncSubnodes t).
Proof.
  intros t. induction t as [t IH] using subtree_ind. intros s V f I D. apply wp_S.
  eapply wp_ext; [intros n; symmetry; apply subNodes_S|]. cbv beta.
  apply cache_set; auto. apply wp_get. eapply wp_bind.
  - apply (subGo_ok [] (Operands f s) (subtrees t) [] []); auto.
    + intros u Hu. rewrite Forall_forall in IH. apply IH; auto.
    + apply Operands_den; auto. apply I.
    + exists []. split; auto. split; [constructor|]. split; simpl; auto. intros u. split; [tauto|intros (v & [] & _)].
  - intros acc s1 V1 I1 X1 (al & F1 & N1 & B1 & E1). apply wp_ret; auto. simpl in E1.
    pose proof (wext_Den _ _ _ _ _ _ X1 D) as D1.
    destruct (addSet_ok (Den s1) (fun f g a H1 H2 => Den_inj s1 (v_wf _ _ I1) a f g H1 H2) (fun f a b H1 H2 => Den_fun s1 a f b H1 H2) acc al f t F1 N1 D1) as (al1 & F2 & N2 & E2 & C).
    exists al1. split; auto. split; auto. split.
    + destruct C as [[-> Hi]|[-> Hi]]; auto. apply bottomup_app. split; auto. intros v Hv. apply E1. exists v. split; auto. constructor.
    + intros u. rewrite E2, E1. split.
      * intros [(v & Hv & Hs)| ->]; [eapply sub_step; eauto|constructor].
      * intros Hs. inversion Hs; subst; auto. left. eauto.
Qed.
