(** * Proofs about the model count of DNNFs on a factory *)
From Coq Require Import String List Bool ZArith NArith Lia Permutation.
From Verif Require Import Spec DnnfSpec DnnfCount Factory FactoryProofs FactoryProofs2 FactoryProofs3 FactoryApi FactoryProps Assign EncPbc NormalForm NfBase NfAssign NfEnc NfNnf NfCnf NfFun Dnnf.
Import ListNotations.
Local Open Scope Z_scope.

Lemma f2len {A B} (R : A -> B -> Prop) l m : Forall2 R l m -> length l = length m.
Proof. induction 1; cbn; auto. Qed.
Lemma variables_size s V t l : setPost FuncVariables t l s V -> sizeOf l = nvars t.
Proof.
  intros (xs & HF & N & Hx). unfold sizeOf, nvars. rewrite (f2len _ _ _ HF). f_equal. apply Permutation_length, NoDup_Permutation; auto using treeVars_nodup.
  intros x. rewrite Hx, treeVars_in. tauto.
Qed.
Definition RC (t : tree) : Prop := is_nnf t = true -> forall s V f, winv s V -> Den s f t -> wp (fun n => dnnfCount n f) s V (numPost dcount t).
Lemma nnf_and ts : is_nnf (TAnd ts) = true -> Forall RC ts -> Forall (fun t => forall s V f, winv s V -> Den s f t -> wp (fun n => dnnfCount n f) s V (numPost dcount t)) ts.
Proof. cbn [is_nnf]. rewrite forallb_forall, !Forall_forall. intros H1 H2 t Ht. apply H2; auto. Qed.

Lemma dnnfCount_ok : forall t, RC t.
Proof.
  intros t. induction t as [t IH] using subtree_ind. intros HN s V f I D. apply wp_S. cbn [dnnfCount]. apply cache_num; auto.
  { intros s0 t0 [z|l]; simpl; split; try tauto; try congruence. }
  rewrite (Den_sort _ _ _ D). destruct t; cbn [is_nnf] in HN; try discriminate HN; try (apply wp_ret; auto; reflexivity).
  - apply wp_get. eapply wp_bind; [apply (num_ops dcount dnnfCount (TAnd ts) s V f (nnf_and ts HN IH) I D)|].
    intros zs s1 V1 I1 X1 ->. apply wp_ret; auto. reflexivity.
  - eapply wp_bind; [apply (atomSet_ok false (TOr ts) s V f I D)|]. intros vs s1 V1 I1 X1 Hvs. apply variables_size in Hvs. rewrite Hvs.
    apply wp_get. eapply wp_bind.
    + apply (wp_mapM (fun n op => c <- dnnfCount n op ;; ws <- variables n op ;; ret (c * 2 ^ (nvars (TOr ts) - sizeOf ws)))
        Den (fun s V z u => z = dcount u * 2 ^ (nvars (TOr ts) - nvars u))) with (cs := ts); auto.
      * intros s2 V2 s3 V3 X a c HD. eapply wext_Den; eauto.
      * intros a c Ha Hc s2 V2 I2 X2 HD. eapply wp_bind; [cbn [subtrees] in IH; rewrite Forall_forall in IH; apply (IH c Hc); auto; rewrite forallb_forall in HN; auto|].
        intros z s3 V3 I3 X3 Hz. eapply wp_bind; [apply (atomSet_ok false c s3 V3 a I3); eapply wext_Den; eauto|].
        intros ws s4 V4 I4 X4 Hws. apply variables_size in Hws. apply wp_ret; auto. rewrite Hws, Hz. reflexivity.
      * apply (Operands_den s1 f (TOr ts)); [apply I1|eapply wext_Den; eauto].
    + intros zs s2 V2 I2 X2 HF. apply wp_ret; auto. red. change (dcount (TOr ts)) with (fold_right Z.add 0 (map (fun u => dcount u * 2 ^ (nvars (TOr ts) - nvars u)) ts)).
      f_equal. clear -HF. remember (nvars (TOr ts)) as m. clear Heqm. induction HF; cbn [map]; congruence.
Qed.

(** the original variables without those of the formula *)
Lemma filter_count s l ns t vs xs : wf s -> Forall2 (litDen s) vs xs -> (forall n, In n xs <-> atomIn false t n) ->
  Forall2 (fun v x => litDen s v (x, true)) l ns -> 
  sizeOf (filter (fun v => negb (memF v vs)) l) = Z.of_nat (length (filter (fun x => if in_dec string_dec x (treeVars t) then false else true) ns)).
Proof.
  intros W HF Hx HL. unfold sizeOf. f_equal. induction HL as [|v x l ns Hv HL IH]; cbn [filter]; auto.
  assert (E : memF v vs = if in_dec string_dec x (treeVars t) then true else false).
  { pose proof (memF_in (litDen s) (litDen_inj s W) (litDen_fun s) vs xs v (x, true) HF Hv) as M. rewrite Hx in M. cbn [atomIn fst snd] in M. rewrite <- treeVars_in in M.
    destruct (in_dec string_dec x (treeVars t)), (memF v vs); auto; [apply M; auto|exfalso; tauto]. }
  rewrite E. destruct (in_dec string_dec x (treeVars t)); cbn [negb length]; auto.
Qed.
Lemma rest_length xs ys : NoDup xs -> NoDup ys -> incl ys xs ->
  Z.of_nat (length (filter (fun x => if in_dec string_dec x ys then false else true) xs)) = Z.of_nat (length xs) - Z.of_nat (length ys).
Proof.
  intros N N' I. assert (Pm : Permutation xs (filter (fun x => if in_dec string_dec x ys then false else true) xs ++ ys)).
  { apply NoDup_Permutation; auto.
    - apply nodup_app; auto using NoDup_filter. intros x Hx. apply filter_In in Hx as [_ Hx]. destruct (in_dec string_dec x ys); [discriminate|auto].
    - intros x. rewrite in_app_iff, filter_In. split; [intros Hx; destruct (in_dec string_dec x ys); auto|intros [[? _]|?]; auto]. }
  apply Permutation_length in Pm. rewrite app_length in Pm. lia.
Qed.
Definition mcount (t : tree) (xs : list string) : Z :=
  dcount t * 2 ^ Z.of_nat (length (filter (fun x => if in_dec string_dec x (treeVars t) then false else true) xs)).
Lemma modelCount_ok t orig xs s V f : is_nnf t = true -> winv s V -> Den s f t -> Forall2 (fun v x => litDen s v (x, true)) orig xs ->
  wp (fun n => modelCount n f orig) s V (fun z s' V' => z = mcount t xs).
Proof.
  intros HN I D HO. unfold modelCount. apply wp_get. eapply wp_bind with (Q := numPost dcount t).
  - unfold lookupFunc. destruct (funcC s FuncDNNFCount f) as [v|] eqn:E.
    + destruct (k_func _ _ (v_cache _ _ I) _ _ _ E) as (t' & Ht & Hs). rewrite (Den_fun _ _ _ _ Ht D) in Hs.
      destruct v as [l|z]; cbn [fspec] in Hs; [destruct Hs|]. apply wp_ret; auto.
    + apply dnnfCount_ok; auto.
  - intros z s1 V1 I1 X1 Hz. eapply wp_bind; [apply (atomSet_ok false t s1 V1 f I1); eapply wext_Den; eauto|].
    intros vs s2 V2 I2 X2 Hvs. apply atomsOf_spec in Hvs as (ns & HF & _ & Hn). apply wp_ret; auto. unfold mcount.
    rewrite (filter_count s2 orig xs t vs ns); auto; [rewrite Hz; reflexivity|apply I2|].
    clear -HO X1 X2. assert (X : wext s V s2 V2) by (eapply wext_trans; eauto). induction HO; constructor; auto. eapply litDen1_ext; [apply X|auto].
Qed.
Lemma mcount_models t xs : ddnnf t -> NoDup xs -> (forall x, occurs x t -> In x xs) -> mcount t xs = models xs t.
Proof.
  intros D N H. unfold mcount. assert (I : incl (treeVars t) xs) by (intros x Hx; apply H, treeVars_in; auto).
  rewrite rest_length, models_sub, dcount_models; auto using treeVars_nodup. unfold nvars. ring.
Qed.
Lemma ddnnf_nnf : forall t, ddnnf t -> is_nnf t = true.
Proof.
  induction t using tree_ind'; intros D; inversion D; subst; auto; cbn [is_nnf]; apply forallb_forall; intros x Hx; rewrite Forall_forall in *; auto.
Qed.
