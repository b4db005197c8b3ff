(** * Formulas read off a BDD: CNF, DNF, ToFormula *)
From Coq Require Import String List Bool ZArith NArith Lia.
From Verif Require Import Spec Factory FactoryProofs FactoryProofs2 FactoryProofs3 FactoryApi FactoryProps Assign NormalForm NfBase NfAssign NfEnc NfNnf NfCnf
  Bdd BddApi BddQuery BddTable BddNode BddSem BddQuant BddKernel BddHandles BddCompile BddCanon BddOps BddHist BddPaths.
Import ListNotations.
Local Open Scope Z_scope.

(** ** Runs that change the factory and the kernel *)
Definition cvp {A} (m : C A) (s : state) (V : asg -> Prop) (k : kernel) (Q : A -> state -> (asg -> Prop) -> kernel -> Prop) : Prop :=
  cwp m (fun a s' k' => exists V', winv s' V' /\ wext s V s' V' /\ Q a s' V' k') s k.
Lemma cvp_ret {A} (a : A) s V k (Q : A -> state -> (asg -> Prop) -> kernel -> Prop) : winv s V -> Q a s V k -> cvp (cret a) s V k Q.
Proof. intros I H. apply cwp_ret. exists V. split; auto. split; auto using wext_refl. Qed.
Lemma cvp_bind {A B} (m : C A) (f : A -> C B) s V k P (Q : B -> state -> (asg -> Prop) -> kernel -> Prop) : cvp m s V k P ->
  (forall a s' V' k', winv s' V' -> wext s V s' V' -> P a s' V' k' -> cvp (f a) s' V' k' Q) -> cvp (cbind m f) s V k Q.
Proof.
  intros H1 H2. eapply cwp_bind'; [exact H1|]. intros a s' k' (V' & I & X & HP). eapply cwp_conseq; [apply (H2 a s' V' k' I X HP)|]. intros b s2 k2 (V2 & I2 & X2 & HQ).
  exists V2. split; auto. split; auto. eapply wext_trans; eauto.
Qed.
Lemma cvp_conseq {A} (m : C A) s V k (P Q : A -> state -> (asg -> Prop) -> kernel -> Prop) : cvp m s V k P ->
  (forall a s' V' k', winv s' V' -> wext s V s' V' -> P a s' V' k' -> Q a s' V' k') -> cvp m s V k Q.
Proof. intros H1 H2. eapply cwp_conseq; [exact H1|]. intros a s' k' (V' & I & X & HP). exists V'. auto. Qed.
Lemma cvp_onM {A} (m : M A) s V k (Q : A -> state -> (asg -> Prop) -> kernel -> Prop) : wp (fun _ => m) s V (fun a s' V' => Q a s' V' k) -> cvp (onM m) s V k Q.
Proof. intros (n0 & a & s' & V' & H & I & X & HQ). unfold cvp, cwp, onM. rewrite (H n0 (le_n _)). exists V'. auto. Qed.
Lemma cvp_onK {A} (m : K A) s V k (Q : A -> state -> (asg -> Prop) -> kernel -> Prop) : winv s V -> kwp m (fun a k' => Q a s V k') k -> cvp (onK m) s V k Q.
Proof. intros I H. apply cwp_onK. eapply kwp_conseq; [exact H|]. intros a k' HQ. exists V. split; auto. split; auto using wext_refl. Qed.
Lemma cvp_bindK {A B} (m : K A) (f : A -> C B) s V k P (Q : B -> state -> (asg -> Prop) -> kernel -> Prop) : winv s V -> kwp m P k ->
  (forall a k', P a k' -> cvp (f a) s V k' Q) -> cvp (cbind (onK m) f) s V k Q.
Proof. intros I H1 H2. apply (cvp_bind (onK m) f s V k (fun a s' V' k' => s' = s /\ V' = V /\ P a k')); [apply cvp_onK; [exact I|]|]. { eapply kwp_conseq; [exact H1|]. auto. } intros a s' V' k' _ _ (-> & -> & HP). auto. Qed.
Lemma cvp_bindM {A B} (m : M A) (f : A -> C B) s V k P (Q : B -> state -> (asg -> Prop) -> kernel -> Prop) : wp (fun _ => m) s V P ->
  (forall a s' V', winv s' V' -> wext s V s' V' -> P a s' V' -> cvp (f a) s' V' k Q) -> cvp (cbind (onM m) f) s V k Q.
Proof. intros H1 H2. apply (cvp_bind (onM m) f s V k (fun a s' V' k' => k' = k /\ P a s' V')); [apply cvp_onM|]. { eapply wp_conseq; [exact H1|]. auto. } intros a s' V' k' I X (-> & HP). auto. Qed.

(** ** Evaluation of a term *)
Section Eval.
Variable k : kernel.
Hypothesis K : kinv k.
Variable nm : formula -> string.
Definition nval (a : asg) (l : Z) : bool := lvals k (fun v => a (nm v)) l.
Lemma pathNames_in cnf q : forall cnt i y, (forall j, i <= j < i + Z.of_nat cnt -> q j <> 2 -> exists v, getVariableForIndex k j = Some v) ->
  (In y (pathNames k nm cnf q cnt i) <-> exists j v, i <= j < i + Z.of_nat cnt /\ q j <> 2 /\ getVariableForIndex k j = Some v /\ y = (nm v, Bool.eqb (q j =? 0) cnf)).
Proof.
  induction cnt as [|c IH]; intros i y Hq; cbn [pathNames].
  - split; [intros []|]. intros (j & v & Hj & _). lia.
  - destruct (Z.eqb_spec (q i) 2) as [E|E].
    + rewrite IH by (intros j Hj; apply Hq; lia). split; intros (j & v & Hj & Nj & R); exists j, v; (split; [|auto]); [lia|]. assert (j <> i) by congruence. lia.
    + destruct (Hq i) as [v Ev]; [lia|auto|]. rewrite Ev. cbn [In]. rewrite IH by (intros j Hj; apply Hq; lia). split.
      * intros [<-|(j & w & Hj & R)]; [exists i, v|exists j, w]; (split; [lia|auto]).
      * intros (j & w & Hj & Nj & Ew & ->). destruct (Z.eq_dec j i) as [->|]; [left; rewrite Ev in Ew; inversion Ew; auto|]. right. exists j, w. split; [lia|auto].
Qed.
Lemma nval_var a j v : 0 <= j < varnum k -> getVariableForIndex k j = Some v -> nval a (var2level k j) = a (nm v).
Proof.
  intros Hj Ev. unfold nval, lvals. destruct (ki_perm _ K j Hj) as [_ ->]. unfold getVariableForIndex in Ev. destruct (j <? 0); [discriminate|]. rewrite Ev. auto.
Qed.
Definition represents (ph : list (Z * bool)) (q : Z -> Z) : Prop := forall i, 0 <= i < varnum k -> q i = code ph (var2level k i).
Lemma code_range ph l : code ph l = 0 \/ code ph l = 1 \/ code ph l = 2.
Proof. unfold code. destruct (assoc l ph) as [[]|]; auto. Qed.
Lemma onpath_prof v t m ph q x : robt t m -> (forall l, In l (lvls t) -> 0 <= l < varnum k) -> In ph (tpaths v t) -> represents ph q ->
  (forall l c, In (l, c) ph -> In l (lvls t)) ->
  (onpath x ph <-> forall j, 0 <= j < varnum k -> q j <> 2 -> x (var2level k j) = (q j =? 1)).
Proof.
  intros B Hl I Rp Hc. rewrite (onpath_code v t m ph x B I). split.
  - intros H j Hj. rewrite (Rp j Hj). apply H.
  - intros H l Nl. assert (exists c, In (l, c) ph) as [c Ic]. { unfold code in Nl. destruct (assoc l ph) as [c|] eqn:E; [|congruence]. exists c. apply assoc_in; auto. }
    destruct (ki_perm' _ K l (Hl l (Hc l c Ic))) as [P1 P2]. specialize (H _ P1). rewrite (Rp _ P1), P2 in H. auto.
Qed.
Lemma eval_lits_and a ns : eval a (TAnd (map TLit ns)) = true <-> forall y, In y ns -> a (fst y) = snd y.
Proof.
  cbn. rewrite forallb_forall. setoid_rewrite in_map_iff. split.
  - intros H y Hy. specialize (H (TLit y) (ex_intro _ y (conj eq_refl Hy))). destruct y as [x []]; cbn in *; auto. destruct (a x); auto; discriminate.
  - intros H u (y & <- & Hy). specialize (H y Hy). destruct y as [x []]; cbn in *; rewrite H; auto.
Qed.
Lemma eval_lits_or a ns : eval a (TOr (map TLit ns)) = false <-> forall y, In y ns -> a (fst y) = negb (snd y).
Proof.
  cbn. rewrite <- not_true_iff_false, existsb_exists. setoid_rewrite in_map_iff. split.
  - intros H y Hy. destruct (Bool.bool_dec (a (fst y)) (negb (snd y))) as [|N]; auto. elim H. exists (TLit y). split; [exists y; auto|]. destruct y as [x []]; cbn in *; destruct (a x); auto; elim N; auto.
  - intros H (u & (y & <- & Hy) & E). specialize (H y Hy). destruct y as [x []]; cbn in *; rewrite H in E; discriminate.
Qed.
Lemma termTree_eval cnf v t m ph q a : robt t m -> (forall l, In l (lvls t) -> 0 <= l < varnum k) -> In ph (tpaths v t) -> represents ph q -> (forall l c, In (l, c) ph -> In l (lvls t)) ->
  (forall j, 0 <= j < varnum k -> q j <> 2 -> exists v, getVariableForIndex k j = Some v) ->
  (onpath (nval a) ph <-> eval a (termTree k nm cnf q) = negb cnf).
Proof.
  intros B Hl I Rp Hc Hq. rewrite (onpath_prof v t m ph q); auto. unfold termTree.
  assert (Hv : 0 <= varnum k) by (pose proof (c_vn _ _ (o_core _ _ (ki_op _ K))); lia).
  assert (Q01 : forall j, 0 <= j < varnum k -> q j <> 2 -> q j = 0 \/ q j = 1).
  { intros j Hj. rewrite (Rp j Hj). pose proof (code_range ph (var2level k j)). tauto. }
  assert (PN : forall y, In y (pathNames k nm cnf q (Z.to_nat (varnum k)) 0) <-> exists j v, 0 <= j < varnum k /\ q j <> 2 /\ getVariableForIndex k j = Some v /\ y = (nm v, Bool.eqb (q j =? 0) cnf)).
  { intros y. rewrite pathNames_in; [rewrite Z2Nat.id by lia; tauto|]. intros j Hj. apply Hq. lia. }
  destruct cnf; cbn [negb dualOf mk].
  - rewrite eval_lits_or. split.
    + intros H y Hy. apply PN in Hy as (j & w & Hj & Nj & Ew & ->). cbn [fst snd]. rewrite <- (nval_var a j w Hj Ew), H by auto. destruct (Q01 j Hj Nj) as [-> | ->]; auto.
    + intros H j Hj Nj. destruct (Hq j Hj Nj) as [w Ew]. rewrite (nval_var a j w Hj Ew). assert (E : a (nm w) = negb (Bool.eqb (q j =? 0) true)) by (apply (H (nm w, _)); apply PN; exists j, w; auto). rewrite E. clear E. destruct (Q01 j Hj Nj) as [-> | ->]; auto.
  - rewrite eval_lits_and. split.
    + intros H y Hy. apply PN in Hy as (j & w & Hj & Nj & Ew & ->). cbn [fst snd]. rewrite <- (nval_var a j w Hj Ew), H by auto. destruct (Q01 j Hj Nj) as [-> | ->]; auto.
    + intros H j Hj Nj. destruct (Hq j Hj Nj) as [w Ew]. rewrite (nval_var a j w Hj Ew). assert (E : a (nm w) = (Bool.eqb (q j =? 0) false)) by (apply (H (nm w, _)); apply PN; exists j, w; auto). rewrite E. clear E. destruct (Q01 j Hj Nj) as [-> | ->]; auto.
Qed.
Lemma tpaths_lvls v : forall t ph l c, In ph (tpaths v t) -> In (l, c) ph -> In l (lvls t).
Proof.
  induction t as [w|l0 a IHa b IHb]; cbn; intros ph l c I H.
  - destruct (Bool.eqb w v); [destruct I as [<-|[]]; destruct H|destruct I].
  - apply in_app_or in I as [I|I]; apply in_map_iff in I as (ph' & <- & I); (destruct H as [E|H]; [inversion E; auto|]); right; apply in_or_app; [left|right]; eauto.
Qed.
End Eval.

(** ** Normal forms *)
Lemma tgtOf_if (cnf : bool) : (if cnf then 0 else 1) = tgtOf (negb cnf). Proof. destruct cnf; auto. Qed.
Lemma naryOp_if (cnf : bool) ts : up (if cnf then And ts else Or ts) = naryOp (dualOf cnf) ts. Proof. destruct cnf; reflexivity. Qed.
Lemma bddNormalform_ok cnf s V k n p nm : winv s V -> kinv k -> named k nm s -> Denotes k n p ->
  cvp (bddNormalform cnf n) s V k (fun f s' V' k' => k' = with_refstack [] k /\ exists u, Den s' f u /\ (forall a, eval a u = p (fun v => a (nm v))) /\ is_kf (dualOf cnf) u = true).
Proof.
  intros I K N D. pose proof D as (t & R & S). pose proof (o_core _ _ (ki_op _ K)) as C. pose proof (Rep_robt _ _ C _ _ R) as B.
  unfold bddNormalform. rewrite tgtOf_if. eapply cvp_bindK; [exact I|apply (allPaths_ok (negb cnf) k n t K R)|]. intros ps k1 (-> & HF).
  apply cvp_bindK with (P := fun a k2 => a = with_refstack [] k /\ k2 = with_refstack [] k); [exact I|apply kwp_get; auto|]. intros a0 k2 (-> & ->).
  set (k1 := with_refstack [] k). assert (K1 : kinv k1) by (apply kinv_stack; auto).
  assert (N1 : named k1 nm s) by exact N.
  assert (Hlv : forall l, In l (lvls t) -> 0 <= l < varnum k) by apply (Rep_lvls _ _ C _ _ R).
  assert (Hq : forall ph q, In ph (tpaths (negb cnf) t) -> represents k ph q -> forall j, 0 <= j < varnum k -> q j <> 2 -> exists v, getVariableForIndex k j = Some v).
  { intros ph q Ip Rp j Hj Nj. rewrite (Rp j Hj) in Nj. unfold code in Nj. destruct (assoc (var2level k j) ph) as [c|] eqn:E; [|congruence]. apply assoc_in in E.
    destruct (Denotes_lvls k n p t K D R (var2level k j)) as [v Ev]; [eapply tpaths_lvls; eauto|]. destruct (ki_perm _ K j Hj) as [_ P2]. rewrite P2 in Ev. eauto. }
  eapply cvp_bindM.
  { apply (wp_mapM (fun _ => pathTerm k1 cnf) (fun s q ph => In ph (tpaths (negb cnf) t) /\ represents k ph q /\ named k1 nm s)
      (fun s V f ph => exists u, Den s f u /\ (forall a, eval a u = negb cnf <-> onpath (nval k nm a) ph) /\ flatK (dualOf cnf) u = true)) with (cs := tpaths (negb cnf) t).
    - intros s1 V1 s2 V2 X q ph (H1 & H2 & H3). split; auto. split; auto. eapply named_ext; eauto.
    - intros s1 V1 s2 V2 X f ph (u & H1 & H2). exists u. split; auto. eapply wext_Den; eauto.
    - intros q ph Iq Ip s1 V1 I1 X1 (_ & Rp & N'). eapply wp_conseq; [apply (pathTerm_ok k1 nm cnf q); auto; apply (Hq ph q Ip Rp)|].
      intros f s2 V2 I2 X2 (u & Du & Eu & Fu). exists u. split; auto. split; auto. intros a. rewrite (Eu a).
      pose proof (termTree_eval k K nm cnf (negb cnf) t _ ph q a B Hlv Ip Rp (fun l c => tpaths_lvls (negb cnf) t ph l c Ip) (Hq ph q Ip Rp)) as T. symmetry. exact T.
    - exact I.
    - clear -HF N1. assert (G : forall ls, incl ls (tpaths (negb cnf) t) -> forall ps, Forall2 (fun ph q => forall i, 0 <= i < varnum k -> q i = code ph (var2level k i)) ls ps ->
        Forall2 (fun q ph => In ph (tpaths (negb cnf) t) /\ represents k ph q /\ named k1 nm s) ps ls).
      { intros ls Il ps' H. induction H; constructor; [split; [apply Il; left; auto|split; auto]|]. apply IHForall2. intros z Hz. apply Il. right; auto. }
      apply G; auto using incl_refl. }
  intros fs s1 V1 I1 X1 HQ. rewrite naryOp_if. apply cvp_onM.
  assert (G : exists us, Forall2 (Den s1) fs us /\ forallb (flatK (dualOf cnf)) us = true /\ forall a, Forall2 (fun u ph => eval a u = negb cnf <-> onpath (nval k nm a) ph) us (tpaths (negb cnf) t)).
  { clear -HQ. induction HQ as [|f ph fs phs (u & H1 & H2 & H3) HQ (us & G1 & G2 & G3)]; [exists []; repeat split; constructor|]. exists (u :: us). split; [constructor; auto|]. split; [cbn; rewrite H3, G2; auto|].
    intros a. constructor; auto. }
  destruct G as (us & G1 & G2 & G3). eapply wp_conseq; [apply (wp_join (dualOf cnf) s1 V1 fs us); auto using dualOf_dual|].
  { clear -G2. induction us; auto. cbn in *. apply andb_true_iff in G2 as [A1 A2]. rewrite IHus by auto. rewrite flatK_kf; auto using dualOf_dual. }
  intros f s2 V2 I2 X2 (-> & u & Du & Ku & Eu & _). split; auto. exists u. split; auto. split; auto. intros a. rewrite (Eu a). rewrite <- (S (nval k nm a)).
  2:{ apply (lvals_agr k (fun v => a (nm v)) K). }
  specialize (G3 a). pose proof (tpaths_sem (negb cnf) t (nval k nm a)) as TS. clear -G3 TS.
  assert (E : (exists u, In u us /\ eval a u = negb cnf) <-> (exists ph, In ph (tpaths (negb cnf) t) /\ onpath (nval k nm a) ph)).
  { clear TS. induction G3 as [|u ph us phs H G3 IH]; [split; intros (x & [] & _)|]. split.
    - intros (x & [<-|Hx] & E); [exists ph; split; [left; auto|tauto]|]. destruct (proj1 IH (ex_intro _ x (conj Hx E))) as (y & Hy & O). exists y. split; [right; auto|auto].
    - intros (x & [<-|Hx] & E); [exists u; split; [left; auto|tauto]|]. destruct (proj2 IH (ex_intro _ x (conj Hx E))) as (y & Hy & O). exists y. split; [right; auto|auto]. }
  rewrite <- E in TS. clear E G3. destruct cnf; cbn [dualOf mk negb eval] in *.
  - destruct (sem t (nval k nm a)).
    + apply forallb_forall. intros x Hx. destruct (eval a x) eqn:Ex; auto. assert (true = false) by (apply TS; eauto). congruence.
    + destruct (proj1 TS eq_refl) as (x & Hx & Ex). apply not_true_iff_false. rewrite forallb_forall. intros H. rewrite (H x Hx) in Ex. discriminate.
  - destruct (sem t (nval k nm a)).
    + apply existsb_exists. destruct (proj1 TS eq_refl) as (x & Hx & Ex). eauto.
    + apply not_true_iff_false. rewrite existsb_exists. intros H. assert (false = true) by (apply TS; auto). discriminate.
Qed.

(** ** ToFormula *)
Section Shannon.
Variable k : kernel.
Hypothesis K : kinv k.
Variable nm : formula -> string.
Let vn := varnum k.
Definition gpost (b : asg -> bool) (f : formula) (s : state) (V : asg -> Prop) (k' : kernel) : Prop := k' = k /\ exists u, Den s f u /\ forall a, eval a u = b a.
Lemma litDen_Den' s f np : litDen s f np -> Den s f (TLit np).
Proof. apply litDen_Den. Qed.
Lemma cvp_and2 s V f g u w (Q : formula -> state -> (asg -> Prop) -> kernel -> Prop) : winv s V -> Den s f u -> Den s g w ->
  (forall r s', winv s' V -> wext s V s' V -> (exists x, Den s' r x /\ forall a, eval a x = eval a u && eval a w) -> Q r s' V k) -> cvp (onM (up (And [f; g]))) s V k Q.
Proof.
  intros I D1 D2 H. apply cvp_onM, wp_up_last. destruct (And [f; g] s) as [r s'] eqn:E. destruct (winv_and s V [f; g] [u; w] r s' I) as (I' & X' & x & Dx & Ex & _); auto.
  eapply wp_up; [exact E|exact X'|]. apply wp_ret; auto. apply H; auto. exists x. split; auto. intros a. rewrite (Ex a). cbn. rewrite andb_true_r. auto.
Qed.
Lemma cvp_or2 s V f g u w (Q : formula -> state -> (asg -> Prop) -> kernel -> Prop) : winv s V -> Den s f u -> Den s g w ->
  (forall r s', winv s' V -> wext s V s' V -> (exists x, Den s' r x /\ forall a, eval a x = eval a u || eval a w) -> Q r s' V k) -> cvp (onM (up (Or [f; g]))) s V k Q.
Proof.
  intros I D1 D2 H. apply cvp_onM, wp_up_last. destruct (Or [f; g] s) as [r s'] eqn:E. destruct (winv_or s V [f; g] [u; w] r s' I) as (I' & X' & x & Dx & Ex & _); auto.
  eapply wp_up; [exact E|exact X'|]. apply wp_ret; auto. apply H; auto. exists x. split; auto. intros a. rewrite (Ex a). cbn. rewrite orb_false_r. auto.
Qed.
Lemma cvp_readK {A B} (f : kernel -> Z -> A) r (g : A -> C B) s V (Q : B -> state -> (asg -> Prop) -> kernel -> Prop) : winv s V -> 0 <= r < nodesize k ->
  cvp (g (f k r)) s V k Q -> cvp (cbind (onK (rd f r)) g) s V k Q.
Proof. intros I Hr H. apply (cvp_bindK (rd f r) g s V k (fun x k' => x = f k r /\ k' = k)); auto; [apply kwp_rd; auto|]. intros x k' (-> & ->). auto. Qed.
Lemma cvp_getsK {A B} (f : kernel -> A) (g : A -> C B) s V (Q : B -> state -> (asg -> Prop) -> kernel -> Prop) : winv s V ->
  cvp (g (f k)) s V k Q -> cvp (cbind (onK (gets f)) g) s V k Q.
Proof. intros I H. apply (cvp_bindK (gets f) g s V k (fun x k' => x = f k /\ k' = k)); auto; [apply kwp_gets; auto|]. intros x k' (-> & ->). auto. Qed.
Lemma cvp_negateVar {B} v x (g : formula -> C B) s V (Q : B -> state -> (asg -> Prop) -> kernel -> Prop) : winv s V -> litDen s v (x, true) ->
  (forall l s', winv s' V -> wext s V s' V -> litDen s' l (x, false) -> cvp (g l) s' V k Q) -> cvp (cbind (onM (up (negateVar v))) g) s V k Q.
Proof.
  intros I D H. apply (cvp_bindM (up (negateVar v)) g s V k (fun l s' V' => V' = V /\ litDen s' l (x, false))).
  - eapply wp_up_last, wp_negateVar; eauto. intros l s' I' X' D'. apply wp_ret; auto.
  - intros l s' V' I' X' (-> & D'). auto.
Qed.
Definition fxor (follow v : bool) : bool := Bool.eqb follow v.
Lemma isRelevant_tree r t follow : Rep k r t -> isRelevant r follow = false -> forall x, fxor follow (sem t x) = false.
Proof.
  intros R H x. unfold isRelevant, isZero, isOne in H. destruct R as [| |n a b L Ra Rb].
  - destruct follow; cbn in *; [auto|discriminate].
  - destruct follow; cbn in *; [discriminate|auto].
  - destruct L as [L _]. destruct (Z.eqb_spec n 0); [lia|]. destruct (Z.eqb_spec n 1); [lia|]. destruct follow; cbn in H; discriminate.
Qed.
Lemma toFormulaRec_ok follow : forall t d r s V, winv s V -> named k nm s -> Rep k r t -> vn - toplev vn t < Z.of_nat d ->
  (forall l, In l (lvls t) -> exists v, getVariableForIndex k (level2var k l) = Some v) ->
  cvp (toFormulaRec d r follow) s V k (gpost (fun a => fxor follow (sem t (nval k nm a)))).
Proof.
  pose proof (o_core _ _ (ki_op _ K)) as C. fold vn in C.
  induction t as [w|l0 a IHa b IHb]; intros d r s V I N R Hd Hl.
  - destruct d as [|d]; [cbn in Hd; lia|]. cbn [toFormulaRec]. assert (Er : r = if w then 1 else 0) by (inversion R; subst; auto). subst r.
    destruct w; cbn; apply cvp_ret; auto; (split; [auto|]); destruct follow; (eexists; split; [constructor; reflexivity|reflexivity]).
  - pose proof R as R0. inversion R0 as [| |n' a' b' L Ra Rb E1 E2]. subst n' a' b'. clear R0. destruct (c_node _ _ C r L) as (N1 & N2 & N3 & N4 & N5 & N6). cbn [toplev] in Hd.
    destruct d as [|d]; [lia|]. cbn [toFormulaRec]. assert (Hr : 0 <= r < nodesize k) by (eapply valid_range; eauto; right; right; auto).
    rewrite (Rep_toplev vn _ _ _ Ra) in N5. rewrite (Rep_toplev vn _ _ _ Rb) in N6.
    unfold isOne, isZero. destruct L as [L _]. destruct (Z.eqb_spec r 1); [lia|]. destruct (Z.eqb_spec r 0); [lia|].
    apply cvp_readK; auto. apply cvp_getsK; auto. apply cvp_readK; auto. apply cvp_readK; auto. rewrite E2 in *. destruct (Hl l0) as [v Ev]; [left; auto|]. rewrite Ev.
    pose proof (N v (getVar_in _ _ _ Ev)) as Dv.
    assert (Nv : forall x, nval k nm x l0 = x (nm v)). { intros x. destruct (ki_perm' _ K l0) as [P1 P2]; [fold vn; lia|]. rewrite <- P2 at 1. apply nval_var; auto. }
    eapply cvp_bind with (P := fun f s' V' k' => gpost (fun x => negb (x (nm v)) && fxor follow (sem a (nval k nm x))) f s' V' k').
    { destruct (isRelevant (lows k r) follow) eqn:Er.
      - eapply cvp_negateVar; eauto. intros nv s1 I1 X1 Dn. eapply cvp_bind; [apply IHa; auto; [eapply named_ext; eauto|lia|intros l Hi; apply Hl; right; apply in_or_app; auto]|].
        intros g s2 V2 k2 I2 X2 (-> & u & Du & Eu). eapply cvp_and2; [exact I2|apply litDen_Den; eapply litDen1_ext; [apply X2|exact Dn]|exact Du|]. intros f s3 I3 X3 (x & Dx & Ex). split; auto. exists x. split; auto.
        intros y. rewrite Ex, Eu. reflexivity.
      - apply cvp_ret; auto. split; auto. exists TFalse. split; [constructor; reflexivity|]. intros x. rewrite (isRelevant_tree _ _ _ Ra Er). rewrite andb_false_r. auto. }
    intros lf s1 V1 k1 I1 X1 (-> & ul & Dl & El).
    eapply cvp_bind with (P := fun f s' V' k' => gpost (fun x => x (nm v) && fxor follow (sem b (nval k nm x))) f s' V' k').
    { destruct (isRelevant (highs k r) follow) eqn:Er.
      - eapply cvp_bind; [apply IHb; auto; [eapply named_ext; eauto|lia|intros l Hi; apply Hl; right; apply in_or_app; auto]|].
        intros g s2 V2 k2 I2 X2 (-> & u & Du & Eu). eapply cvp_and2; [exact I2|apply litDen_Den; eapply litDen1_ext; [apply X2|eapply litDen1_ext; [apply X1|exact Dv]]|exact Du|]. intros f s3 I3 X3 (x & Dx & Ex). split; auto. exists x. split; auto.
        intros y. rewrite Ex, Eu. reflexivity.
      - apply cvp_ret; auto. split; auto. exists TFalse. split; [constructor; reflexivity|]. intros x. rewrite (isRelevant_tree _ _ _ Rb Er). rewrite andb_false_r. auto. }
    intros hf s2 V2 k2 I2 X2 (-> & uh & Dh & Eh). eapply cvp_or2; [exact I2|eapply wext_Den; [exact X2|exact Dl]|exact Dh|]. intros f s3 I3 X3 (x & Dx & Ex). split; auto. exists x. split; auto.
    intros y. rewrite Ex, El, Eh. cbn [sem]. rewrite Nv. destruct (y (nm v)); cbn; auto. rewrite orb_false_r. auto.
Qed.
End Shannon.
Lemma toFormula_ok follow s V k n p nm : winv s V -> kinv k -> named k nm s -> Denotes k n p ->
  cvp (toFormula n follow) s V k (fun f s' V' k' => k' = with_refstack [] k /\ exists u, Den s' f u /\ forall a, eval a u = p (fun v => a (nm v))).
Proof.
  intros I K N D. pose proof D as (t & R & S). pose proof (o_core _ _ (ki_op _ K)) as C. unfold toFormula.
  apply (cvp_bindK initRef _ s V k (fun _ k' => k' = with_refstack [] k)); [auto|unfold initRef; apply kwp_modify; auto|]. intros [] k1 ->.
  set (k1 := with_refstack [] k). assert (K1 : kinv k1) by (apply kinv_stack; auto). assert (R1 : Rep k1 n t) by (revert R; apply Rep_ext; reflexivity).
  apply (cvp_bindK get _ s V k1 (fun x k' => x = k1 /\ k' = k1)); [auto|apply kwp_get; auto|]. intros x k2 (-> & ->).
  eapply cvp_bind; [apply (toFormulaRec_ok k1 K1 nm follow t); auto|].
  { pose proof (Rep_valid _ _ _ R) as Vn. pose proof (lv_range _ _ _ C Vn) as Lr. rewrite (Rep_toplev _ _ _ _ R) in Lr. change (varnum k1) with (varnum k).
    unfold maxdepth, k1. cbn. rewrite (c_cap _ _ C). rewrite Z2Nat.id; pose proof (c_vn _ _ C); lia. }
  { apply (Denotes_lvls k n p t K D R). }
  intros f s1 V1 k2 I1 X1 (-> & u & Du & Eu).
  assert (G : forall a, sem t (nval k1 nm a) = p (fun v => a (nm v))). { intros a. apply S. apply (lvals_agr k (fun v => a (nm v)) K). }
  destruct follow.
  - apply cvp_ret; auto. split; auto. exists u. split; auto. intros a. rewrite Eu, G. unfold fxor. destruct (p _); auto.
  - apply cvp_onM, wp_up_last. destruct (Not f s1) as [r s2] eqn:E. destruct (winv_not s1 V1 f u r s2 I1 Du E) as (I2 & X2 & w & Dw & Nw). eapply wp_up; [exact E|exact X2|]. apply wp_ret; auto. split; auto. exists w. split; auto.
    intros a. rewrite (is_neg_of_eval u w a Nw). rewrite Eu, G. unfold fxor. destruct (p _); auto.
Qed.
