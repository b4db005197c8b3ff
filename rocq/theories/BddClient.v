(** * Histories of a client that works with one factory and one kernel *)
From Coq Require Import String List Bool ZArith NArith Lia.
From Verif Require Import Spec Factory FactoryProofs FactoryProofs2 FactoryProofs3 FactoryApi FactoryProps Assign NormalForm NfBase NfAssign AssignProps NfApi
  Bdd BddApi BddQuery BddTable BddNode BddSem BddQuant BddKernel BddHandles BddCompile BddCanon BddOps BddHist BddPaths BddForm BddEnum BddCount BddPres.
Import ListNotations.
Local Open Scope Z_scope.

Inductive formulaQuery := QCNF | QDNF | QToFormula (args : list bool).
Definition runFormula (q : formulaQuery) (n : Z) : C formula :=
  match q with QCNF => bddCNF n | QDNF => bddDNF n | QToFormula args => bddToFormula n args end.
Inductive countQuery := QModels | QPathsOne | QPathsZero.
Definition runCount (q : countQuery) : Z -> K Z := match q with QModels => bddModelCount | QPathsOne => bddPathCountOne | QPathsZero => bddPathCountZero end.

(** A client of a factory and a kernel: the states [w_s] and [w_k] of the factory and the kernel;
    the formulas [w_H], the auxiliary states [w_X] and the BDDs [w_R] the client holds, each BDD with
    the function it is meant to stand for: the function of the compiled formula, the combination
    of the functions of the operands; the counts [w_T] the client has asked the kernel for.
    The results of Restrict, Exists and ForAll are not held (see [C34_restrict_result_refuted]). *)
Record world := World { w_s : state; w_H : list formula; w_X : list auxState; w_k : kernel; w_R : list (Z * (asg -> bool)); w_T : list countQuery }.
Inductive bstart (cv : bool) : world -> Prop :=
| st_new s H X num size csize g k : library cv s H X ->
    0 <= num -> 3 <= size -> 1 <= csize -> (forall i n, n <= g i n) -> newKernel num size csize g = Ok tt k -> bstart cv (World s H X k [] [])
| st_ordering s H X order xs size csize g k : library cv s H X -> Forall2 (fun v x => LiteralNamePhase v s = Some (x, true)) order xs ->
    3 <= size -> 1 <= csize -> (forall i n, n <= g i n) -> newKernelOrd order size csize g = Ok tt k -> bstart cv (World s H X k [] []).
Inductive bstep : world -> world -> Prop :=
| bs_library s H X k R T s' H' X' : lstep (s, H, X) (s', H', X') -> bstep (World s H X k R T) (World s' H' X' k R T)
| bs_compile s H X k R T cf h f t xs z s' k' : Reads s f t -> pbfree t = true -> (forall x, occurs x t -> In x xs) -> hasRoom s k xs ->
    compiles cf h f s k (Some z) s' k' -> bstep (World s H X k R T) (World s' H X k' ((z, fun a => eval a t) :: R) T)
| bs_cancelled s H X k R T cf h f t xs s' k' : Reads s f t -> pbfree t = true -> (forall x, occurs x t -> In x xs) -> hasRoom s k xs ->
    compiles cf h f s k None s' k' -> bstep (World s H X k R T) (World s' H X k' R T)
| bs_negate s H X k R T n p z k' : In (n, p) R -> bddNegate n k = Ok z k' -> bstep (World s H X k R T) (World s H X k' ((z, fun a => negb (p a)) :: R) T)
| bs_binary o s H X k R T n m p q z k' : In (n, p) R -> In (m, q) R -> runBinary o n m k = Ok z k' ->
    bstep (World s H X k R T) (World s H X k' ((z, fun a => binarySem o (p a) (q a)) :: R) T)
| bs_restrict s H X k R T n p ls ns z k' : In (n, p) R -> lits_named s ls ns -> hasRoom s k (map fst ns) ->
    bddRestrict n ls k = Ok z k' -> bstep (World s H X k R T) (World s H X k' R T)
| bs_quantify (e : bool) s H X k R T n p vs xs z k' : In (n, p) R -> lits_named s vs (map (fun x => (x, true)) xs) -> hasRoom s k xs ->
    (if e then bddExists n vs else bddForAll n vs) k = Ok z k' -> bstep (World s H X k R T) (World s H X k' R T)
| bs_formula q s H X k R T n p f s' k' : In (n, p) R -> runFormula q n s k = CRet f s' k' -> bstep (World s H X k R T) (World s' (f :: H) X k' R T)
| bs_enumerate s H X k R T n p vs ms s' k' : In (n, p) R -> bddModelEnumeration n vs s k = CRet ms s' k' ->
    bstep (World s H X k R T) (World s' (concat ms ++ H) X k' R T)
| bs_count q s H X k R T n p x k' : In (n, p) R -> runCount q n k = Ok x k' -> bstep (World s H X k R T) (World s H X k' R (q :: T)).
Inductive bsteps : world -> world -> Prop :=
| bsteps_refl w : bsteps w w
| bsteps_more w1 w2 w3 : bsteps w1 w2 -> bstep w2 w3 -> bsteps w1 w3.
(** [w] is reached by such a client *)
Definition client (cv : bool) (w : world) : Prop := exists w0, bstart cv w0 /\ bsteps w0 w.

(** ** The invariant *)
Definition idOf (q : countQuery) : Z := match q with QModels => cacheidSatcou | QPathsOne => 4 | QPathsZero => 8 end.
Definition cinv (s : state) (H : list formula) (X : list auxState) (k : kernel) (R : list (Z * (asg -> bool))) (T : list countQuery) : Prop :=
  (exists V, linv s V H X) /\ binv s k R /\ forall q, ~ In q T -> nocount (idOf q) k.
Lemma idOf_odd q x : 8 * x + 1 <> idOf q. Proof. destruct q; cbn [idOf]; unfold cacheidSatcou; lia. Qed.
Lemma pres_runCount q q' n : q <> q' -> pres (idOf q) (runCount q' n).
Proof.
  intros N. destruct q'; cbn [runCount]; [apply pres_modelCount|apply pres_pathCount|apply pres_pathCount]; destruct q; try congruence; cbn; unfold cacheidSatcou, cacheidPathcou; cbn; lia.
Qed.
Lemma pres_run {A} c (m : K A) k a k' : pres c m -> nocount c k -> m k = Ok a k' -> nocount c k'.
Proof. intros P N E. specialize (P k N). rewrite E in P. auto. Qed.
Lemma cpres_run {A} c (m : C A) s k a s' k' : cpres c m -> nocount c k -> m s k = CRet a s' k' -> nocount c k'.
Proof. intros P N E. specialize (P s k N). rewrite E in P. auto. Qed.
Lemma wext_keeps s V s' V' : wf s -> wf s' -> wext s V s' V' -> keeps s s'.
Proof. intros W W' X f t R. apply Reads_Den in R; auto. apply Reads_Den; auto. eapply wext_Den; eauto. Qed.
(** the name of a variable *)
Definition nameOf (s : state) (v : formula) : string := match VarName v s with Some x => x | None => EmptyString end.
Lemma vknown_named s k : wf s -> vknown s k -> named k (nameOf s) s.
Proof.
  intros W V v Hv. destruct (V v Hv) as [x E]. unfold nameOf. rewrite (VarName_pos _ _ _ W E). apply LiteralNamePhase_node; auto. apply name_pos; auto.
Qed.
Lemma nameOf_pos s x v : wf s -> posLit s x = Some v -> nameOf s v = x.
Proof. intros W E. unfold nameOf. rewrite (VarName_pos _ _ _ W E). auto. Qed.
Lemma nameOf_bof s a x : wf s -> known_name s x -> bof s (fun v => a (nameOf s v)) x = a x.
Proof. intros W H. unfold known_name in H. unfold bof. destruct (posLit s x) as [v|] eqn:E; [|congruence]. rewrite (nameOf_pos _ _ _ W E). auto. Qed.
Lemma holds_names s k n p a : wf s -> holds s k (n, p) -> p (bof s (fun v => a (nameOf s v))) = p a.
Proof. intros W [_ N]. apply N. intros x Hx. apply nameOf_bof; auto. Qed.
Lemma cwp_run {A} (m : C A) Q s k a s' k' : cwp m Q s k -> m s k = CRet a s' k' -> Q a s' k'.
Proof. unfold cwp. intros H E. rewrite E in H. auto. Qed.
Lemma binv_stack s k R : binv s k R -> binv s (with_refstack [] k) R.
Proof.
  intros (W & K & Hi & V & F). split; auto. split; [apply kinv_stack; auto|]. split; [apply stack_hinv; auto|]. split; [exact V|]. eapply Forall_impl; [|exact F].
  intros h [(t & Rp & S) N]. split; auto. exists t. split; [revert Rp; apply Rep_ext; reflexivity|exact S].
Qed.
Lemma counted_binv q s k k' R : binv s k R -> counted (idOf q) k k' -> binv s k' R.
Proof.
  intros (W & K & Hi & V & F) Co. assert (Hodd : forall v, idOf q <> 8 * v + 1) by (intros v E; apply (idOf_odd q v); auto). pose proof (counted_kinv _ _ _ Co Hodd K) as K'.
  split; auto. split; auto. pose proof Co as (E & _). split; [rewrite E; exact Hi|]. split; [rewrite E; exact V|]. eapply Forall_impl; [|exact F].
  intros h [(t & Rp & S) N]. split; auto. exists t. split; [eapply counted_Rep; eauto|]. rewrite E. exact S.
Qed.

Section Mono.
Variable c : Z.
(** the computation changes only the cached counts of kind [c] and adds numbers *)
Definition cmon {A} (m : K A) : Prop := forall k, match m k with Ok _ k' => counted c k k' | _ => True end.
Lemma cmon_ret {A} (a : A) : cmon (kret a). Proof. intros k. apply counted_refl. Qed.
Lemma cmon_bad {A} : cmon (@bad A). Proof. intros k. exact I. Qed.
Lemma cmon_bind {A B} (m : K A) (f : A -> K B) : cmon m -> (forall a, cmon (f a)) -> cmon (kbind m f).
Proof. intros H G k. specialize (H k). unfold kbind. destruct (m k) as [a k'| |]; auto. specialize (G a k'). destruct (f a k'); auto. eapply counted_trans; eauto. Qed.
Lemma cmon_get : cmon get. Proof. intros k. apply counted_refl. Qed.
Lemma cmon_gets {A} (f : kernel -> A) : cmon (gets f). Proof. intros k. apply counted_refl. Qed.
Lemma cmon_rd {A} (f : kernel -> Z -> A) n : cmon (rd f n). Proof. intros k. unfold rd. destruct (inRange k n); auto. apply counted_refl. Qed.
Lemma cmon_newBig x : cmon (newBig x). Proof. intros k. split; [destruct k; reflexivity|]. split; auto. cbn. lia. Qed.
Lemma cmon_setBig p x : cmon (setBig p x). Proof. intros k. split; [destruct k; reflexivity|]. split; auto. cbn. lia. Qed.
Lemma cmon_setMisc i a p : cmon (setMisc i a c p).
Proof. intros k. split; [destruct k; reflexivity|]. split; [|cbn; lia]. intros j. cbn. unfold Bdd.upd. destruct (j =? i); auto. Qed.
End Mono.
Ltac cm1 :=
  first [ apply cmon_ret | apply cmon_bad | apply cmon_get | apply cmon_gets | apply cmon_rd | apply cmon_newBig | apply cmon_setBig | apply cmon_setMisc | assumption
        | match goal with H : forall _, _ |- _ => apply H end
        | apply cmon_bind; [|intros ?]
        | match goal with |- cmon _ (match ?x with _ => _ end) => destruct x end ].
Ltac cm := repeat cm1.
Lemma cmon_satCountRec d : forall r, cmon cacheidSatcou (satCountRec d r).
Proof. induction d as [|d IH]; intros r; cbn [satCountRec]; unfold level, low, high, bigOf; cm. Qed.
Lemma cmon_pathCountRec d t : forall r, cmon (cacheidPathcou t) (pathCountRec d t r).
Proof. induction d as [|d IH]; intros r; cbn [pathCountRec]; unfold level, low, high, bigOf; cm. Qed.
Lemma cmon_count q n : cmon (idOf q) (runCount q n).
Proof.
  pose proof cmon_satCountRec. pose proof cmon_pathCountRec as P. pose proof (fun d => P d 1) as P1. pose proof (fun d => P d 0) as P0. clear P. destruct q; cbn [runCount idOf].
  - unfold bddModelCount, satCount, level, bigOf. cm.
  - change 4 with (cacheidPathcou 1). unfold bddPathCountOne, pathCount, bigOf. cm.
  - change 8 with (cacheidPathcou 0). unfold bddPathCountZero, pathCount, bigOf. cm.
Qed.

Lemma runFormula_ok q s V k n p : winv s V -> kinv k -> named k (nameOf s) s -> Denotes k n p ->
  cvp (runFormula q n) s V k (fun f s' V' k' => k' = with_refstack [] k /\ exists u, Den s' f u /\ (forall a, eval a u = p (fun v => a (nameOf s v))) /\
    match q with QCNF => is_cnf u = true | QDNF => is_dnf u = true | _ => True end).
Proof.
  intros I K N D. destruct q as [| |args]; cbn [runFormula].
  - apply (bddNormalform_ok true s V k n p (nameOf s) I K N D).
  - apply (bddNormalform_ok false s V k n p (nameOf s) I K N D).
  - unfold bddToFormula. unfold cvp. eapply cwp_conseq; [apply (toFormula_ok _ s V k n p (nameOf s) I K N D)|]. intros f s' k' (V' & I' & X' & -> & u & H1 & H2). exists V'. split; auto. split; auto. split; auto. exists u. auto.
Qed.
Lemma modelsDen_known s ms nss : modelsDen s ms nss -> Forall (known s) (concat ms).
Proof. induction 1; cbn; [constructor|]. apply Forall_app. split; auto. eapply litDens_known; eauto. Qed.
Definition winv_ (w : world) : Prop := cinv (w_s w) (w_H w) (w_X w) (w_k w) (w_R w) (w_T w).
Lemma start_inv cv w : bstart cv w -> winv_ w.
Proof.
  destruct 1 as [s H X num size csize g k L Hn Hs Hc Hg E|s H X order xs size csize g k L Ho Hs Hc Hg E]; unfold winv_; cbn [w_s w_H w_X w_k w_R w_T].
  - split; [eapply library_inv; eauto|]. unfold newKernel in E. destruct (Z.le_gt_cases num maxvar) as [Hm|Hm]; [|unfold setNumberOfVars in E; replace ((num <? 0) || (maxvar <? num)) with true in E; [discriminate|symmetry; apply orb_true_iff; right; apply Z.ltb_lt; lia]].
    split.
    + destruct (kwp_run _ _ _ _ _ (newKernel_ok num size csize g (conj Hn Hm) Hs Hc Hg) E) as (K & _ & Vl & _). split; [eapply library_wf; eauto|]. split; auto. split; [intros x []|]. split; auto.
      intros v Hv. rewrite Vl in Hv. destruct Hv.
    + intros q _. eapply pres_run; [apply pres_setVars| |exact E]. intros i. cbn. congruence.
  - split; [eapply library_inv; eauto|]. unfold newKernelOrd in E. destruct (Z.le_gt_cases (Z.of_nat (List.length order)) maxvar) as [Hm|Hm].
    2:{ unfold setNumberOfVars in E. replace ((Z.of_nat (List.length order) <? 0) || (maxvar <? Z.of_nat (List.length order))) with true in E; [discriminate|symmetry; apply orb_true_iff; right; apply Z.ltb_lt; lia]. }
    split.
    + destruct (kwp_run _ _ _ _ _ (newKernelOrd_ok order size csize g Hs Hc Hg Hm) E) as (K & Ic). pose proof (library_wf _ _ _ _ L) as Wf. split; auto. split; auto. split; [intros x []|]. split; auto.
      intros v Hv. apply Ic in Hv. clear -Wf Ho Hv. induction Ho as [|w x order xs Hw Ho IH]; [destruct Hv|]. destruct Hv as [<-|Hv]; auto. exists x. apply name_pos; auto.
    + intros q _. eapply pres_run; [apply pres_newOrd| |exact E]. intros i. cbn. congruence.
Qed.
Lemma step_inv w w' : winv_ w -> bstep w w' -> winv_ w'.
Proof.
  intros IH St. destruct St as [s H X k R T s' H' X' L
    |s H X k R T cf h f t xs z s' k' Rd Hp Hx Hr E|s H X k R T cf h f t xs s' k' Rd Hp Hx Hr E|s H X k R T n p z k' I E|o s H X k R T n m p q z k' I J E
    |s H X k R T n p ls ns z k' I Hl Hr E|e s H X k R T n p vs xs z k' I Hl Hr E|q s H X k R T n p f s' k' I E|s H X k R T n p vs ms s' k' I E|q s H X k R T n p x k' I E];
    unfold winv_ in *; cbn [w_s w_H w_X w_k w_R w_T] in *.
  - destruct IH as ([V Li] & Bi & Nc). destruct (step_linv _ _ _ _ _ _ _ Li L) as (V' & L' & Xt). split; [eauto|]. split; [|auto].
    apply (binv_keeps s); auto; [apply L'|]. eapply wext_keeps; eauto; [apply Li|apply L'].
  - destruct IH as (Li & Bi & Nc). destruct E as [n0 E]. pose proof (compile_run cf h s k R (max n0 (tdep t)) f t xs Bi Rd Hp Hx Hr (Nat.le_max_r _ _)) as Q. unfold cwp in Q. pose proof (E _ (Nat.le_max_l _ (tdep t))) as E'. rewrite E' in Q. destruct Q as (-> & Q & _).
    split; auto. split; auto. intros q Hq. eapply cpres_run; [apply cpres_compileHandler|apply Nc; exact Hq|exact E'].
  - destruct IH as (Li & Bi & Nc). destruct E as [n0 E]. pose proof (compile_run cf h s k R (max n0 (tdep t)) f t xs Bi Rd Hp Hx Hr (Nat.le_max_r _ _)) as Q. unfold cwp in Q. pose proof (E _ (Nat.le_max_l _ (tdep t))) as E'. rewrite E' in Q. destruct Q as (-> & Q & _).
    split; auto. split; auto. intros q Hq. eapply cpres_run; [apply cpres_compileHandler|apply Nc; exact Hq|exact E'].
  - destruct IH as (Li & Bi & Nc). pose proof Bi as (Wf & K & Hi & V & F). rewrite Forall_forall in F. destruct (F _ I) as [D N]. cbn in D, N. split; auto. split.
    + pose proof (kwp_run _ _ _ _ _ (bddNegate_ok (vlist k) (map fst R) k n _ K Hi (fits_self k K) (in_fst _ _ _ I) D) E) as Q.
      apply (binv_made s k R (vlist k)); auto using fits_self. intros a a' Ha. f_equal. auto.
    + intros q Hq. eapply pres_run; [apply pres_negate|apply Nc; exact Hq|exact E].
  - destruct IH as (Li & Bi & Nc). pose proof Bi as (Wf & K & Hi & V & F). rewrite Forall_forall in F. destruct (F _ I) as [D N], (F _ J) as [D2 N2]. cbn in D, N, D2, N2. split; auto. split.
    + pose proof (kwp_run _ _ _ _ _ (runBinary_ok o (vlist k) (map fst R) k n m _ _ K Hi (fits_self k K) (in_fst _ _ _ I) (in_fst _ _ _ J) D D2) E) as Q.
      apply (binv_made s k R (vlist k)); auto using fits_self. intros a a' Ha. f_equal; auto.
    + intros q' Hq. eapply pres_run; [|apply Nc; exact Hq|exact E]. destruct o; cbn [runBinary]; unfold bddAnd, bddOr, bddImplies, bddImpliedBy, bddEquivalence; apply pres_referenced.
  - destruct IH as (Li & Bi & Nc). pose proof Bi as (Wf & K & Hi & V & F). rewrite Forall_forall in F. destruct (F _ I) as [D N]. cbn in D, N. destruct (hasRoom_fits _ _ _ Wf Hr) as (W & Fi & Hx & HW). split; auto. split.
    + destruct (kwp_run _ _ _ _ _ (bddRestrict_frame W (map fst R) k n _ ls K Hi Fi (in_fst _ _ _ I) D (lits_space _ _ _ _ Wf Hl Hx)) E) as (K' & H' & X' & F'). eapply binv_only; eauto.
    + intros q Hq. eapply pres_run; [apply pres_bddRestrict; apply idOf_odd|apply Nc; exact Hq|exact E].
  - destruct IH as (Li & Bi & Nc). pose proof Bi as (Wf & K & Hi & V & F). rewrite Forall_forall in F. destruct (F _ I) as [D N]. cbn in D, N. destruct (hasRoom_fits _ _ _ Wf Hr) as (W & Fi & Hx & HW). split; auto. split.
    + destruct (names_vars _ _ _ Wf Hl) as [Vo _]. assert (HvW : forall l, In l vs -> In l W).
      { intros l Hj. rewrite <- (proj1 (vars_litVariable vs l Vo Hj)). eapply lits_space; eauto. rewrite map_map. cbn. rewrite map_id. auto. }
      destruct (kwp_run _ _ _ _ _ (bddQuant_ok e W (map fst R) k n _ vs K Hi Fi (in_fst _ _ _ I) D HvW Vo) E) as (q & _ & K' & H' & X' & F' & _). eapply binv_only; eauto.
    + intros q Hq. eapply pres_run; [|apply Nc; exact Hq|exact E]. destruct e; [apply pres_bddExists|apply pres_bddForAll].
  - destruct IH as ([V Li] & Bi & Nc). pose proof Bi as (Wf & K & Hi & Vk & F). rewrite Forall_forall in F. destruct (F _ I) as [D N]. cbn in D, N.
    destruct (cwp_run _ _ _ _ _ _ _ (runFormula_ok q s V k n _ (i_winv _ _ _ _ Li) K (vknown_named _ _ Wf Vk) D) E) as (V' & I' & Xt & -> & u & Du & _).
    pose proof (linv_ext _ _ _ _ _ _ Xt I' Li) as [A1 A2 A3]. split; [exists V'; constructor; auto; constructor; auto; eapply Den_known; eauto|]. split; [|intros q' Hq; apply (Nc q' Hq)].
    apply binv_stack. apply (binv_keeps s); auto; [apply I'|]. eapply wext_keeps; eauto. apply I'.
  - destruct IH as ([V Li] & Bi & Nc). pose proof Bi as (Wf & K & Hi & Vk & F). rewrite Forall_forall in F. destruct (F _ I) as [D N]. cbn in D, N.
    destruct (cwp_run _ _ _ _ _ _ _ (bddEnum_ok s V k n _ (nameOf s) vs (i_winv _ _ _ _ Li) K (vknown_named _ _ Wf Vk) D) E) as (V' & I' & Xt & -> & nss & Md & _).
    pose proof (linv_ext _ _ _ _ _ _ Xt I' Li) as [A1 A2 A3]. split; [exists V'; constructor; auto; apply Forall_app; split; auto; eapply modelsDen_known; eauto|]. split; [|intros q' Hq; apply (Nc q' Hq)].
    apply binv_stack. apply (binv_keeps s); auto; [apply I'|]. eapply wext_keeps; eauto. apply I'.
  - destruct IH as (Li & Bi & Nc). pose proof (cmon_count q n k) as Co. rewrite E in Co. split; auto. split; [eapply counted_binv; eauto|].
    intros q' Hq. eapply pres_run; [apply (pres_runCount q' q n); intros ->; apply Hq; left; auto|apply Nc; intros Hq'; apply Hq; right; auto|exact E].
Qed.
Lemma steps_inv w w' : winv_ w -> bsteps w w' -> winv_ w'.
Proof. intros I St. revert I. induction St as [w|w1 w2 w3 _ IH St]; auto. intros I. eapply step_inv; [apply IH; exact I|exact St]. Qed.
Theorem client_inv cv w : client cv w -> winv_ w.
Proof. intros (w0 & St & Ss). eapply steps_inv; eauto. eapply start_inv; eauto. Qed.
