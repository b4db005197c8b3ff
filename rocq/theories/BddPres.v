(** * Kernel operations leave no cached count behind *)
From Coq Require Import String List Bool ZArith Lia.
From Verif Require Import Spec Factory Assign NormalForm Bdd BddApi BddQuery.
Import ListNotations.
Local Open Scope Z_scope.

Section Pres.
Variable c : Z.
(** the cache of the counting functions has no entry of the kind [c] *)
Definition nocount (k : kernel) : Prop := forall i, e_a (misccache k i) <> -1 -> e_c (misccache k i) <> c.
Definition pres {A} (m : K A) : Prop := forall k, nocount k -> match m k with Ok _ k' => nocount k' | _ => True end.
Lemma pres_ret {A} (a : A) : pres (kret a). Proof. intros k H. exact H. Qed.
Lemma pres_bad {A} : pres (@bad A). Proof. intros k H. exact I. Qed.
Lemma pres_full {A} : pres (fun _ => @Full A). Proof. intros k H. exact I. Qed.
Lemma pres_bind {A B} (m : K A) (f : A -> K B) : pres m -> (forall a, pres (f a)) -> pres (kbind m f).
Proof. intros H G k Hk. specialize (H k Hk). unfold kbind. destruct (m k) as [a k'| |]; auto. apply (G a k' H). Qed.
Lemma pres_get : pres get. Proof. intros k H. exact H. Qed.
Lemma pres_gets {A} (f : kernel -> A) : pres (gets f). Proof. intros k H. exact H. Qed.
Lemma pres_modify f : (forall k, misccache (f k) = misccache k) -> pres (modify f).
Proof. intros H k Hk i. cbn. rewrite H. apply Hk. Qed.
Lemma pres_rd {A} (f : kernel -> Z -> A) n : pres (rd f n). Proof. intros k H. unfold rd. destruct (inRange k n); auto. Qed.
Lemma pres_wr {A} (f : kernel -> Z -> A) w n v : (forall x k, misccache (w x k) = misccache k) -> pres (wr f w n v).
Proof. intros Hw k H. unfold wr. destruct (inRange k n); auto. intros i. rewrite Hw. apply H. Qed.
Lemma pres_push n : pres (pushRef n). Proof. intros k H. unfold pushRef. destruct (_ <? _); auto. Qed.
Lemma pres_read n : pres (readRef n). Proof. intros k H. unfold readRef. destruct (nth_error _ _); auto. Qed.
Lemma pres_ith i : pres (ithVar i). Proof. intros k H. unfold ithVar. destruct (_ || _); auto. Qed.
Lemma pres_nith i : pres (nithVar i). Proof. intros k H. unfold nithVar. destruct (_ || _); auto. Qed.
Lemma pres_up n b : forall j, (forall i, pres (b i)) -> pres (for_up n j b).
Proof. induction n as [|n IH]; intros j H; cbn; [apply pres_ret|apply pres_bind; auto]. Qed.
Lemma pres_down n b : forall j, (forall i, pres (b i)) -> pres (for_down n j b).
Proof. induction n as [|n IH]; intros j H; cbn; [apply pres_ret|apply pres_bind; auto]. Qed.
Lemma pres_each {A} (l : list A) b : (forall x, pres (b x)) -> pres (for_each l b).
Proof. intros H. induction l as [|x l IH]; cbn; [apply pres_ret|apply pres_bind; auto]. Qed.
Lemma pres_reset : pres resetCaches. Proof. intros k H i. cbn. auto. Qed.

Ltac pr1 :=
  first [ apply pres_ret | apply pres_bad | apply pres_full | apply pres_get | apply pres_gets | apply pres_rd | apply pres_push | apply pres_read | apply pres_ith | apply pres_nith | apply pres_reset
        | apply pres_wr; reflexivity | apply pres_modify; reflexivity | assumption
        | match goal with H : forall _, _ |- _ => apply H end
        | apply pres_bind; [|intros ?] | apply pres_up; intros ? | apply pres_down; intros ? | apply pres_each; intros ?
        | match goal with |- pres (match ?x with _ => _ end) => destruct x end
        | match goal with |- pres (let x := _ in _) => cbv zeta end ].
Ltac pr := repeat pr1.
Lemma pres_mark d : forall i, pres (mark d i).
Proof. induction d as [|d IH]; intros i; cbn [mark]; unfold marked, low, high, setMark; pr. Qed.
Lemma pres_rehash n : pres (rehash n). Proof. unfold rehash, level, low, high, hash, setNext, setHash. pr. Qed.
Lemma pres_release n : pres (release n). Proof. unfold release, setNext. pr. Qed.
Lemma pres_gbc : pres gbc.
Proof. pose proof pres_mark. pose proof pres_rehash. pose proof pres_release. unfold gbc, refcount, marked, low, setHash, unmarkNode, setLow. pr. Qed.
Lemma pres_gbcRehash : pres gbcRehash.
Proof. pose proof pres_rehash. pose proof pres_release. unfold gbcRehash, low. pr. Qed.
Lemma pres_nodeResize : pres nodeResize.
Proof. pose proof pres_gbcRehash. unfold nodeResize, setHash, setRefcou, setLevel, unmarkNode, setLow, setNext. pr. Qed.
Lemma pres_findNode d : forall r lv l h, pres (findNode d r lv l h).
Proof. induction d as [|d IH]; intros; cbn [findNode]; unfold level, low, high, next; pr. Qed.
Lemma pres_makeNode lv l h : pres (makeNode lv l h).
Proof.
  pose proof pres_findNode. pose proof pres_gbc. pose proof pres_nodeResize. unfold makeNode, hash, next, setLevel, setLow, setHigh, setNext, setHash. pr.
Qed.
Lemma pres_applyRec d : forall l r o, pres (applyRec d l r o).
Proof. pose proof pres_makeNode. induction d as [|d IH]; intros; cbn [applyRec]; unfold level, low, high, popref; pr. Qed.
Lemma pres_apply l r o : pres (apply l r o). Proof. pose proof pres_applyRec. unfold apply, initRef. pr. Qed.
Lemma pres_notRec d : forall r, pres (notRec d r).
Proof. pose proof pres_makeNode. induction d as [|d IH]; intros; cbn [notRec]; unfold level, low, high, popref; pr. Qed.
Lemma pres_bnot r : pres (bnot r). Proof. pose proof pres_notRec. unfold bnot, initRef. pr. Qed.
Lemma pres_entry i g d : d <> c -> (forall k, e_c (g k) = d) -> pres (modify (fun k => with_misccache (Bdd.upd (misccache k) i (g k)) k)).
Proof. intros H G k Hk j. cbn. unfold Bdd.upd. destruct (j =? i); auto. rewrite G. auto. Qed.
Lemma pres_restrictRec d : forall r m, m <> c -> pres (restrictRec d r m).
Proof.
  pose proof pres_makeNode. induction d as [|d IH]; intros r m Hm; cbn [restrictRec]; unfold level, low, high, popref; [apply pres_bad|].
  assert (IH' : forall r, pres (restrictRec d r m)) by auto. clear IH.
  all: repeat first [pr1 | apply (pres_entry _ _ m); [exact Hm|reflexivity]].
Qed.
Lemma pres_svarLoop d : forall n, pres (svarLoop d n). Proof. induction d as [|d IH]; intros; cbn [svarLoop]; unfold level, low, high; pr. Qed.
Lemma pres_varLoop d : forall n, pres (varLoop d n). Proof. induction d as [|d IH]; intros; cbn [varLoop]; unfold level, low, high; pr. Qed.
Lemma pres_restrict r v : (forall x, 8 * x + 1 <> c) -> pres (restrict r v).
Proof. intros Hc. pose proof pres_svarLoop. assert (forall d r, pres (restrictRec d r (8 * v + 1))) by (intros; apply pres_restrictRec; auto). unfold restrict, varset2svartable, initRef. pr. Qed.
Lemma pres_quantRec d : forall r o q, pres (quantRec d r o q).
Proof. pose proof pres_makeNode. pose proof pres_applyRec. induction d as [|d IH]; intros; cbn [quantRec]; unfold level, low, high, popref; pr. Qed.
Lemma pres_exists r v : pres (exists_ r v). Proof. pose proof pres_varLoop. pose proof pres_quantRec. unfold exists_, varset2vartable, initRef. pr. Qed.
Lemma pres_forAll r v : pres (forAll r v). Proof. pose proof pres_varLoop. pose proof pres_quantRec. unfold forAll, varset2vartable, initRef. pr. Qed.
Lemma pres_addRef r b : pres (addRef r b). Proof. unfold addRef, low, refcount, setRefcou. pr. Qed.
Lemma pres_delRef r : pres (delRef r). Proof. unfold delRef, low, refcount, setRefcou. pr. Qed.
Lemma pres_index v : pres (getOrAddVarIndex v).
Proof. intros k H. unfold getOrAddVarIndex. repeat (match goal with |- match (match ?x with _ => _ end) with _ => _ end => destruct x end; auto). Qed.
Lemma pres_litNode l : pres (litNode l). Proof. pose proof pres_index. unfold litNode. pr. Qed.
Lemma pres_litLoop ls : forall b, pres (litLoop ls b).
Proof. pose proof pres_litNode. pose proof pres_apply. pose proof pres_addRef. pose proof pres_delRef. induction ls as [|l ls IH]; intros b; cbn [litLoop]; pr. Qed.
Lemma pres_compileLiterals ls : pres (compileLiterals ls).
Proof. pose proof pres_litLoop. pose proof pres_litNode. unfold compileLiterals. pr. Qed.
Lemma pres_negate b : pres (bddNegate b). Proof. pose proof pres_bnot. pose proof pres_addRef. unfold bddNegate, referenced. pr. Qed.
Lemma pres_referenced l r o : pres (referenced (apply l r o)). Proof. pose proof pres_apply. pose proof pres_addRef. unfold referenced. pr. Qed.
Lemma pres_bddRestrict b ls : (forall x, 8 * x + 1 <> c) -> pres (bddRestrict b ls).
Proof. intros Hc. pose proof pres_compileLiterals. assert (forall v, pres (restrict b v)) by (intros; apply pres_restrict; auto). unfold bddRestrict. pr. Qed.
Lemma pres_bddExists b ls : pres (bddExists b ls). Proof. pose proof pres_compileLiterals. pose proof pres_exists. unfold bddExists. pr. Qed.
Lemma pres_bddForAll b ls : pres (bddForAll b ls). Proof. pose proof pres_compileLiterals. pose proof pres_forAll. unfold bddForAll. pr. Qed.

Lemma pres_satCountRec d : c <> cacheidSatcou -> forall r, pres (satCountRec d r).
Proof.
  intros Hc. induction d as [|d IH]; intros r; cbn [satCountRec]; unfold level, low, high, newBig, bigOf, setMisc.
  all: repeat first [pr1 | apply (pres_entry _ _ cacheidSatcou); [auto|reflexivity] | solve [intros k H; exact H]].
Qed.
Lemma pres_modelCount b : c <> cacheidSatcou -> pres (bddModelCount b).
Proof. intros Hc. pose proof (fun d => pres_satCountRec d Hc). unfold bddModelCount, satCount, level, bigOf, setBig. pr. Qed.
Lemma pres_pathCountRec d t : c <> cacheidPathcou t -> forall r, pres (pathCountRec d t r).
Proof.
  intros Hc. induction d as [|d IH]; intros r; cbn [pathCountRec]; unfold level, low, high, newBig, bigOf, setBig, setMisc.
  all: repeat first [pr1 | apply (pres_entry _ _ (cacheidPathcou t)); [auto|reflexivity] | solve [intros k H; exact H]].
Qed.
Lemma pres_pathCount t b : c <> cacheidPathcou t -> pres (p <~ pathCount t b; bigOf p).
Proof. intros Hc. pose proof (fun d => pres_pathCountRec d t Hc). unfold pathCount, bigOf. pr. Qed.
Lemma pres_satOneRec d : forall r, pres (satOneRec d r). Proof. pose proof pres_makeNode. induction d as [|d IH]; intros r; cbn [satOneRec]; unfold level, low, high; pr. Qed.
Lemma pres_satOne r : pres (satOne r). Proof. pose proof pres_satOneRec. unfold satOne, initRef. pr. Qed.
Lemma pres_satOneSetRec d : forall r v p, pres (satOneSetRec d r v p). Proof. pose proof pres_makeNode. induction d as [|d IH]; intros; cbn [satOneSetRec]; unfold level, low, high; pr. Qed.
Lemma pres_satOneSet r v p : pres (satOneSet r v p). Proof. pose proof pres_satOneSetRec. unfold satOneSet, initRef. pr. Qed.
Lemma pres_fill n : forall v r, pres (fillNegative n v r). Proof. pose proof pres_makeNode. induction n as [|n IH]; intros; cbn [fillNegative]; pr. Qed.
Lemma pres_fullRec d : forall r, pres (fullSatOneRec d r). Proof. pose proof pres_makeNode. pose proof pres_fill. induction d as [|d IH]; intros; cbn [fullSatOneRec]; unfold level, low, high; pr. Qed.
Lemma pres_full_ r : pres (fullSatOne r). Proof. pose proof pres_fullRec. pose proof pres_fill. unfold fullSatOne, initRef, level. pr. Qed.
Lemma pres_fold {A B} (f : K A -> B -> K A) (l : list B) : (forall m b, pres m -> pres (f m b)) -> forall m, pres m -> pres (fold_left f l m).
Proof. intros H. induction l as [|x l IH]; intros m Hm; cbn; auto. Qed.
Lemma pres_allNodes r : pres (allNodes r).
Proof.
  pose proof pres_mark. unfold allNodes, unmarkNode, marked, level, low, high. pr. apply pres_fold; [|pr]. intros m b Hm. pr.
Qed.
Lemma pres_supportRec d : forall r sup mx, pres (supportRec d r sup mx). Proof. induction d as [|d IH]; intros; cbn [supportRec]; unfold marked, level, low, high, setMark; pr. Qed.
Lemma pres_unmark d : forall r, pres (unmark d r). Proof. induction d as [|d IH]; intros; cbn [unmark]; unfold marked, low, high, unmarkNode; pr. Qed.
Lemma pres_supportBdd n : forall v r s, pres (supportBdd n v r s). Proof. pose proof pres_makeNode. pose proof pres_addRef. pose proof pres_delRef. induction n as [|n IH]; intros; cbn [supportBdd]; pr. Qed.
Lemma pres_support r : pres (support r). Proof. pose proof pres_supportRec. pose proof pres_unmark. pose proof pres_supportBdd. unfold support, level. pr. Qed.
Lemma pres_markCount d : forall r, pres (markCount d r). Proof. induction d as [|d IH]; intros; cbn [markCount]; unfold marked, low, high, setMark; pr. Qed.
Lemma pres_nodeCount r : pres (bddNodeCount r). Proof. pose proof pres_markCount. pose proof pres_unmark. unfold bddNodeCount. pr. Qed.

Lemma pres_addVariable v : pres (addVariable v). Proof. pose proof pres_makeNode. unfold addVariable, popref, setRefcou. pr. Qed.
Lemma pres_setVars n : pres (setNumberOfVars n). Proof.
  unfold setNumberOfVars, setLevel. destruct (_ || _); [apply pres_bad|]. apply pres_bind; [apply pres_up; intros i; apply pres_addVariable|intros _].
  pr.
Qed.
Lemma pres_newOrd n (l : list formula) : pres (setNumberOfVars n ~; for_each l (fun v => _ <~ getOrAddVarIndex v; kret tt)). Proof. apply pres_bind; [apply pres_setVars|intros _]. apply pres_each. intros v. apply pres_bind; [apply pres_index|intros _]. apply pres_ret. Qed.

(** ** With the factory *)
Definition cpres {A} (m : C A) : Prop := forall s k, nocount k -> match m s k with CRet _ _ k' => nocount k' | _ => True end.
Lemma cpres_ret {A} (a : A) : cpres (cret a). Proof. intros s k H. exact H. Qed.
Lemma cpres_bind {A B} (m : C A) (f : A -> C B) : cpres m -> (forall a, cpres (f a)) -> cpres (cbind m f).
Proof. intros H G s k Hk. specialize (H s k Hk). unfold cbind. destruct (m s k) as [a s' k'| | |]; auto. apply (G a s' k' H). Qed.
Lemma cpres_onK {A} (m : K A) : pres m -> cpres (onK m).
Proof. intros H s k Hk. specialize (H k Hk). unfold onK. destruct (m k); auto. Qed.
Lemma cpres_onM {A} (m : M A) : cpres (onM m). Proof. intros s k H. unfold onM. destruct (m s) as [[a s']|]; auto. Qed.
Lemma cpres_get {A} (g : state -> A) : cpres (cget g). Proof. intros s k H. exact H. Qed.
Lemma cpres_stuck {A} : cpres (fun _ _ => @CStuck A). Proof. intros s k H. exact I. Qed.
Lemma cpres_panic {A} : cpres (fun _ _ => @CPanic A). Proof. intros s k H. exact I. Qed.
Ltac cp1 :=
  first [ apply cpres_ret | apply cpres_stuck | apply cpres_panic | apply cpres_onM | apply cpres_get | assumption
        | match goal with H : forall _, _ |- _ => apply H end
        | apply cpres_bind; [|intros ?] | apply cpres_onK; pr
        | match goal with |- cpres (match ?x with _ => _ end) => destruct x end ].
Ltac cp := repeat cp1.
Lemma cpres_compOps h rec o ops : (forall f i, cpres (rec f i)) -> forall res i, cpres (compOps h rec o ops res i).
Proof. pose proof pres_apply. pose proof pres_addRef. pose proof pres_delRef. intros Hr. induction ops as [|f ops IH]; intros; cbn [compOps]; cp. Qed.
Lemma cpres_compile cf h n : forall f i, cpres (compile cf h n f i).
Proof.
  pose proof pres_apply. pose proof pres_addRef. pose proof pres_delRef. pose proof pres_litNode. pose proof pres_bnot. induction n as [|n IH]; intros f i; cbn [compile]; [cp|].
  assert (Ho : forall o ops res i, cpres (compOps h (compile cf h n) o ops res i)) by (intros; apply cpres_compOps; auto). cp.
Qed.
Lemma cpres_compileHandler cf h n f : cpres (compileHandler cf h n f).
Proof. pose proof (cpres_compile cf h n). unfold compileHandler. cp. Qed.
Lemma cpres_createModel b : cpres (createModel b). Proof. pose proof pres_allNodes. unfold createModel. cp. Qed.
Lemma cpres_model b : cpres (bddModel b). Proof. pose proof pres_satOne. pose proof cpres_createModel. unfold bddModel. cp. Qed.
Lemma cpres_modelWith b d vs : cpres (bddModelWithVariables b d vs). Proof. pose proof pres_compileLiterals. pose proof pres_satOneSet. pose proof cpres_createModel. unfold bddModelWithVariables. cp. Qed.
Lemma cpres_fullModel b : cpres (bddFullModel b). Proof. pose proof pres_full_. pose proof cpres_createModel. unfold bddFullModel. cp. Qed.
Lemma cpres_support b : cpres (bddSupport b). Proof. pose proof pres_support. pose proof cpres_createModel. unfold bddSupport. cp. Qed.
End Pres.
