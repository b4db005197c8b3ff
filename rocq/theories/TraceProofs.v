(** * The records of a solver with proofs: only given clauses and assumptions; tracing changes no answer *)
From Coq Require Import List Bool Arith ZArith Lia Permutation.
From Verif Require Import Sat Drup Trace.
Import ListNotations.

(** ** The assumptions are not changed by the solver *)
Definition keepA {A} (P : list slit) (r : res A) : Prop := match r with Ret _ s => assumps s = P | _ => True end.
Definition asm {A} (m : S_ A) : Prop := forall P s, assumps s = P -> keepA P (m s).
Lemma keepA_bind {A B} : forall P (m : S_ A) (k : A -> S_ B) s, keepA P (m s) -> (forall a s', assumps s' = P -> keepA P (k a s')) -> keepA P (bind m k s).
Proof. intros P m k s H K. unfold bind. destruct (m s); cbn in *; auto. Qed.
Lemma asm_ret {A} : forall a : A, asm (ret a). Proof. intros a P s H. exact H. Qed.
Lemma asm_modify : forall f, (forall s, assumps (f s) = assumps s) -> asm (modify f). Proof. intros f F P s H. cbn. rewrite F. exact H. Qed.
Lemma asm_gets {A} : forall f : sat -> A, asm (gets f). Proof. intros f P s H. exact H. Qed.
Lemma asm_stuck {A} : asm (@stuck A). Proof. intros P s H. exact I. Qed.
Lemma asm_each {A} : forall (l : list A) f, (forall a, asm (f a)) -> asm (each l f).
Proof. induction l as [|a l IH]; intros f H P s E; [exact E|]. apply keepA_bind; [apply H; auto|]. intros _ s' E'. apply IH; auto. Qed.
Create HintDb asm.
#[global] Hint Resolve asm_ret asm_gets asm_stuck asm_each : asm.
Ltac ka1 := match goal with
  | |- keepA _ (bind _ _ _) => apply keepA_bind; [|intros ? ? ?]
  | |- keepA _ ((match ?x with _ => _ end) _) => destruct x eqn:?
  | |- keepA _ (match ?x with _ => _ end) => destruct x eqn:?
  | |- keepA _ Panic => exact I
  | |- keepA _ Stuck => exact I
  | |- keepA _ (Ret _ _) => assumption
  | |- keepA _ (modify _ _) => apply asm_modify; [intros; reflexivity|assumption]
  | H : forall _, asm _ |- keepA _ _ => apply H; solve [assumption|reflexivity]
  | H : asm _ |- keepA _ _ => apply H; solve [assumption|reflexivity]
  | |- keepA ?P (?m ?s) => let X := fresh in assert (X : asm m) by (solve [auto with asm]); apply X; solve [assumption|reflexivity]
  end.
Ltac ka := cbv beta zeta; repeat (ka1; cbv beta zeta).
Lemma asm_enqueue : forall l r, asm (enqueue l r). Proof. intros l r P s E. exact E. Qed.
#[global] Hint Resolve asm_enqueue : asm.
Lemma asm_setLits : forall c ls, asm (Sat.setLits c ls). Proof. intros l r P s E. exact E. Qed.
Lemma asm_setWat : forall c ls, asm (setWat c ls). Proof. intros l r P s E. exact E. Qed.
Lemma asm_qToEnd : asm qToEnd. Proof. intros P s E. exact E. Qed.
Lemma asm_addW : forall l e, asm (modify (addW l e)). Proof. intros l e P s E. exact E. Qed.
#[global] Hint Resolve asm_setLits asm_setWat asm_qToEnd asm_addW : asm.
Lemma asm_propBin : forall ws, asm (propBin ws).
Proof. induction ws as [|(c, i) ws IH]; intros P s E; cbn [propBin]; ka. Qed.
Lemma asm_enqAtMost : forall c p ls, asm (enqAtMost c p ls).
Proof. induction ls as [|l ls IH]; intros P s E; cbn [enqAtMost]; ka. Qed.
#[global] Hint Resolve asm_propBin asm_enqAtMost : asm.
Lemma asm_propWat : forall p ws kept, asm (propWat p ws kept).
Proof. induction ws as [|(c, b) ws IH]; intros kept P s E; cbn [propWat]; ka; try (apply IH; auto). Qed.
#[global] Hint Resolve asm_propWat : asm.
Lemma asm_propagate : forall n, asm (propagate n).
Proof. induction n as [|n IH]; intros P s E; cbn [propagate]; ka. Qed.
#[global] Hint Resolve asm_propagate : asm.
Lemma asm_look : forall q pc out, asm (look q pc out). Proof. intros q pc out P s E. unfold look. ka. Qed.
#[global] Hint Resolve asm_look : asm.
Lemma asm_looks : forall qs pc out, asm (looks qs pc out).
Proof. induction qs as [|q qs IH]; intros pc out P s E; cbn [looks]; ka; try (apply IH; auto). Qed.
Lemma asm_turn : forall c, asm (turn c). Proof. intros c P s E. unfold turn. ka. Qed.
#[global] Hint Resolve asm_looks asm_turn : asm.
Lemma asm_antecedents : forall c b, asm (antecedents c b). Proof. intros c b P s E. unfold antecedents. ka. Qed.
#[global] Hint Resolve asm_antecedents : asm.
Lemma asm_analyzeLoop : forall n c b i pc out, asm (analyzeLoop n c b i pc out).
Proof. induction n as [|n IH]; intros c b i pc out P s E; cbn [analyzeLoop]; ka; try (apply IH; auto). Qed.
Lemma asm_unseen : forall ls s, assumps (fold_left (fun s (l : slit) => with_seen (upd (seen s) (fst l) false) s) ls s) = assumps s.
Proof. induction ls as [|l ls IH]; intros s; cbn; auto. rewrite IH. auto. Qed.
Lemma asm_redLits : forall abs qs st cl, asm (redLits abs qs st cl).
Proof. induction qs as [|q qs IH]; intros st cl P s E; cbn [redLits]; ka; try (apply IH; auto). cbn. rewrite asm_unseen. auto. Qed.
#[global] Hint Resolve asm_analyzeLoop asm_redLits : asm.
Lemma asm_redLoop : forall n abs st cl, asm (redLoop n abs st cl).
Proof. induction n as [|n IH]; intros abs st cl P s E; destruct st; cbn [redLoop]; ka; try (apply IH; auto). Qed.
#[global] Hint Resolve asm_redLoop : asm.
Lemma asm_minDeep : forall n abs out kept cl, asm (minDeep n abs out kept cl).
Proof. induction out as [|q out IH]; intros kept cl P s E; cbn [minDeep]; ka; try (apply IH; auto). Qed.
Lemma asm_ask : forall A (f : nat -> A), asm (ask f). Proof. intros A f P s E. exact E. Qed.
#[global] Hint Resolve asm_minDeep asm_ask : asm.
Lemma asm_simplifyClause : forall o cm n out, asm (simplifyClause o cm n out).
Proof. intros o cm n out P s E. unfold simplifyClause. ka. cbn. rewrite asm_unseen. auto. Qed.
#[global] Hint Resolve asm_simplifyClause : asm.
Lemma asm_analyze : forall o cm n c, asm (analyze o cm n c).
Proof. intros o cm n c P s E. unfold analyze. ka. Qed.
Lemma asm_seenEach : forall qs, asm (each qs (fun q s => Ret tt (if 0 <? lev s q then with_seen (upd (seen s) (fst q) true) s else s))).
Proof. intros qs. apply asm_each. intros q P s E. destruct (0 <? lev s q); exact E. Qed.
#[global] Hint Resolve asm_analyze asm_seenEach : asm.
Lemma asm_finalLoop : forall m i, asm (finalLoop m i).
Proof. induction i as [|i IH]; intros P s E; cbn [finalLoop]; ka. Qed.
#[global] Hint Resolve asm_finalLoop : asm.
Lemma asm_analyzeFinal : forall p, asm (analyzeFinal p).
Proof. intros p P s E. unfold analyzeFinal. ka. Qed.
Lemma asm_insert : forall v s, assumps (insertVarOrder v s) = assumps s. Proof. intros v s. unfold insertVarOrder. destruct (_ && _); auto. Qed.
Lemma asm_unassign : forall ls s, assumps (fold_right unassign s ls) = assumps s.
Proof. induction ls as [|l ls IH]; intros s; cbn; auto. unfold unassign. rewrite asm_insert. cbn. auto. Qed.
Lemma asm_cancel : forall k, asm (modify (cancelUntil k)).
Proof. intros k. apply asm_modify. intros s. unfold cancelUntil. destruct (nth_error (tlim s) k); auto. cbn. apply asm_unassign. Qed.
Lemma asm_newClause : forall d, asm (newClause d). Proof. intros d P s E. exact E. Qed.
Lemma asm_addWs : forall c ls s, assumps (fold_left (fun s l => addW l (c, None) s) ls s) = assumps s.
Proof. induction ls as [|l ls IH]; intros s; cbn; auto. rewrite IH. auto. Qed.
Lemma asm_attach : forall c, asm (attach c).
Proof. intros c P s E. unfold attach. ka. cbn. rewrite asm_addWs. auto. Qed.
Lemma asm_removeWat : forall p c, asm (removeWat p c). Proof. intros p c P s E. unfold removeWat. ka. Qed.
Lemma asm_removeBin : forall p c, asm (removeBin p c). Proof. intros p c P s E. unfold removeBin. ka. Qed.
#[global] Hint Resolve asm_cancel asm_newClause asm_attach asm_removeWat asm_removeBin asm_analyzeFinal : asm.
Lemma asm_simpleRemove : forall c, asm (simpleRemove c). Proof. intros c P s E. unfold simpleRemove. ka. Qed.
Lemma asm_pickBranch : forall o n, asm (pickBranch o n).
Proof. induction n as [|n IH]; intros P s E; cbn [pickBranch]; ka. Qed.
Lemma asm_resume : forall h, asm (resume h). Proof. intros h P s E. exact E. Qed.
Lemma asm_newLevel : asm newLevel. Proof. intros P s E. exact E. Qed.
#[global] Hint Resolve asm_simpleRemove asm_pickBranch asm_resume asm_newLevel : asm.
Lemma asm_addClause : forall n ps, asm (addClause n ps).
Proof. intros n ps P s E. unfold addClause. ka. Qed.
Lemma asm_saveState : asm saveState. Proof. intros P s E. exact E. Qed.
#[global] Hint Resolve asm_addClause asm_saveState : asm.

(** ** What is recorded *)
Definition kT {A} (P : tsat -> Prop) (r : tres A) : Prop := match r with TRet _ t => P t | _ => True end.
(** an assumption with the proposition at its position *)
Definition aligned (ps : list slit) (qs : list nat) (i : info) : Prop := exists k p q, nth_error ps k = Some p /\ nth_error qs k = Some q /\ i = ([p], Some q).
Section Records.
Variables (ps : list slit) (qs : list nat) (O : list info) (W : info -> Prop).
Hypothesis Wa : forall i, aligned ps qs i -> W i.
Record Good (t : tsat) : Prop := { gd_as : assumps (t_s t) = ps; gd_pr : t_props t = qs; gd_or : exists rs, t_orig t = O ++ rs /\ Forall W rs }.
Definition trk {A} (m : T A) : Prop := forall t, Good t -> kT Good (m t).
Lemma kT_bind {A B} : forall (m : T A) (k : A -> T B) t, kT Good (m t) -> (forall a u, Good u -> kT Good (k a u)) -> kT Good (tbind m k t).
Proof. intros m k t H K. unfold tbind. destruct (m t); cbn in *; auto. Qed.
Lemma trk_lift {A} : forall m : S_ A, asm m -> trk (lift m).
Proof. intros m H t [G1 G2 G3]. unfold lift. specialize (H _ _ G1). destruct (m (t_s t)); cbn in *; auto. split; auto. Qed.
Lemma trk_ret {A} : forall a : A, trk (tret a). Proof. intros a t G. exact G. Qed.
Lemma trk_line : forall p, trk (line p). Proof. intros p t [G1 G2 G3]. split; auto. Qed.
Lemma trk_record : forall i, W i -> trk (record i).
Proof. intros i Hi t [G1 G2 (rs & G3 & G4)]. split; auto. exists (rs ++ [i]). cbn. rewrite G3, app_assoc. split; auto. apply Forall_app; auto. Qed.
Lemma trk_bind {A B} : forall (m : T A) (k : A -> T B), trk m -> (forall a, trk (k a)) -> trk (tbind m k).
Proof. intros m k H K t G. apply kT_bind; auto. Qed.
Lemma trk_get {A B} : forall (f : tsat -> A) (k : A -> T B), (forall a, trk (k a)) -> trk (tbind (tget f) k).
Proof. intros f k K t G. cbn. apply K; auto. Qed.
Hint Resolve trk_ret trk_line : asm.
Ltac kt1 := match goal with
  | |- trk (tbind (tget _) _) => apply trk_get; intros ?
  | |- trk (tbind _ _) => apply trk_bind; [|intros ?]
  | |- trk (match ?x with _ => _ end) => destruct x eqn:?
  | |- trk (lift _) => apply trk_lift; solve [auto with asm|apply asm_modify; intros; reflexivity]
  | |- trk tpanic => intros ? ?; exact I
  | |- trk tstuck => intros ? ?; exact I
  | H : forall _, trk _ |- trk _ => apply H
  | H : trk _ |- trk _ => apply H
  | |- trk _ => solve [auto with asm]
  end.
Ltac kt := cbv beta zeta; repeat (kt1; cbv beta zeta).
Lemma trk_tAddClause : forall n ls p, W (ls, p) -> trk (tAddClause n ls p).
Proof. intros n ls p Hw. unfold tAddClause. apply trk_bind; [apply trk_record; auto|]. intros _. kt. Qed.
Lemma trk_tAdds : forall n is, Forall W is -> trk (tAdds n is).
Proof. induction is as [|(c, p) is IH]; intros H; cbn [tAdds]; [kt|]. inversion H; subst. apply trk_bind; [apply trk_tAddClause; auto|]. intros _. auto. Qed.
Lemma trk_tSave : trk tSave. Proof. unfold tSave. kt. Qed.
Section Search.
Variables (o : oracle) (cm : clauseMin).
Lemma trk_tReduce : forall cs kept, trk (tReduce o cs kept).
Proof. induction cs as [|c cs IH]; intros kept; cbn [tReduce]; kt. Qed.
Lemma trk_tReduceDB : trk (tReduceDB o). Proof. unfold tReduceDB. kt. apply trk_tReduce. Qed.
Hint Resolve trk_tReduceDB : asm.
Lemma trk_tLearn : forall n c, trk (tLearn o cm n c).
Proof. intros n c. unfold tLearn. kt; apply trk_lift; intros P s E; destruct (fst a) as [|l [|l' ls]]; ka. Qed.
Hint Resolve trk_tLearn : asm.
Lemma nth_error_skip' : forall A (l : list A) k p r, skipn k l = p :: r -> nth_error l k = Some p.
Proof. induction l as [|x l IH]; intros [|k] p r H; cbn in *; try discriminate; [injection H; congruence|]. eapply IH; eauto. Qed.
Lemma skipn_S' : forall A k (l : list A) p r, skipn k l = p :: r -> skipn (S k) l = r.
Proof. induction k as [|k IH]; intros [|x l] p r H; cbn in *; try discriminate; [injection H; congruence|]. eapply IH; eauto. Qed.
Lemma trk_tNext : forall rest t, Good t -> rest = skipn (dl (t_s t)) ps -> kT Good (tNextAssumption rest t).
Proof.
  induction rest as [|p rest IH]; intros t G H; cbn [tNextAssumption]; [exact G|]. cbn. symmetry in H.
  assert (Rec : kT Good (recordAssumption p t)).
  { unfold recordAssumption. cbn. destruct (nth_error (t_props t) (dl (t_s t))) as [q|] eqn:Q; [|exact I]. apply trk_record; auto. apply Wa.
    exists (dl (t_s t)), p, q. rewrite (gd_pr _ G) in Q. split; auto. eapply nth_error_skip'; eauto. }
  destruct (val (t_s t) p) as [[|]|].
  - cbn. apply IH.
    + destruct G. split; auto.
    + cbn. unfold dl. cbn. rewrite app_length. cbn. rewrite Nat.add_1_r. symmetry. eapply skipn_S'. exact H.
  - apply kT_bind; auto.
  - apply kT_bind; auto.
Qed.
Lemma trk_tSearchLoop : forall n, trk (tSearchLoop o cm n).
Proof.
  induction n as [|n IH]; [intros ? ?; exact I|]. cbn [tSearchLoop].
  apply trk_bind; [kt|]. intros [c|]; [kt|]. apply trk_bind; [kt|]. intros [|]; [kt|]. apply trk_bind; [kt|]. intros b. apply trk_get. intros s. apply trk_bind; [kt|]. intros _.
  intros t G. cbn -[tbind tNextAssumption skipn]. unfold tbind at 1. cbn [tget]. apply kT_bind.
  - apply trk_tNext; auto. rewrite (gd_as _ G). auto.
  - intros [p|[p|]] u Gu; match goal with |- kT Good (?m u) => cut (trk m); [intros X; apply X; exact Gu|clear u Gu] end; kt.
    apply trk_lift. exact (asm_pickBranch o (S (length (heap a)))).
Qed.
Hint Resolve trk_tSearchLoop : asm.
Lemma trk_tSearch : forall n, trk (tSearch o cm n). Proof. intros n. unfold tSearch. kt. Qed.
Hint Resolve trk_tSearch : asm.
Lemma trk_tSearches : forall k n, trk (tSearches o cm k n). Proof. induction k as [|k IH]; intros n; [intros ? ?; exact I|]; cbn [tSearches]; kt. Qed.
Hint Resolve trk_tSearches : asm.
Lemma trk_tSolve : forall n, trk (tSolve o cm n).
Proof. intros n. unfold tSolve. kt; apply trk_lift; intros P s E; destruct a3; try destruct (conflict s) eqn:Ec; cbn; rewrite ?Ec; exact E. Qed.
End Search.
End Records.

(** ** Tracing changes neither answers nor states *)
Definition era {A} (r : tres A) (r' : res A) : Prop := match r with TRet a t => r' = Ret a (t_s t) | _ => True end.
Definition er {A} (m : T A) (m' : S_ A) : Prop := forall t, era (m t) (m' (t_s t)).
Lemma er_lift {A} : forall m : S_ A, er (lift m) m. Proof. intros m t. unfold lift. destruct (m (t_s t)); cbn; auto. Qed.
Lemma er_ret {A} : forall a : A, er (tret a) (ret a). Proof. intros a t. cbn. auto. Qed.
Lemma er_bind {A B} : forall (m : T A) (m' : S_ A) (k : A -> T B) k', er m m' -> (forall a, er (k a) (k' a)) -> er (tbind m k) (bind m' k').
Proof. intros m m' k k' H K t. specialize (H t). unfold tbind, bind. destruct (m t); cbn in *; auto. rewrite H. apply K. Qed.
Lemma era_bind {A B} : forall (m : T A) (m' : S_ A) (k : A -> T B) k' t, era (m t) (m' (t_s t)) -> (forall a u, era (k a u) (k' a (t_s u))) -> era (tbind m k t) (bind m' k' (t_s t)).
Proof. intros m m' k k' t H K. unfold tbind, bind. destruct (m t); cbn in *; auto. rewrite H. apply K. Qed.
Lemma era_line {B} : forall p (k : unit -> T B) r t, era (k tt (Tsat (t_s t) (t_orig t) (t_proof t ++ [p]) (t_props t))) r -> era (tbind (line p) k t) r.
Proof. auto. Qed.
Lemma er_tAddClause : forall n ps p, er (tAddClause n ps p) (addClause n ps).
Proof.
  intros n ps p t. unfold tAddClause, tbind at 1. cbn [record]. set (u := Tsat _ _ _ _). change (t_s t) with (t_s u). unfold tbind at 1. cbn [tget]. destruct (ok (t_s u)) eqn:Ok; cbn [negb].
  2:{ cbn. unfold addClause. change (t_s u) with (t_s t) in Ok. rewrite Ok. auto. }
  destruct (simplifyNew (t_s u) (sortL ps) None) as [ls|]; [|apply er_lift].
  assert (X : forall v, t_s v = t_s u -> era ((b <=| lift (addClause n ps) ;; _ <=| match ls with [] | [_] => if b then tret tt else line (false, []) | _ => tret tt end ;; tret b) v) (addClause n ps (t_s u))).
  { intros v Ev. rewrite <- Ev. unfold tbind, lift. destruct (addClause n ps (t_s v)) as [b s| |]; cbn; auto. destruct ls as [|? [|? ?]], b; cbn; auto. }
  destruct (existsb _ ps); unfold tbind at 1; cbn; apply X; auto.
Qed.
Section Erase.
Variables (o : oracle) (cm : clauseMin).
Lemma er_tReduce : forall cs kept, er (tReduce o cs kept) (reduce o cs kept).
Proof.
  induction cs as [|c cs IH]; intros kept; cbn [tReduce reduce]; [apply er_lift|]. apply er_bind; [apply er_lift|]. intros b t. unfold tbind at 1. cbn [tget].
  destruct (b && _ && _); [|apply IH]. unfold tbind at 1. cbn [line]. apply (er_bind (lift (simpleRemove c)) (simpleRemove c) (fun _ => tReduce o cs kept) (fun _ => reduce o cs kept) (er_lift _) (fun _ => IH kept) (Tsat _ _ _ _)).
Qed.
Lemma er_tReduceDB : er (tReduceDB o) (reduceDB o).
Proof. unfold tReduceDB, reduceDB. apply er_bind; [apply er_lift|]. intros srt t. apply er_tReduce. Qed.
Lemma er_tNext : forall ps, er (tNextAssumption ps) (nextAssumption ps).
Proof.
  induction ps as [|p ps IH]; intros t; cbn [tNextAssumption nextAssumption]; [exact (er_ret _ t)|]. unfold tbind at 1. cbn [tget].
  destruct (val (t_s t) p) as [[|]|]; [apply (er_bind (lift newLevel) newLevel); [apply er_lift|auto]| |]; unfold tbind, recordAssumption; cbn; destruct (nth_error _ _); cbn; auto.
Qed.
Lemma er_tLearn : forall n c, er (tLearn o cm n c) (learn o cm n c).
Proof.
  intros n c. unfold tLearn, learn. apply er_bind; [apply er_lift|]. intros x. apply er_bind; [apply er_lift|]. intros _ t. unfold tbind at 1. cbn [line].
  match goal with |- era (lift ?m ?v) _ => exact (er_lift m v) end.
Qed.
Lemma er_tSearchLoop : forall n, er (tSearchLoop o cm n) (searchLoop o cm n).
Proof.
  induction n as [|n IH]; cbn [tSearchLoop searchLoop]; [intros t; exact I|]. apply er_bind; [apply er_lift|]. intros [c|].
  - apply er_bind; [apply er_lift|]. intros [|]; cbn [negb]; [|apply er_ret]. intros t. unfold tbind at 1. cbn [tget]. destruct (tlim (t_s t)); [exact (er_ret _ t)|].
    apply (er_bind (tLearn o cm (S n) c) (learn o cm (S n) c)); [apply er_tLearn|auto].
  - apply er_bind; [apply er_lift|]. intros [|]; [apply er_bind; [apply er_lift|intros _; apply er_ret]|]. apply er_bind; [apply er_lift|]. intros b t. unfold tbind at 1. cbn [tget].
    apply era_bind.
    + destruct b; [|exact (er_ret _ t)]. destruct (learnts (t_s t)); [exact (er_ret _ t)|apply er_tReduceDB].
    + intros _ u. unfold tbind at 1. cbn [tget]. apply (era_bind (tNextAssumption _) (nextAssumption _)); [apply er_tNext|]. intros [p|[p|]] v.
      * apply (er_bind (lift (analyzeFinal (neg p))) (analyzeFinal (neg p))); [apply er_lift|intros _; apply er_ret].
      * apply (er_bind (lift newLevel) newLevel); [apply er_lift|]. intros _. apply er_bind; [apply er_lift|auto].
      * unfold tbind at 1. cbn [tget]. apply (era_bind (lift (pickBranch o (S (length (heap (t_s v)))))) (pickBranch o (S (length (heap (t_s v)))))); [apply er_lift|]. intros [p|] w; [|exact (er_ret _ w)].
        apply (er_bind (lift newLevel) newLevel); [apply er_lift|]. intros _. apply er_bind; [apply er_lift|auto].
Qed.
Lemma er_tSearches : forall k n, er (tSearches o cm k n) (searches o cm k n).
Proof.
  induction k as [|k IH]; intros n; cbn [tSearches searches]; [intros t; exact I|]. apply er_bind; [|intros [ | | ]; try apply er_ret; auto].
  intros t. unfold tSearch, search. unfold tbind. cbn. destruct (ok (t_s t)); [apply er_tSearchLoop|exact (er_ret _ t)].
Qed.
Lemma er_tSolve : forall n, er (tSolve o cm n) (solve o cm n).
Proof.
  intros n. unfold tSolve, solve. apply er_bind; [apply er_lift|]. intros [|]; cbn [negb]; [|apply er_ret]. apply er_bind; [apply er_lift|]. intros _. apply er_bind; [apply er_lift|]. intros _ t.
  unfold tbind at 1. cbn [tget]. destruct (ok (t_s t)); cbn [negb]; [|exact (er_ret _ t)]. apply (era_bind (tSearches o cm n n) (searches o cm n n)); [apply er_tSearches|].
  intros r u. unfold tbind at 1. cbn [tget].
  match goal with |- era (tbind ?m ?k u) ?e => assert (X : forall v, t_s v = t_s u -> era (k tt v) e) end.
  { intros v Ev. cbv beta. rewrite <- Ev. revert v Ev. intros v _. match goal with |- era (?m v) (?m' (t_s v)) => cut (er m m'); [intros X; apply X|] end.
    apply er_bind; [apply er_lift|]. intros _. apply er_bind; [apply er_lift|]. intros _. apply er_bind; [apply er_lift|]. intros b. apply er_ret. }
  destruct r; try destruct (assumps (t_s u)); unfold tbind at 1; cbn [tret line]; apply X; auto.
Qed.
End Erase.
