(** * Unsat cores (C39) and tracing (C55)

    [SatSpec] says what a clause means.  A clause is given to the solver with an optional proposition; what a
    proposition means is a relation [truth] that the theorems quantify over. *)
From Coq Require Import List Bool Arith ZArith Lia Permutation.
From Verif Require Import SatSpec Sat SatInv SatProp SatProps Drup DrupProofs DrupSound Trace TraceProofs CoreProofs.
Import ListNotations.

(** Histories of a solver that records proofs: new variables, clauses with their propositions, at-most constraints, saved and
    loaded states, and calls.  [g]: the clauses given so far and not removed by loading a state, in order; [stk]: the saved
    states that can be loaded, with the clauses given at that time. *)
Inductive reachT : tsat -> list info -> list (tsaved * list info) -> Prop :=
| rt_new : reachT tNew [] []
| rt_var : forall t g stk sign dvar v t', reachT t g stk -> tNewVar sign dvar t = TRet v t' -> reachT t' g stk
| rt_add : forall t g stk n ls p b t', reachT t g stk -> tAddClause n ls p t = TRet b t' -> reachT t' (g ++ [(ls, p)]) stk
| rt_atmost : forall t g stk n ls k t', reachT t g stk -> tAddAtMost n ls k t = TRet tt t' -> reachT t' g stk
| rt_save : forall t g stk x t', reachT t g stk -> tSave t = TRet x t' -> reachT t' g ((x, g) :: stk)
| rt_load : forall t g above x g0 stk n t', reachT t g (above ++ (x, g0) :: stk) -> tLoad n x t = TRet true t' -> reachT t' g0 ((x, g0) :: stk)
| rt_call : forall t g stk o cm hash key n lits props r t', reachT t g stk -> tCall o cm hash key n lits props t = TRet r t' -> reachT t' g stk.

(** the clauses of a call: the given ones, those of the additional propositions, and the additional literals *)
Definition atCall (g : list info) (lits : list (slit * nat)) (props : list (nat * list (list slit))) : list info :=
  g ++ clausesOf props ++ map (fun l => ([fst l], Some (snd l))) lits.
(** the additional literals come in the order of their numbers in the formula factory *)
Definition inOrder (key : slit -> nat) (lits : list (slit * nat)) : Prop := forall l1 a b l2, lits = l1 ++ a :: b :: l2 -> key (fst a) <= key (fst b).

(** ** Proofs *)
Fixpoint chain (g : list info) (stk : list (tsaved * list info)) : Prop :=
  match stk with [] => True | (x, g0) :: r => ts_orig x = length g0 /\ (exists r', g = g0 ++ r') /\ chain g0 r end.
Lemma chain_app : forall stk g l, chain g stk -> chain (g ++ l) stk.
Proof. intros [|(x, g0) r] g l H; cbn in *; auto. destruct H as (A & (r' & ->) & C). split; auto. split; auto. exists (r' ++ l). rewrite app_assoc. auto. Qed.
Lemma chain_mid : forall above g x g0 stk, chain g (above ++ (x, g0) :: stk) -> ts_orig x = length g0 /\ (exists r, g = g0 ++ r) /\ chain g0 stk.
Proof.
  induction above as [|(y, h) above IH]; intros g x g0 stk H; cbn in H; auto. destruct H as (_ & (r' & ->) & C). destruct (IH _ _ _ _ C) as (A & (r & ->) & B). split; auto. split; auto. exists (r ++ r'). rewrite app_assoc. auto.
Qed.
Lemma lift_orig {A} : forall (m : S_ A) t a t', lift m t = TRet a t' -> t_orig t' = t_orig t /\ t_props t' = t_props t.
Proof. intros m t a t' H. unfold lift in H. destruct (m (t_s t)); try discriminate. injection H as <- <-. auto. Qed.
Lemma insertK_head : forall key l ls, (forall m r, ls = m :: r -> key l <= key m) -> insertK key l ls = l :: ls.
Proof. intros key l [|m ls] H; cbn; auto. rewrite (proj2 (Nat.leb_le _ _) (H _ _ eq_refl)). auto. Qed.
Lemma sortK_id : forall key lits, inOrder key lits -> sortK key (map fst lits) = map fst lits.
Proof.
  induction lits as [|a lits IH]; intros H; cbn; auto. rewrite IH; [|intros l1 x y l2 E; apply (H (a :: l1) x y l2); cbn; congruence]. apply insertK_head. intros m r E.
  destruct lits as [|b lits]; [discriminate|]. injection E as <- _. apply (H [] a b lits eq_refl).
Qed.
Lemma aligned_in : forall lits i, aligned (map fst lits) (map snd lits) i -> In i (map (fun l : slit * nat => ([fst l], Some (snd l))) lits).
Proof.
  intros lits i (k & p & q & A & B & ->). rewrite nth_error_map in A, B. destruct (nth_error lits k) as [(l, r)|] eqn:E; [|discriminate]. injection A as <-. injection B as <-. apply in_map_iff. exists (l, r). split; auto. eapply nth_error_In; eauto.
Qed.
Lemma Good_W : forall ps qs O (W W' : info -> Prop) t, (forall i, W i -> W' i) -> Good ps qs O W t -> Good ps qs O W' t.
Proof. intros ps qs O W W' t H [G1 G2 (rs & G3 & G4)]. split; auto. exists rs. split; auto. eapply Forall_impl; eauto. Qed.

(** what a call records, and what it leaves *)
Lemma tCall_ok : forall o cm hash key n lits props t r t', tCall o cm hash key n lits props t = TRet r t' ->
  t_orig t' = t_orig t /\
  forall core, snd r = Some core -> exists u, computeCore hash n u = TRet core u /\
    exists rs, t_orig u = t_orig t ++ rs /\ Forall (fun i => In i (clausesOf props) \/ aligned (sortK key (map fst lits)) (map snd lits) i) rs.
Proof.
  intros o cm hash key n lits props t r t' H. unfold tCall, tbind at 1 in H. cbn [tget] in H. unfold tbind at 1 in H. cbn [lift modify] in H. unfold tbind at 1 in H. cbn [setProps t_s t_orig t_proof] in H.
  set (ps := sortK key (map fst lits)) in *. set (qs := map snd lits) in *. set (W := fun i => In i (clausesOf props) \/ aligned ps qs i).
  match type of H with tbind _ _ ?t1 = _ => assert (G1 : Good ps qs (t_orig t) W t1) by (split; auto; exists []; rewrite app_nil_r; auto); set (T1 := t1) in * end.
  unfold tbind at 1 in H. match type of H with match ?m with _ => _ end = _ => destruct m as [st t2| |] eqn:E2; try discriminate end.
  assert (G2 : Good ps qs (t_orig t) W t2 /\ match st with Some x => ts_orig x = length (t_orig t) | None => True end).
  { destruct props as [|p props]; [injection E2 as <- <-; auto|]. unfold tbind at 1 in E2. destruct (tSave T1) as [x t3| |] eqn:E3; try discriminate.
    pose proof (trk_tSave ps qs (t_orig t) W T1 G1) as G3. rewrite E3 in G3. cbn [kT] in G3.
    pose proof (trk_tAdds ps qs (t_orig t) W n (clausesOf (p :: props))) as G4. unfold tbind in E2. destruct (tAdds n (clausesOf (p :: props)) t3) as [[] t4| |] eqn:E4; try discriminate. injection E2 as <- <-.
    assert (Fw : Forall W (clausesOf (p :: props))) by (apply Forall_forall; intros i Hi; left; auto). specialize (G4 Fw _ G3). rewrite E4 in G4. split; [exact G4|].
    unfold tSave, tbind in E3. cbn in E3. injection E3 as <- _. auto. }
  destruct G2 as (G2 & Hst). clear E2. unfold tbind at 1 in H. destruct (tSolve o cm n t2) as [a t3| |] eqn:E3; try discriminate.
  pose proof (trk_tSolve ps qs (t_orig t) W (fun i Hi => or_intror Hi) o cm n t2 G2) as G3. rewrite E3 in G3. cbn [kT] in G3. clear E3.
  unfold tbind at 1 in H. match type of H with match ?m with _ => _ end = _ => destruct m as [c t4| |] eqn:E4; try discriminate end.
  assert (t4 = t3 /\ forall core, c = Some core -> computeCore hash n t3 = TRet core t3) as (-> & Hc).
  { destruct a as [[|]|]; try (injection E4 as <- <-; split; auto; discriminate). unfold tbind in E4. destruct (computeCore hash n t3) as [cc t5| |] eqn:E5; try discriminate. injection E4 as <- <-.
    assert (t5 = t3) as -> by (eapply (computeCore_ok _ _ _ _ _ E5)). split; auto. intros core X. injection X as <-. auto. }
  clear E4. unfold tbind at 1 in H. cbn [lift modify] in H. unfold tbind at 1 in H. cbn [setProps] in H. unfold tbind at 1 in H. cbn [shrinkOrig t_s t_orig t_proof t_props] in H.
  destruct G3 as [_ _ (rs & G3 & G4)].
  unfold tbind at 1 in H. match type of H with match ?m with _ => _ end = _ => destruct m as [[] t5| |] eqn:E5; try discriminate end. injection H as <- <-.
  assert (Fo : firstn (length (t_orig t)) (t_orig t3) = t_orig t) by (rewrite G3, firstn_app, firstn_all, Nat.sub_diag, firstn_O, app_nil_r; auto).
  split.
  - destruct st as [x|]; [|injection E5 as <-; auto]. unfold tbind at 1 in E5. unfold tLoad, tbind at 1 in E5.
    match type of E5 with context [lift ?m ?u] => destruct (lift m u) as [b t6| |] eqn:E6; try discriminate end. apply lift_orig in E6 as (E6 & _). cbn [t_orig] in E6.
    destruct b; cbn in E5; [|discriminate]. injection E5 as <-. cbn. rewrite E6, Hst, Fo. apply firstn_all.
  - intros core X. cbn in X. exists t3. split; auto. exists rs. auto.
Qed.

Lemma reachT_ok : forall t g stk, reachT t g stk -> t_orig t = g /\ chain g stk.
Proof.
  intros t g stk H. induction H as [|t g stk sign dvar v t' _ (I1 & I2) E|t g stk n ls p b t' _ (I1 & I2) E|t g stk n ls k t' _ (I1 & I2) E|t g stk x t' _ (I1 & I2) E|t g above x g0 stk n t' _ (I1 & I2) E|t g stk o cm hash key n lits props r t' _ (I1 & I2) E].
  - split; cbn; auto.
  - apply lift_orig in E as (-> & _). auto.
  - split; [|apply chain_app; auto]. unfold tAddClause, tbind at 1 in E. cbn [record] in E. set (t1 := Tsat _ _ _ _) in E.
    assert (O1 : t_orig t1 = g ++ [(ls, p)]) by (cbn; rewrite I1; auto). clearbody t1. rewrite <- O1. clear O1 I1 I2. unfold tbind at 1 in E. cbn [tget] in E.
    destruct (negb (ok (t_s t1))); [injection E as <- <-; auto|]. destruct (simplifyNew _ _ _) as [l|]; [|apply lift_orig in E; apply E].
    unfold tbind at 1 in E. match type of E with match ?m with _ => _ end = _ => destruct m as [[] t2| |] eqn:E2; try discriminate end.
    assert (t_orig t2 = t_orig t1) as <- by (destruct (existsb _ ls); cbn in E2; injection E2 as <-; auto).
    unfold tbind at 1 in E. destruct (lift (addClause n ls) t2) as [c t3| |] eqn:E3; try discriminate. apply lift_orig in E3 as (<- & _).
    unfold tbind in E. destruct l as [|? [|? ?]]; try destruct c; cbn in E; injection E as _ <-; auto.
  - apply lift_orig in E as (-> & _). auto.
  - unfold tSave, tbind in E. cbn in E. injection E as <- <-. cbn. split; auto. split; [rewrite I1; auto|]. split; auto. exists []. rewrite app_nil_r. auto.
  - apply chain_mid in I2 as (A & (r & ->) & C). unfold tLoad, tbind at 1 in E. destruct (lift (loadState n (ts_core x)) t) as [b t1| |] eqn:E1; try discriminate. apply lift_orig in E1 as (E1 & _).
    destruct b; cbn in E; [|discriminate]. injection E as <-. cbn. split.
    + rewrite E1, I1, A, firstn_app, firstn_all, Nat.sub_diag, firstn_O, app_nil_r. auto.
    + split; auto. split; auto. exists []. rewrite app_nil_r. auto.
  - apply tCall_ok in E as (-> & _). auto.
Qed.
Lemma tr_holds : forall a ls, tr a ls <-> holds a (SomeOf ls).
Proof. intros a ls. unfold tr. cbn. split; intros (l & A & B); exists l; split; auto; rewrite lit_alit in *; auto. Qed.

(** ** C39: the core of a call *)

(** The propositions of a core are given ones or, for clauses without a proposition, the clauses; together they are
    unsatisfiable.  [ext a] gives the values of the auxiliary variables that the clauses of a proposition use: whenever a
    proposition is true, its clauses are.  Partial: the literals of the call have to be in the order of the factory (refuted
    otherwise, see below), and it is not said that a core is returned for every unsatisfiable call (refuted, see below). *)
Theorem C39_core_partial : forall o cm hash key n lits props t g stk r core t' (truth : nat -> assignment -> Prop) (ext : assignment -> assignment),
  reachT t g stk -> inOrder key lits ->
  (forall c p a, In (c, Some p) (atCall g lits props) -> truth p a -> holds (ext a) (SomeOf c)) ->
  tCall o cm hash key n lits props t = TRet (r, Some core) t' ->
  (forall q, In q core -> match q with
     | Given p => exists c, In (c, Some p) (atCall g lits props)
     | OfClause ls => exists c, In (c, None) (atCall g lits props) /\ Permutation ls c
     end) /\
  (forall a, ~ forall q, In q core -> match q with Given p => truth p a | OfClause ls => holds (ext a) (SomeOf ls) end).
Proof.
  intros o cm hash key n lits props t g stk r core t' truth ext R Ord Hyp H. destruct (reachT_ok _ _ _ R) as (Og & _).
  destruct (tCall_ok _ _ _ _ _ _ _ _ _ _ H) as (_ & X). destruct (X core eq_refl) as (u & C & rs & Ou & F). rewrite (sortK_id _ _ Ord) in F.
  assert (In' : forall i, In i (t_orig u) -> In i (atCall g lits props)).
  { intros i Hi. rewrite Ou, Og in Hi. unfold atCall. apply in_app_or in Hi as [Hi|Hi]; [apply in_or_app; auto|]. rewrite Forall_forall in F. apply F in Hi as [Hi|Hi]; [|apply aligned_in in Hi]; rewrite !in_app_iff; auto. }
  apply computeCore_ok in C as (_ & C1 & C2). split.
  - intros q Hq. destruct (C1 q Hq) as ((c, p) & Hi & ->). apply In' in Hi. unfold propOf. cbn. destruct p as [p|]; [exists c; auto|]. exists c. split; auto. apply sortN_perm.
  - intros a A. apply (C2 (fun q => match q with Given p => truth p a | OfClause ls => holds (ext a) (SomeOf ls) end) (ext a)); auto.
    intros (c, p) Hi T. apply In' in Hi. apply tr_holds. unfold propOf in T. cbn in T |- *. destruct p as [p|]; [eapply Hyp; eauto|]. destruct T as (l & L1 & L2). exists l. split; auto. eapply Permutation_in; [apply sortN_perm|]. auto.
Qed.

(** ** C55: recording proofs changes no answer *)

(** the same call on a solver that does not record proofs *)
Fixpoint plainAdds (n : nat) (cs : list info) : S_ unit := match cs with [] => ret tt | c :: r => addClause n (fst c) ;;; plainAdds n r end.
Definition plainCall (o : oracle) (cm : clauseMin) (key : slit -> nat) (n : nat) (lits : list (slit * nat)) (props : list (nat * list (list slit))) : S_ (option bool) :=
  modify (with_assumps (sortK key (map fst lits))) ;;;
  st <-- match props with [] => ret None | _ => x <-- saveState ;; plainAdds n (clausesOf props) ;;; ret (Some x) end ;;
  r <-- solve o cm n ;;
  modify (with_assumps []) ;;;
  match st with Some x => b <-- loadState n x ;; if b : bool then ret tt else panic | None => ret tt end ;;; ret r.
Lemma er_tAdds : forall n cs, er (tAdds n cs) (plainAdds n cs).
Proof. induction cs as [|c cs IH]; cbn [tAdds plainAdds]; [apply er_ret|]. apply er_bind; [apply er_tAddClause|auto]. Qed.
Theorem C55_tracing_add : forall n ls p t b t', tAddClause n ls p t = TRet b t' -> addClause n ls (t_s t) = Ret b (t_s t').
Proof. intros n ls p t b t' H. pose proof (er_tAddClause n ls p t) as X. rewrite H in X. auto. Qed.
Theorem C55_tracing_call : forall o cm hash key n lits props t r core t', tCall o cm hash key n lits props t = TRet (r, core) t' ->
  plainCall o cm key n lits props (t_s t) = Ret r (t_s t').
Proof.
  intros o cm hash key n lits props t r core t' H. unfold tCall, tbind at 1 in H. cbn [tget] in H. unfold tbind at 1 in H. cbn [lift modify] in H. unfold tbind at 1 in H. cbn [setProps t_s t_orig t_proof] in H.
  unfold plainCall. unfold bind at 1. cbn [modify].
  match type of H with tbind _ _ ?t1 = _ => set (T1 := t1) in *; change (with_assumps (sortK key (map fst lits)) (t_s t)) with (t_s T1); clearbody T1 end.
  unfold tbind at 1 in H. match type of H with match ?m with _ => _ end = _ => destruct m as [st t2| |] eqn:E2; try discriminate end.
  set (m := match props with [] => _ | _ => _ end).
  assert (Em : m (t_s T1) = Ret (option_map ts_core st) (t_s t2)).
  { destruct props as [|p props]; [injection E2 as <- <-; auto|]. subst m. unfold bind at 1. unfold tbind at 1, tSave, tbind at 1 in E2. cbn [tget] in E2. unfold tbind at 1 in E2. pose proof (er_lift saveState T1) as X.
    destruct (lift saveState T1) as [x t3| |]; try discriminate. cbn [era] in X. cbn [tret] in E2. rewrite X. unfold tbind in E2. destruct (tAdds n (clausesOf (p :: props)) t3) as [[] t4| |] eqn:E4; try discriminate.
    injection E2 as <- <-. pose proof (er_tAdds n (clausesOf (p :: props)) t3) as Y. rewrite E4 in Y. cbn [era] in Y. unfold bind. rewrite Y. auto. }
  clear E2. unfold bind at 1. rewrite Em. clear Em m. unfold tbind at 1 in H. destruct (tSolve o cm n t2) as [a t3| |] eqn:E3; try discriminate.
  pose proof (er_tSolve o cm n t2) as X. rewrite E3 in X. cbn [era] in X. unfold bind at 1. rewrite X. clear X E3.
  unfold tbind at 1 in H. match type of H with match ?m with _ => _ end = _ => destruct m as [c t4| |] eqn:E4; try discriminate end.
  assert (t4 = t3) as ->.
  { destruct a as [[|]|]; try (injection E4 as <- <-; auto). unfold tbind in E4. destruct (computeCore hash n t3) as [cc t5| |] eqn:E5; try discriminate. injection E4 as <- <-. eapply (computeCore_ok _ _ _ _ _ E5). }
  clear E4. unfold tbind at 1 in H. cbn [lift modify] in H. unfold tbind at 1 in H. cbn [setProps] in H. unfold tbind at 1 in H. cbn [shrinkOrig t_s t_orig t_proof t_props] in H.
  unfold bind at 1. cbn [modify]. unfold tbind at 1 in H. match type of H with match ?m with _ => _ end = _ => destruct m as [[] t5| |] eqn:E5; try discriminate end. injection H as <- _ <-.
  destruct st as [x|]; cbn [option_map]; [|injection E5 as <-; auto]. unfold tbind at 1 in E5. unfold tLoad, tbind at 1 in E5.
  match type of E5 with context [lift ?m ?u] => pose proof (er_lift m u) as X; destruct (lift m u) as [b t6| |]; try discriminate end. cbn [era t_s] in X.
  unfold bind at 1. unfold bind at 1. rewrite X. destruct b; cbn in E5; [|discriminate]. injection E5 as <-. auto.
Qed.

(** ** Concrete calls *)
Definition pos (v : nat) : slit := (v, false).
Definition ngt (v : nat) : slit := (v, true).
Definition number (l : slit) : nat := 2 * fst l + (if snd l then 1 else 0).
Fixpoint buildT (nv : nat) (cs : list info) : T unit :=
  match nv with S nv => _ <=| tNewVar false true ;; buildT nv cs | 0 => tAdds 30 cs end.
Lemma tAdds_reach : forall cs t g t', reachT t g [] -> tAdds 30 cs t = TRet tt t' -> reachT t' (g ++ cs) [].
Proof.
  induction cs as [|(c, p) cs IH]; intros t g t' R H; cbn in H; [injection H as <-; rewrite app_nil_r; auto|]. unfold tbind in H. cbn [fst snd] in H. destruct (tAddClause 30 c p t) as [b t1| |] eqn:E; try discriminate.
  apply (IH _ (g ++ [(c, p)])) in H; [rewrite <- app_assoc in H; auto|]. eapply rt_add; eauto.
Qed.
Lemma buildT_reach : forall nv cs t g t', reachT t g [] -> buildT nv cs t = TRet tt t' -> reachT t' (g ++ cs) [].
Proof.
  induction nv as [|nv IH]; intros cs t g t' R H; cbn [buildT] in H; [eapply tAdds_reach; eauto|]. unfold tbind in H. destruct (tNewVar false true t) as [v t1| |] eqn:E; try discriminate.
  eapply IH; [eapply rt_var; eauto|eauto].
Qed.
Definition outcome {A} (r : tres A) : option A := match r with TRet a _ => Some a | _ => None end.

(** four clauses over two variables, each with its own proposition, are unsatisfiable; the fifth one is not needed *)
Definition squareT : list info := [([pos 0; pos 1], Some 1); ([pos 0; ngt 1], Some 2); ([pos 2; pos 0], Some 5); ([ngt 0; pos 1], Some 3); ([ngt 0; ngt 1], None)].
Example C39_example : forall hash, exists t r t', reachT t squareT [] /\ inOrder number ([] : list (slit * nat)) /\
  tCall goO MinDeep hash number 30 [] [(7, [[pos 2]])] t = TRet (r, Some [Given 1; Given 2; Given 3; OfClause [ngt 1; ngt 0]]) t'.
Proof.
  intros hash. assert (C : match buildT 3 squareT tNew with TRet _ t => outcome (tCall goO MinDeep hash number 30 [] [(7, [[pos 2]])] t) | _ => None end = Some (Some false, Some [Given 1; Given 2; Given 3; OfClause [ngt 1; ngt 0]])) by (vm_compute; reflexivity).
  destruct (buildT 3 squareT tNew) as [[] t| |] eqn:B; try discriminate C. destruct (tCall _ _ _ _ _ _ _ t) as [(r, c) t'| |] eqn:E; try discriminate C. cbn in C. injection C as -> ->.
  exists t, (Some false), t'. split; [apply (buildT_reach _ _ _ _ _ rt_new B)|]. split; auto. intros [|? ?]; discriminate.
Qed.

(** ** Where the code is wrong *)

(** The literals of a call are sorted by their numbers in the factory, their propositions are not (call.go:241-242).  The
    solver has "not x0" (proposition 1); a call with the propositions x1 (3) and x0 (2), in this order, returns the core of
    the propositions 1 and 3, which is satisfiable. *)
Definition truthO (p : nat) (a : assignment) : Prop := match p with 1 => a 0 = false | 2 => a 0 = true | 3 => a 1 = true | _ => False end.
Theorem C39_assumption_order_refuted : forall hash, exists t t' a, let lits := [(pos 1, 3); (pos 0, 2)] in
  reachT t [([ngt 0], Some 1)] [] /\
  (forall c p a, In (c, Some p) (atCall [([ngt 0], Some 1)] lits []) -> truthO p a -> holds a (SomeOf c)) /\
  tCall goO MinDeep hash number 30 lits [] t = TRet (Some false, Some [Given 1; Given 3]) t' /\
  truthO 1 a /\ truthO 3 a.
Proof.
  intros hash. set (lits := [(pos 1, 3); (pos 0, 2)]).
  assert (C : match buildT 2 [([ngt 0], Some 1)] tNew with TRet _ t => outcome (tCall goO MinDeep hash number 30 lits [] t) | _ => None end = Some (Some false, Some [Given 1; Given 3])) by (vm_compute; reflexivity).
  destruct (buildT 2 [([ngt 0], Some 1)] tNew) as [[] t| |] eqn:B; try discriminate C. destruct (tCall goO MinDeep hash number 30 lits [] t) as [r t'| |] eqn:E; try discriminate C. cbn in C. injection C as ->.
  exists t, t', (fun v => v =? 1). split; [apply (buildT_reach _ _ _ _ _ rt_new B)|]. split; [|split; [auto|cbn; auto]].
  intros c p a Hi T. cbn in Hi. destruct Hi as [X|[X|[X|[]]]]; injection X as <- <-; cbn in T; eexists; (split; [left; reflexivity|]); cbn; rewrite T; auto.
Qed.
(** If a contradiction under assumptions is only found after a conflict, no empty clause is appended to the proof
    (core.go:400-404) and the computation of the core panics: x2 makes the clauses unsatisfiable. *)
Definition squareS : list info := [([pos 0; pos 1; ngt 2], Some 1); ([pos 0; ngt 1; ngt 2], Some 2); ([ngt 0; pos 1; ngt 2], Some 3); ([ngt 0; ngt 1; ngt 2], Some 4)].
Theorem C39_assumption_panic_refuted : forall hash, exists t s', reachT t squareS [] /\
  plainCall goO MinDeep number 30 [(pos 2, 5)] [] (t_s t) = Ret (Some false) s' /\ tCall goO MinDeep hash number 30 [(pos 2, 5)] [] t = TPanic.
Proof.
  intros hash. assert (C : match buildT 3 squareS tNew with TRet _ t => (match plainCall goO MinDeep number 30 [(pos 2, 5)] [] (t_s t) with Ret r _ => Some r | _ => None end, match tCall goO MinDeep hash number 30 [(pos 2, 5)] [] t with TPanic => true | _ => false end) | _ => (None, false) end = (Some (Some false), true)) by (vm_compute; reflexivity).
  destruct (buildT 3 squareS tNew) as [[] t| |] eqn:B; try discriminate C. injection C as C1 C2. destruct (plainCall goO MinDeep number 30 [(pos 2, 5)] [] (t_s t)) as [r s'| |] eqn:E; try discriminate C1. injection C1 as ->.
  exists t, s'. split; [apply (buildT_reach _ _ _ _ _ rt_new B)|]. split; auto. destruct (tCall _ _ _ _ _ _ _ t); try discriminate C2. auto.
Qed.
(** At-most constraints are not recorded: with "at most one of x0, x1, x2" and the clauses x0 and x1 the computation panics. *)
Definition atMostT (nv k : nat) (ls : list slit) (z : Z) (cs : list info) : T unit := _ <=| buildT nv [] ;; _ <=| tAddAtMost k ls z ;; tAdds 30 cs.
Lemma atMostT_reach : forall nv k ls z cs t, atMostT nv k ls z cs tNew = TRet tt t -> reachT t cs [].
Proof.
  intros nv k ls z cs t B. unfold atMostT, tbind in B. destruct (buildT nv [] tNew) as [[] t1| |] eqn:B1; try discriminate B. apply (buildT_reach _ _ _ _ _ rt_new) in B1.
  destruct (tAddAtMost k ls z t1) as [[] t2| |] eqn:B2; try discriminate B. eapply rt_atmost in B2; [|exact B1]. apply (tAdds_reach _ _ _ _ B2 B).
Qed.
Theorem C39_at_most_panic_refuted : forall hash, exists t s', reachT t [([pos 0], Some 1); ([pos 1], Some 2)] [] /\
  plainCall goO MinDeep number 30 [] [] (t_s t) = Ret (Some false) s' /\ tCall goO MinDeep hash number 30 [] [] t = TPanic.
Proof.
  intros hash. set (cs := [([pos 0], Some 1); ([pos 1], Some 2)]).
  assert (C : match atMostT 3 30 [pos 0; pos 1; pos 2] 1 cs tNew with TRet _ t => (match plainCall goO MinDeep number 30 [] [] (t_s t) with Ret r _ => Some r | _ => None end, match tCall goO MinDeep hash number 30 [] [] t with TPanic => true | _ => false end) | _ => (None, false) end = (Some (Some false), true)) by (vm_compute; reflexivity).
  destruct (atMostT 3 30 [pos 0; pos 1; pos 2] 1 cs tNew) as [[] t| |] eqn:B; try discriminate C. injection C as C1 C2. destruct (plainCall goO MinDeep number 30 [] [] (t_s t)) as [r s'| |] eqn:E; try discriminate C1. injection C1 as ->.
  exists t, s'. split; [apply (atMostT_reach _ _ _ _ _ _ B)|]. split; auto. destruct (tCall _ _ _ _ _ _ _ t); try discriminate C2; auto.
Qed.

Print Assumptions C39_core_partial.
Print Assumptions C39_assumption_order_refuted.
Print Assumptions C39_assumption_panic_refuted.
Print Assumptions C39_at_most_panic_refuted.
Print Assumptions C55_tracing_add.
Print Assumptions C55_tracing_call.
