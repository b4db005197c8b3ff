(** * The core SAT solver over histories of calls (C37, C38) *)
From Coq Require Import List Bool Arith Lia ZArith Permutation.
From Verif Require Import SatSpec Sat SatInv SatProp SatAna SatMin SatSearch SatAttach SatLoop SatFind SatSolve SatAdd SatState.
Import ListNotations.

(** The states a solver can reach: all histories of calls a client can make. [nv] counts the variables,
    [cs] are the constraints that are in force, [stk] are the saved states that are still valid (the
    latest first) with the variables and constraints present when they were saved, and [hs] are all
    saved states ever returned. The recursion depth [n], the decisions of the heuristics [o] and the
    handler may differ in every call. The handler never aborts at a conflict: see
    [C37_cancelled_conflict_refuted]. At-most constraints are not combined with the basic clause
    minimization: see [C37_basic_minimization_refuted]. [ng] tells whether at-most constraints with negated
    literals are allowed: Solver.Add never produces any, the core solver accepts them. *)
Inductive reach (cm : clauseMin) (ng : bool) : sat -> nat -> list constr -> list (saved * (nat * list constr)) -> list saved -> Prop :=
| reach_new : reach cm ng newSolver 0 [] [] []
| reach_var : forall s nv cs stk hs sign v s', reach cm ng s nv cs stk hs -> newVar sign true s = Ret v s' -> reach cm ng s' (S nv) cs stk hs
| reach_clause : forall s nv cs stk hs n ls b s', reach cm ng s nv cs stk hs -> (forall l, In l ls -> fst l < nv) ->
    addClause n ls s = Ret b s' -> reach cm ng s' nv (SomeOf ls :: cs) stk hs
| reach_atmost : forall s nv cs stk hs n ls k s', reach cm ng s nv cs stk hs -> (forall l, In l ls -> fst l < nv) -> NoDup ls -> cm <> MinBasic -> (ng = false -> forall l, In l ls -> snd l = false) ->
    addAtMost n ls k s = Ret tt s' -> reach cm ng s' nv (AtMostOf ls k :: cs) stk hs
| reach_solve : forall s nv cs stk hs o n ps r s', reach cm ng s nv cs stk hs -> (forall l, In l ps -> fst l < nv) ->
    (forall i l, Permutation (o_sort o i l) l) -> (forall i, o_conf o i = true) ->
    solveWith o cm n ps s = Ret r s' -> reach cm ng s' nv cs stk hs
| reach_event : forall s nv cs stk hs k, reach cm ng s nv cs stk hs -> reach cm ng (with_ev k s) nv cs stk hs (* a caller of the solver asked the handler *)
| reach_save : forall s nv cs stk hs x s', reach cm ng s nv cs stk hs -> saveState s = Ret x s' -> reach cm ng s' nv cs ((x, (nv, cs)) :: stk) (x :: hs)
| reach_load : forall s nv cs nv' cs' above stk hs x n s', reach cm ng s nv cs (above ++ (x, (nv', cs')) :: stk) hs ->
    loadState n x s = Ret true s' -> reach cm ng s' nv' cs' ((x, (nv', cs')) :: stk) hs.

(** ** The invariant *)
Lemma lit_alit : forall a l, alit a l = lit_true a l.
Proof. intros a [v b]. unfold alit, lit_true. cbn. destruct (a v), b; auto. Qed.
Lemma filter_alit : forall a ls, filter (alit a) ls = filter (lit_true a) ls.
Proof. intros a ls. induction ls as [|l r IH]; cbn; auto. rewrite lit_alit, IH. auto. Qed.
Fixpoint Chain (s : sat) (stk : list (saved * (nat * list constr))) : Prop :=
  match stk with
  | [] => True
  | (x, (nv, cs)) :: r => exists t, Ext t s /\ Snap x (models cs) t /\ nvars t = nv /\ Chain t r
  end.
Lemma chain_ext : forall s s' stk, Ext s s' -> Wat s -> Chain s stk -> Chain s' stk.
Proof. intros s s' [|[x [nv cs]] r] E W; auto. intros (t & X & Y). exists t. split; auto. eapply xt_trans; eauto. Qed.
Lemma chain_drop : forall above s x nv cs r, Wat s -> Chain s (above ++ (x, (nv, cs)) :: r) -> exists t, Ext t s /\ Snap x (models cs) t /\ nvars t = nv /\ Chain t r.
Proof.
  induction above as [|[y [m ds]] ab IH]; intros s x nv cs r W C; [exact C|]. destruct C as (u & E & Sn & N & C). pose proof (ba_wat _ (proj1 (sn_inv _ _ _ Sn))) as Wu. destruct (IH u x nv cs r Wu C) as (t & E' & H). exists t. split; auto. eapply xt_trans; eauto.
Qed.
Lemma posAM_perm : forall d d', cperm d d' -> posAM d -> posAM d'.
Proof. intros d d' P H A l I. pose proof P as (_ & E & _). apply H; [congruence|]. eapply cperm_in; eauto. Qed.
Lemma posAM_cl : forall d, c_atm d = false -> posAM d.
Proof. intros d E A. congruence. Qed.
Record SI (cm : clauseMin) (ng : bool) (s : sat) (nv : nat) (cs : list constr) (stk : list (saved * (nat * list constr))) (hs : list saved) : Prop := {
  sv_inv : LInv (models cs) s;
  sv_nv : nvars s = nv;
  sv_na : NA cm s;
  sv_id : (0 <= stateId s)%Z;
  sv_ch : Chain s stk;
  sv_vs : validStates s = rev (map (fun e => s_id (fst e)) stk);
  sv_hs : incl (map fst stk) hs;
  sv_lt : forall x, In x hs -> (s_id x < stateId s)%Z;
  sv_in : forall x y, In x hs -> In y hs -> s_id x = s_id y -> x = y;
  sv_nd : NoDup (map (fun e => s_id (fst e)) stk);
  sv_pos : ng = false -> forall c, posAM (db s c);
  sv_as : assumps s = [] }.
Lemma lastIndex_none : forall x l i, ~ In x l -> lastIndex x l i = None.
Proof. intros x l. induction l as [|y r IH]; intros i H; cbn; auto. rewrite IH by (intros I; apply H; right; auto). destruct (Z.eqb_spec x y) as [->|]; auto. exfalso; apply H; left; auto. Qed.
Lemma lastIndex_mid : forall x l m i, ~ In x m -> lastIndex x (l ++ x :: m) i = Some (i + length l).
Proof. intros x l m. induction l as [|y r IH]; intros i H; cbn [lastIndex app length]. - rewrite lastIndex_none, Z.eqb_refl, Nat.add_0_r; auto. - rewrite IH; auto. f_equal. lia. Qed.
Lemma models_cons : forall c cs a, models (c :: cs) a <-> models cs a /\ holds a c.
Proof. intros. unfold models. split; [intros H; split; [intros d I; apply H; right; auto|apply H; left; auto]|intros [H1 H2] d [<-|I]; auto]. Qed.
Lemma wp_ret_of : forall {A} (m : S_ A) s Q r s', wp m s Q -> m s = Ret r s' -> Q r s'.
Proof. intros A m s Q r s' H E. unfold wp in H. rewrite E in H. exact H. Qed.
Lemma new_linv : LInv (models []) newSolver.
Proof.
  assert (W : Wat newSolver) by (constructor; cbn; auto; try constructor; try (intros; contradiction); intros; lia).
  assert (S : searchInv (models []) newSolver).
  { split; [constructor; auto; [apply empty_asg; auto|intros c []]|]. split; [constructor; cbn; auto; try (intros; lia); intros; contradiction|]. intros q c Iq. destruct Iq. }
  split; [|split; [exact S|split; [reflexivity|]]].
  - apply (base_inv (models [])); auto; apply S.
  - intros a _ _ c [].
Qed.
Lemma linv_save : forall M b z s, (0 <= b)%Z -> LInv M s -> LInv M (with_stateId (stateId s + b)%Z (with_validStates z s)).
Proof.
  intros M b z s Hb [B H]. split.
  - destruct B as [B1 B2 B3 B4 B5 B6 B7]. constructor; auto; [|intros c Ic; specialize (B6 c Ic); change (c_st (db s c) <= stateId s + b)%Z; lia]. apply (wat_same s); auto.
  - change (if ok s then searchInv M (with_stateId (stateId s + b)%Z (with_validStates z s)) /\ qhead s = length (trail s) /\ Comp M s else forall a, ~ M a). destruct (ok s); auto. destruct H as (([A W En] & X & Pr) & Q & C). split; auto. split; [|split; auto].
    + constructor; [destruct A; constructor; assumption|apply (wat_same s); auto|exact En].
    + destruct X as [X1 X2 X3 X4 X5 X6]. constructor; auto. intros c Ic. specialize (X6 c Ic). change (c_st (db s c) <= stateId s + b)%Z. lia.
Qed.
Lemma xt_save : forall b z s, (0 <= b)%Z -> Ext s (with_stateId (stateId s + b)%Z (with_validStates z s)).
Proof. intros b z s Hb. constructor; auto; try (exists []; symmetry; apply app_nil_r); [intros; apply cperm_refl|cbn; lia]. Qed.
Definition keepP (s s' : sat) : Prop := forall P : clause -> Prop, (forall d d', cperm d d' -> P d -> P d') -> (forall d, c_atm d = false -> P d) -> (forall c, P (db s c)) -> forall c, P (db s' c).
Lemma na_same : forall cm s s', NA cm s -> keepP s s' -> NA cm s'.
Proof. intros cm s s' H H' E. apply (H' (fun d => c_atm d = false)); auto. intros d d' (_ & X & _). congruence. Qed.
Lemma pos_same : forall (ng : bool) s s', (ng = false -> forall c, posAM (db s c)) -> keepP s s' -> ng = false -> forall c, posAM (db s' c).
Proof. intros ng s s' H K E. apply (K posAM); auto; [apply posAM_perm|apply posAM_cl]. Qed.

Lemma load_step : forall cm ng s nv cs nv' cs' above stk hs x n, SI cm ng s nv cs (above ++ (x, (nv', cs')) :: stk) hs ->
  wp (loadState n x) s (fun b s' => b = true /\ SI cm ng s' nv' cs' ((x, (nv', cs')) :: stk) hs).
Proof.
  intros cm ng s nv cs nv' cs' above stk hs x n [V1 V2 V3 V4 V5 V6 V7 V8 V9 V10 V11 V12]. pose proof (ba_wat _ (proj1 V1)) as W. destruct (chain_drop _ _ _ _ _ _ W V5) as (t & E & Sn & N & C).
  rewrite map_app in V6, V7, V10. cbn [map fst] in V6, V7, V10. rewrite rev_app_distr in V6. cbn [rev] in V6. rewrite <- app_assoc in V6. cbn [app] in V6.
  assert (Nx : ~ In (s_id x) (rev (map (fun e => s_id (fst e)) above))). { intros I. apply in_rev in I. apply NoDup_remove in V10 as [_ V10]. apply V10, in_or_app. auto. }
  assert (Li : lastIndex (s_id x) (validStates s) 0 = Some (length stk)). { rewrite V6, lastIndex_mid; auto. rewrite rev_length, map_length. auto. }
  eapply wp_mono; [apply (loadState_ok (models cs') n x t s _ (proj1 V1) E Sn Li)|]. cbv beta. intros b s' (-> & L & E' & Nv & Id & Vs & As & Na). split; auto. constructor; auto.
  - congruence.
  - eapply na_same; eauto.
  - lia.
  - exists t. auto.
  - rewrite Vs, V6. cbn [map fst rev]. replace (S (length stk)) with (length (rev (map (fun e : saved * (nat * list constr) => s_id (fst e)) stk) ++ [s_id x])) by (rewrite app_length, rev_length, map_length; cbn; lia).
    match goal with |- firstn _ (?a ++ ?y :: ?b) = _ => replace (a ++ y :: b) with ((a ++ [y]) ++ b) by (rewrite <- app_assoc; auto) end. apply firstn_length_app.
  - intros y Iy. apply V7, in_or_app. auto.
  - intros y Iy. rewrite Id. auto.
  - cbn [map fst]. clear - V10. induction (map (fun e : saved * (nat * list constr) => s_id (fst e)) above); auto. apply IHl. inversion V10; auto.
  - eapply pos_same; eauto.
  - congruence.
Qed.
Lemma reach_SI : forall cm ng s nv cs stk hs, reach cm ng s nv cs stk hs -> SI cm ng s nv cs stk hs.
Proof.
  intros cm ng s nv cs stk hs H. induction H.
  - constructor; auto; try (cbn; auto; fail); try (intros _ c A; discriminate A); try apply incl_refl; try (intros x []); try constructor; try apply new_linv; try (cbn; lia).
  - destruct IHreach as [V1 V2 V3 V4 V5 V6 V7 V8 V9 V10 V11 V12]. pose proof (wp_ret_of _ _ _ _ _ (newVar_ok _ sign s V1) H0) as (_ & L & E & N & Id & Vs & As & D). constructor; auto; try congruence.
    + eapply na_same; eauto. intros P _ _ Z c. rewrite D. auto.
    + eapply chain_ext; eauto. apply V1.
    + intros x Ix. rewrite Id. auto.
    + rewrite D. auto.
  - destruct IHreach as [V1 V2 V3 V4 V5 V6 V7 V8 V9 V10 V11 V12]. assert (Hl : forall l, In l ls -> fst l < nvars s) by (intros; rewrite V2; auto).
    assert (HM : forall a, models (SomeOf ls :: cs) a <-> models cs a /\ exists l, In l ls /\ alit a l = true). { intros a. rewrite models_cons. cbn [holds]. split; intros [X (l & Y & Z)]; (split; [exact X|exists l; split; auto; rewrite <- Z; try apply lit_alit; symmetry; apply lit_alit]). }
    pose proof (wp_ret_of _ _ _ _ _ (addClause_ok _ _ n ls s V1 V4 Hl HM) H1) as (L & (E & Me) & _ & Na). unfold meta in Me. inversion Me. constructor; auto; try congruence.
    + eapply na_same; eauto.
    + eapply chain_ext; eauto. apply V1.
    + intros x Ix. replace (stateId s') with (stateId s) by congruence. auto.
    + eapply pos_same; eauto.
  - destruct IHreach as [V1 V2 V3 V4 V5 V6 V7 V8 V9 V10 V11 V12]. assert (Hl : forall l, In l ls -> fst l < nvars s) by (intros; rewrite V2; auto).
    assert (HM : forall a, models (AtMostOf ls k :: cs) a <-> models cs a /\ (cntA a ls <= k)%Z). { intros a. rewrite models_cons. cbn [holds]. unfold cntA. rewrite filter_alit. reflexivity. }
    pose proof (wp_ret_of _ _ _ _ _ (addAtMost_ok _ _ n ls k s V1 V4 H1 Hl HM) H4) as (L & (E & Me) & Na). unfold meta in Me. inversion Me. constructor; auto; try congruence.
    + eapply chain_ext; eauto. apply V1.
    + intros x Ix. replace (stateId s') with (stateId s) by congruence. auto.
    + intros Eg. apply Na; [apply posAM_perm|apply posAM_cl| |auto]. intros d Id _ l Il. apply H3; auto.
  - destruct IHreach as [V1 V2 V3 V4 V5 V6 V7 V8 V9 V10 V11 V12]. assert (Hl : forall l, In l ps -> fst l < nvars s) by (intros; rewrite V2; auto).
    pose proof (wp_ret_of _ _ _ _ _ (solveWith_ok o cm (models cs) H1 H2 n ps s V1 V3 Hl) H3) as (L & F & As & _). pose proof (xt_frok _ _ F) as E. pose proof (fr_same _ _ F) as Es. cbn in Es. inversion Es.
    assert (E' : Ext s s') by (destruct E; constructor; auto). constructor; auto; try congruence.
    + eapply na_same; [exact V3|]. exact (fr_na _ _ F).
    + eapply chain_ext; eauto. apply V1.
    + intros x Ix. replace (stateId s') with (stateId s) by congruence. auto.
    + eapply pos_same; [exact V11|]. exact (fr_na _ _ F).
  - destruct IHreach as [V1 V2 V3 V4 V5 V6 V7 V8 V9 V10 V11 V12]. constructor; auto. + apply linv_ev; auto. + eapply chain_ext; eauto; [|apply V1]. constructor; auto; try (exists []; rewrite app_nil_r; auto); intros; first [apply cperm_refl|reflexivity].
  - destruct IHreach as [V1 V2 V3 V4 V5 V6 V7 V8 V9 V10 V11 V12]. unfold saveState in H0. inversion H0; subst; clear H0. set (t := with_stateId (stateId s + 1)%Z (with_validStates (validStates s ++ [stateId s]) s)).
    assert (L : LInv (models cs) t) by (apply linv_save; auto; lia). assert (E : Ext s t) by (apply xt_save; lia). constructor; auto.
    + change (0 <= stateId s + 1)%Z. lia.
    + exists t. split; [apply xt_refl|]. split; [constructor; auto|]. split; auto. eapply chain_ext; eauto. apply V1.
    + change (validStates t) with (validStates s ++ [stateId s]). cbn [map rev fst s_id]. rewrite V6. auto.
    + cbn [map fst]. intros y [<-|Iy]; [left; auto|right; auto].
    + change (stateId t) with (stateId s + 1)%Z. intros y [<-|Iy]; [cbn; lia|]. specialize (V8 y Iy). lia.
    + intros y z [<-|Iy] [<-|Iz]; auto; cbn [s_id]; intros Ez; [specialize (V8 z Iz)|specialize (V8 y Iy)]; lia.
    + cbn [map fst s_id]. constructor; auto. intros I. apply in_map_iff in I as (e & Y & Ie). assert (In (fst e) hs) by (apply V7, in_map; auto). specialize (V8 _ H0). lia.
  - pose proof (wp_ret_of _ _ _ _ _ (load_step _ _ _ _ _ _ _ _ _ _ _ n IHreach) H0) as [_ Y]. exact Y.
Qed.

(** ** C37: the answers of the solver *)
(** decisions of the heuristics and a handler that lets every search run *)
Definition fair (o : oracle) : Prop := (forall i l, Permutation (o_sort o i l) l) /\ (forall i, o_conf o i = true).
Definition all_true (a : assignment) (ps : list (nat * bool)) : Prop := forall p, In p ps -> lit_true a p = true.

(** a satisfiable answer comes with an assignment of all variables that satisfies everything *)
Theorem C37_satisfiable : forall cm ng s nv cs stk hs o n ps s', reach cm ng s nv cs stk hs -> (forall l, In l ps -> fst l < nv) -> fair o ->
  solveWith o cm n ps s = Ret (Some true) s' ->
  length (model s') = nv /\ models cs (fun v => nth v (model s') false) /\ all_true (fun v => nth v (model s') false) ps.
Proof.
  intros cm ng s nv cs stk hs o n ps s' H Hp [F1 F2] E. apply reach_SI in H as [V1 V2 V3 _ _ _ _ _ _ _ _].
  assert (Hl : forall l, In l ps -> fst l < nvars s) by (intros; rewrite V2; auto).
  destruct (wp_ret_of _ _ _ _ _ (solveWith_ok o cm (models cs) F1 F2 n ps s V1 V3 Hl) E) as (_ & _ & _ & (A1 & A2 & A3) & _). split; [congruence|]. split; auto. intros p Ip. rewrite <- lit_alit. auto.
Qed.
(** an unsatisfiable answer is right; the reported literals are negations of assumptions, and one of them holds in every model *)
Theorem C37_unsatisfiable : forall cm ng s nv cs stk hs o n ps s', reach cm ng s nv cs stk hs -> (forall l, In l ps -> fst l < nv) -> fair o ->
  solveWith o cm n ps s = Ret (Some false) s' ->
  (forall a, models cs a -> ~ all_true a ps) /\
  (forall q, In q (conflict s') -> In (fst q, negb (snd q)) ps) /\ (forall a, models cs a -> exists q, In q (conflict s') /\ lit_true a q = true).
Proof.
  intros cm ng s nv cs stk hs o n ps s' H Hp [F1 F2] E. apply reach_SI in H as [V1 V2 V3 _ _ _ _ _ _ _ _].
  assert (Hl : forall l, In l ps -> fst l < nvars s) by (intros; rewrite V2; auto).
  destruct (wp_ret_of _ _ _ _ _ (solveWith_ok o cm (models cs) F1 F2 n ps s V1 V3 Hl) E) as (_ & _ & _ & (A1 & A2 & _) & _).
  assert (A3 : forall a, models cs a -> exists q, In q (conflict s') /\ lit_true a q = true). { intros a Ma. destruct (A2 a Ma) as (q & Iq & Tq). exists q. split; auto. rewrite <- lit_alit. auto. }
  split; [|split; auto]. intros a Ma T. destruct (A3 a Ma) as (q & Iq & Tq). specialize (T _ (A1 q Iq)). unfold lit_true in *. destruct q as [v b]. cbn in *. destruct (a v), b; discriminate.
Qed.
(** no literal is reported twice *)
Theorem C37_core_distinct : forall cm ng s nv cs stk hs o n ps s', reach cm ng s nv cs stk hs -> (forall l, In l ps -> fst l < nv) -> fair o ->
  solveWith o cm n ps s = Ret (Some false) s' -> NoDup (conflict s').
Proof.
  intros cm ng s nv cs stk hs o n ps s' H Hp [F1 F2] E. apply reach_SI in H as [V1 V2 V3 _ _ _ _ _ _ _ _].
  assert (Hl : forall l, In l ps -> fst l < nvars s) by (intros; rewrite V2; auto).
  destruct (wp_ret_of _ _ _ _ _ (solveWith_ok o cm (models cs) F1 F2 n ps s V1 V3 Hl) E) as (_ & _ & _ & (_ & _ & A3) & _). exact A3.
Qed.
Theorem C37_decides : forall cm ng s nv cs stk hs o n ps r s', reach cm ng s nv cs stk hs -> (forall l, In l ps -> fst l < nv) -> fair o ->
  solveWith o cm n ps s = Ret (Some r) s' -> (r = true <-> exists a, models cs a /\ all_true a ps).
Proof.
  intros cm ng s nv cs stk hs o n ps r s' H Hp F E. destruct r.
  - split; auto. intros _. destruct (C37_satisfiable _ _ _ _ _ _ _ _ _ _ _ H Hp F E) as (_ & A & B). eauto.
  - split; [discriminate|]. intros (a & A & B). exfalso. destruct (C37_unsatisfiable _ _ _ _ _ _ _ _ _ _ _ H Hp F E) as (C & _). eapply C; eauto.
Qed.
(** a rejected clause means that the constraints are unsatisfiable *)
Theorem C37_addClause_result : forall cm ng s nv cs stk hs n ls s', reach cm ng s nv cs stk hs -> (forall l, In l ls -> fst l < nv) ->
  addClause n ls s = Ret false s' -> forall a, ~ models (SomeOf ls :: cs) a.
Proof.
  intros cm ng s nv cs stk hs n ls s' H Hl E. pose proof (reach_SI _ _ _ _ _ _ _ (reach_clause _ _ _ _ _ _ _ _ _ _ _ H Hl E)) as [[_ L] _ _ _ _ _ _ _ _ _ _]. apply reach_SI in H as [V1 V2 _ V4 _ _ _ _ _ _ _].
  assert (Hl' : forall l, In l ls -> fst l < nvars s) by (intros; rewrite V2; auto).
  assert (HM : forall a, models (SomeOf ls :: cs) a <-> models cs a /\ exists l, In l ls /\ alit a l = true). { intros a. rewrite models_cons. cbn [holds]. split; intros [X (l & Y & Z)]; (split; [exact X|exists l; split; auto; rewrite <- Z; try apply lit_alit; symmetry; apply lit_alit]). }
  destruct (wp_ret_of _ _ _ _ _ (addClause_ok _ _ n ls s V1 V4 Hl' HM) E) as (_ & _ & O & _). rewrite <- O in L. exact L.
Qed.
(** no call panics *)
Theorem C37_no_panic : forall cm ng s nv cs stk hs, reach cm ng s nv cs stk hs ->
  (forall sign, exists s', newVar sign true s = Ret nv s') /\
  (forall n ls, (forall l, In l ls -> fst l < nv) -> addClause n ls s <> Panic) /\
  (forall n ls k, (forall l, In l ls -> fst l < nv) -> NoDup ls -> addAtMost n ls k s <> Panic) /\
  (forall o n ps, (forall l, In l ps -> fst l < nv) -> fair o -> solveWith o cm n ps s <> Panic) /\
  (forall n x, In x hs -> loadState n x s <> Panic).
Proof.
  intros cm ng s nv cs stk hs H. apply reach_SI in H. pose proof H as [V1 V2 V3 V4 V5 V6 V7 V8 V9 V10 V11 V12]. subst nv. repeat split.
  - intros sign. eexists. unfold newVar. reflexivity.
  - intros n ls Hl E. pose proof (addClause_ok (models cs) (fun a => models cs a /\ exists l, In l ls /\ alit a l = true) n ls s V1 V4 Hl ltac:(reflexivity)) as W. unfold wp in W. rewrite E in W. exact W.
  - intros n ls k Hl Nd E. pose proof (addAtMost_ok (models cs) (fun a => models cs a /\ (cntA a ls <= k)%Z) n ls k s V1 V4 Nd Hl ltac:(reflexivity)) as W. unfold wp in W. rewrite E in W. exact W.
  - intros o n ps Hl [F1 F2] E. pose proof (solveWith_ok o cm (models cs) F1 F2 n ps s V1 V3 Hl) as W. unfold wp in W. rewrite E in W. exact W.
  - intros n x Ix E. destruct (lastIndex (s_id x) (validStates s) 0) as [i|] eqn:Li; [|unfold loadState in E; rewrite Li in E; discriminate].
    assert (Iv : In (s_id x) (validStates s)). { destruct (in_dec Z.eq_dec (s_id x) (validStates s)); auto. rewrite lastIndex_none in Li; auto. discriminate. }
    rewrite V6 in Iv. apply in_rev, in_map_iff in Iv as ([y [m ds]] & Ey & Iy). cbn in Ey. assert (Iy' : In y hs) by (apply V7, in_map_iff; exists (y, (m, ds)); auto). rewrite (V9 y x Iy' Ix Ey) in Iy.
    apply in_split in Iy as (ab & st & Es). rewrite Es in H. pose proof (load_step _ _ _ _ _ _ _ _ _ _ _ n H) as W. unfold wp in W. rewrite E in W. exact W.
Qed.

(** C51: a call cancelled by its handler (at its start or end) does not change the answers of later calls; missing: cancellation at a
    conflict, where this is false ([C37_cancelled_conflict_refuted]) *)
Theorem C51_cancelled_call_partial : forall cm ng s nv cs stk hs o n ps s1, reach cm ng s nv cs stk hs -> (forall l, In l ps -> fst l < nv) -> fair o -> solveWith o cm n ps s = Ret None s1 ->
  forall o' m qs r s2, (forall l, In l qs -> fst l < nv) -> fair o' -> solveWith o' cm m qs s1 = Ret (Some r) s2 -> (r = true <-> exists a, models cs a /\ all_true a qs).
Proof. intros cm ng s nv cs stk hs o n ps s1 H Hl [F1 F2] E o' m qs r s2 Hq F E2. eapply C37_decides; [|exact Hq|exact F|exact E2]. exact (reach_solve _ _ _ _ _ _ _ o n ps None s1 H Hl F1 F2 E). Qed.

(** ** C38: saved states *)
(** a state that is still valid can be loaded, and then the solver answers for the variables and constraints present when it was saved *)
Theorem C38_load : forall cm ng s nv cs nv' cs' above stk hs x n b s1, reach cm ng s nv cs (above ++ (x, (nv', cs')) :: stk) hs -> loadState n x s = Ret b s1 ->
  b = true /\ reach cm ng s1 nv' cs' ((x, (nv', cs')) :: stk) hs /\
  forall o m ps r s2, (forall l, In l ps -> fst l < nv') -> fair o -> solveWith o cm m ps s1 = Ret (Some r) s2 -> (r = true <-> exists a, models cs' a /\ all_true a ps).
Proof.
  intros cm ng s nv cs nv' cs' above stk hs x n b s1 H E. destruct (wp_ret_of _ _ _ _ _ (load_step _ _ _ _ _ _ _ _ _ _ _ n (reach_SI _ _ _ _ _ _ _ H)) E) as [-> _].
  assert (R : reach cm ng s1 nv' cs' ((x, (nv', cs')) :: stk) hs) by (eapply reach_load; eauto). split; auto. split; auto. intros o m ps r s2 Hl F Es. eapply C37_decides; eauto.
Qed.
(** the valid states are those saved on the way to the current one: loading any other is refused and changes nothing *)
Theorem C38_stale : forall cm ng s nv cs stk hs x n, reach cm ng s nv cs stk hs -> In x hs -> ~ In x (map fst stk) -> loadState n x s = Ret false s.
Proof.
  intros cm ng s nv cs stk hs x n H Ix Nx. apply reach_SI in H as [V1 V2 V3 V4 V5 V6 V7 V8 V9 V10 V11 V12]. unfold loadState. rewrite lastIndex_none; auto. rewrite V6. intros I. apply in_rev, in_map_iff in I as (e & Ee & Ie). apply Nx.
  assert (In (fst e) hs) by (apply V7, in_map; auto). rewrite <- (V9 (fst e) x); auto. apply in_map; auto.
Qed.
(** a saved state holds the present variables and constraints *)
Theorem C38_save : forall cm ng s nv cs stk hs, reach cm ng s nv cs stk hs -> exists x s', saveState s = Ret x s' /\ ~ In x hs /\ reach cm ng s' nv cs ((x, (nv, cs)) :: stk) (x :: hs).
Proof.
  intros cm ng s nv cs stk hs H. pose proof (reach_SI _ _ _ _ _ _ _ H) as [V1 V2 V3 V4 V5 V6 V7 V8 V9 V10 V11 V12]. eexists. eexists. split; [reflexivity|]. split; [|eapply reach_save; eauto; reflexivity]. intros I. apply V8 in I. cbn in I. lia.
Qed.

(** ** A concrete history *)
Definition fairO (p : nat) : oracle := Oracle (fun i => (i * p) mod 7) (fun _ b => b) (fun i => i mod 5 =? 4) (fun i => i mod 3 =? 2) (fun _ l => rev l) (fun i => Nat.even i) (fun i => Nat.even i) (fun _ => true) (fun _ => true).
Lemma fairO_fair : forall p, fair (fairO p).
Proof. intros p. split; auto. intros i l. cbn. symmetry. apply Permutation_rev. Qed.
(** variables 0, 1, 2; 0 | 1 | 2; at most one of them; save; ~0; ~1; solve; ~2; solve; load; solve *)
Definition script : S_ (saved * option bool * list bool * option bool * bool * option bool * list bool) :=
  newVar false true ;;; newVar true true ;;; newVar false true ;;; addClause 9 [(0, false); (1, false); (2, false)] ;;; addAtMost 9 [(0, false); (1, false); (2, false)] 1 ;;;
  x <-- saveState ;; addClause 9 [(0, true)] ;;; addClause 9 [(1, true)] ;;; r1 <-- solveWith (fairO 2) MinDeep 20 [] ;; m1 <-- gets model ;;
  addClause 9 [(2, true)] ;;; r2 <-- solveWith (fairO 2) MinDeep 20 [] ;; b <-- loadState 9 x ;; r3 <-- solveWith (fairO 3) MinDeep 20 [(0, false)] ;; m3 <-- gets model ;; ret (x, r1, m1, r2, b, r3, m3).
Example script_runs : match script newSolver with Ret (_, r1, m1, r2, b, r3, m3) _ => (r1, m1, r2, b, r3, m3) = (Some true, [false; false; true], Some false, true, Some true, [true; false; false]) | _ => False end.
Proof. vm_compute. reflexivity. Qed.

(** histories given as lists *)
Inductive op := OVar (sign : bool) | OAdd (c : constr).
Fixpoint nodupb (ls : list (nat * bool)) : bool := match ls with [] => true | l :: r => negb (inL l r) && nodupb r end.
Lemma nodupb_ok : forall ls, nodupb ls = true -> NoDup ls.
Proof. induction ls as [|l r IH]; cbn; intros H; constructor; apply andb_true_iff in H as [H1 H2]; auto. intros I. apply inL_in in I. rewrite I in H1. discriminate. Qed.
Fixpoint build (ops : list op) (s : sat) (nv : nat) : option (sat * nat) :=
  match ops with
  | [] => Some (s, nv)
  | OVar g :: r => match newVar g true s with Ret _ s' => build r s' (S nv) | _ => None end
  | OAdd (SomeOf ls) :: r => if forallb (fun l => fst l <? nv) ls then match addClause 20 ls s with Ret _ s' => build r s' nv | _ => None end else None
  | OAdd (AtMostOf ls k) :: r => if forallb (fun l => fst l <? nv) ls && nodupb ls then match addAtMost 20 ls k s with Ret _ s' => build r s' nv | _ => None end else None
  end.
Fixpoint addedCs (ops : list op) (cs : list constr) : list constr := match ops with [] => cs | OVar _ :: r => addedCs r cs | OAdd c :: r => addedCs r (c :: cs) end.
Lemma build_reach : forall cm ng ops s nv cs stk hs s' nv', cm <> MinBasic -> (ng = false -> forall ls k, In (OAdd (AtMostOf ls k)) ops -> forall l, In l ls -> snd l = false) -> reach cm ng s nv cs stk hs -> build ops s nv = Some (s', nv') -> reach cm ng s' nv' (addedCs ops cs) stk hs.
Proof.
  intros cm ng. induction ops as [|[g|[ls|ls k]] r IH]; intros s nv cs stk hs s' nv' Hc Hn H E; cbn [build addedCs] in *.
  - inversion E; subst; auto.
  - destruct (newVar g true s) as [v s1| |] eqn:N; try discriminate. eapply IH; [auto|intros; eapply Hn; eauto; right; eauto|eapply reach_var; eauto|exact E].
  - destruct (forallb (fun l => fst l <? nv) ls) eqn:L; [|discriminate]. rewrite forallb_forall in L. destruct (addClause 20 ls s) as [v s1| |] eqn:N; try discriminate. eapply IH; [auto|intros; eapply Hn; eauto; right; eauto|eapply reach_clause; eauto; intros l Il; apply Nat.ltb_lt; auto|exact E].
  - destruct (forallb (fun l => fst l <? nv) ls) eqn:L; [|discriminate]. rewrite forallb_forall in L. destruct (nodupb ls) eqn:Nd; [|discriminate]. apply nodupb_ok in Nd. cbn [andb] in E. destruct (addAtMost 20 ls k s) as [[] s1| |] eqn:N; try discriminate. eapply IH; [auto|intros; eapply Hn; eauto; right; eauto|eapply reach_atmost; eauto; [intros l Il; apply Nat.ltb_lt; auto|intros Eg; apply (Hn Eg ls k); left; auto]|exact E].
Qed.
(** the state of the script at the save, and one clause later *)
Definition ops5 : list op := [OVar false; OVar true; OVar false; OAdd (SomeOf [(0, false); (1, false); (2, false)]); OAdd (AtMostOf [(0, false); (1, false); (2, false)] 1)].
Definition cs5 : list constr := [AtMostOf [(0, false); (1, false); (2, false)] 1; SomeOf [(0, false); (1, false); (2, false)]].
Lemma reach_example : exists x s s', reach MinDeep true s 3 (SomeOf [(0, true)] :: cs5) [(x, (3, cs5))] [x] /\ loadState 20 x s = Ret true s'.
Proof.
  assert (C : match build ops5 newSolver 0 with Some (s, 3) => match saveState s with Ret x s1 => match addClause 20 [(0, true)] s1 with Ret _ s2 => match loadState 20 x s2 with Ret true _ => true | _ => false end | _ => false end | _ => false end | _ => false end = true) by (vm_compute; reflexivity).
  destruct (build ops5 newSolver 0) as [[s [|[|[|[|nv]]]]]|] eqn:B; try discriminate C. assert (R : reach MinDeep true s 3 cs5 [] []) by (eapply (build_reach MinDeep true ops5); [discriminate|discriminate|apply reach_new|exact B]).
  destruct (saveState s) as [x s1| |] eqn:Sv; try discriminate C. destruct (addClause 20 [(0, true)] s1) as [b s2| |] eqn:Ad; try discriminate C. destruct (loadState 20 x s2) as [[] s3| |] eqn:Ld; try discriminate C.
  exists x, s2, s3. split; auto. eapply reach_clause; [eapply reach_save; [exact R|exact Sv]| |exact Ad]. intros l [<-|[]]; cbn; lia.
Qed.

(** ** Where the code is wrong *)
(** A handler that stops a call at a conflict: CoreSolver.Solve drops the state returned by search (core.go 396-398) and goes on
    searching without the conflict. Even if the handler refuses every later event, so that the call is reported as cancelled,
    the next call, without any handler, answers satisfiable with a wrong model. *)
Definition square : list constr := [SomeOf [(0, false); (1, false)]; SomeOf [(0, true); (1, false)]; SomeOf [(0, false); (1, true)]; SomeOf [(0, true); (1, true)]].
Definition stopO (stop : nat) : oracle := Oracle (fun _ => 0) (fun _ b => b) (fun _ => false) (fun _ => false) (fun _ l => l) (fun _ => false) (fun _ => true) (fun i => i <? stop) (fun i => i <? stop).
Definition goO : oracle := Oracle (fun _ => 0) (fun _ b => b) (fun _ => false) (fun _ => false) (fun _ l => l) (fun _ => false) (fun _ => true) (fun _ => true) (fun _ => true).
Theorem C37_cancelled_conflict_refuted : exists s s1 s2, reach MinDeep true s 2 (rev square) [] [] /\ (forall a, ~ models (rev square) a) /\
  solveWith (stopO 2) MinDeep 20 [] s = Ret None s1 /\ solveWith goO MinDeep 20 [] s1 = Ret (Some true) s2.
Proof.
  pose (ops := OVar true :: OVar true :: map OAdd square).
  assert (C : match build ops newSolver 0 with Some (s, 2) => match solveWith (stopO 2) MinDeep 20 [] s with Ret None s1 => match solveWith goO MinDeep 20 [] s1 with Ret (Some true) _ => true | _ => false end | _ => false end | _ => false end = true) by (vm_compute; reflexivity).
  destruct (build ops newSolver 0) as [[s [|[|[|nv]]]]|] eqn:B; try discriminate C.
  assert (R : reach MinDeep true s 2 (rev square) [] []) by (eapply (build_reach MinDeep true ops); [discriminate|discriminate|apply reach_new|exact B]).
  destruct (solveWith (stopO 2) MinDeep 20 [] s) as [[r|] s1| |] eqn:S1; try discriminate C. destruct (solveWith goO MinDeep 20 [] s1) as [[[]|] s2| |] eqn:S2; try discriminate C.
  exists s, s1, s2. split; auto. split; [|auto].
  intros a M. destruct (M (SomeOf [(0, false); (1, false)])) as (l1 & I1 & T1); [cbn; tauto|]. destruct (M (SomeOf [(0, true); (1, false)])) as (l2 & I2 & T2); [cbn; tauto|]. destruct (M (SomeOf [(0, false); (1, true)])) as (l3 & I3 & T3); [cbn; tauto|]. destruct (M (SomeOf [(0, true); (1, true)])) as (l4 & I4 & T4); [cbn; tauto|].
  cbn in I1, I2, I3, I4. destruct I1 as [<-|[<-|[]]], I2 as [<-|[<-|[]]], I3 as [<-|[<-|[]]], I4 as [<-|[<-|[]]]; cbn in T1, T2, T3, T4; destruct (a 0), (a 1); discriminate.
Qed.
(** Basic clause minimization together with at-most constraints: simplifyClause (core.go 1053-1073) skips the first literal of the
    reason of a literal, which is the literal itself in a clause but can be another one in an at-most constraint. With decisions
    in the order picked by this oracle the solver learns a wrong clause and answers unsatisfiable for satisfiable constraints. *)
Definition basicOps : list op :=
  map OVar [true; true; false; false; false; true; true; false; true; true] ++
  map OAdd [AtMostOf [(4, true); (9, false); (1, false); (0, false); (8, true)] 1; AtMostOf [(8, true); (6, true); (7, true)] 1; SomeOf [(4, true); (0, false); (7, true)]; SomeOf [(8, false); (4, true)];
            SomeOf [(0, true); (3, false)]; SomeOf [(3, true); (9, false)]; SomeOf [(0, false); (3, false); (7, true)]].
Definition basicO : oracle := Oracle (fun i => nth i [6; 3; 2; 2; 3; 1; 5; 4; 6; 3; 0; 4; 3; 2; 2; 5; 3; 0; 6; 2; 5; 6; 6; 0; 6; 1; 5; 4; 6; 5; 6] 0) (fun _ b => b) (fun _ => false) (fun _ => false) (fun _ l => l) (fun _ => false) (fun _ => false) (fun _ => true) (fun _ => true).
Theorem C37_basic_minimization_refuted : exists s s' a, reach MinDeep true s 10 (addedCs basicOps []) [] [] /\ fair basicO /\ models (addedCs basicOps []) a /\
  solveWith basicO MinBasic 100 [] s = Ret (Some false) s'.
Proof.
  assert (C : match build basicOps newSolver 0 with Some (s, 10) => match solveWith basicO MinBasic 100 [] s with Ret (Some false) _ => true | _ => false end | _ => false end = true) by (vm_compute; reflexivity).
  destruct (build basicOps newSolver 0) as [[s nv]|] eqn:B; [|discriminate C]. do 11 (destruct nv as [|nv]; try discriminate C).
  assert (R : reach MinDeep true s 10 (addedCs basicOps []) [] []) by (eapply (build_reach MinDeep true basicOps); [discriminate|discriminate|apply reach_new|exact B]).
  destruct (solveWith basicO MinBasic 100 [] s) as [[[]|] s1| |] eqn:S1; try discriminate C.
  exists s, s1, (fun v => match v with 6 | 8 => true | _ => false end). split; auto. split; [split; [intros; reflexivity|reflexivity]|]. split; auto.
  intros c I. cbn in I. repeat (destruct I as [<-|I]; [cbn [holds]; first [apply existsb_exists; reflexivity|vm_compute; discriminate]|]). destruct I.
Qed.

Print Assumptions C37_satisfiable.
Print Assumptions C37_unsatisfiable.
Print Assumptions C37_core_distinct.
Print Assumptions C37_decides.
Print Assumptions C37_addClause_result.
Print Assumptions C37_no_panic.
Print Assumptions C37_cancelled_conflict_refuted.
Print Assumptions C37_basic_minimization_refuted.
Print Assumptions C38_load.
Print Assumptions C38_stale.
Print Assumptions C38_save.
