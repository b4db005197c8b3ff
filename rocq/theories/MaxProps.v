(** * Properties of the MaxSAT solver

    The specification is MaxSpec.v, the model MaxSat.v; [reach] (MaxRun.v) describes how a solver is used. *)
From Coq Require Import List Bool Arith Lia Permutation.
From Verif Require Import SatSpec Sat SatProps MaxSpec MaxSat MaxBase MaxTot MaxAlg MaxLoop MaxBmo MaxRun.
Import ListNotations.

Lemma solve_right : forall alg s nv P H os hd n v s', reach alg s nv P H -> fits alg P -> (forall i, fair (os i)) -> sSolve os hd n alg s = Some (v, s') -> right nv P v.
Proof.
  intros alg s nv P H os hd n v s' R Fi F E. apply reach_inv in R as [D I2 I3 I4 I5 Ip Io I6 I7 I8 I9]. unfold sSolve in E. destruct (m_result s) as [v0|] eqn:Em.
  - inversion E; subst. destruct (I4 v eq_refl) as [->|]; auto. exact Logic.I.
  - set (x := set_weighted (negb (curW (m_alg s) =? 1)) (m_alg s)) in *. destruct (runAlgo os hd n alg x) as [r y| |] eqn:Er; try discriminate. inversion E; subst. destruct (run_ok os hd n alg x nv P v y F I3 Fi Ip I2 eq_refl Io D) as [_ G]. apply G; auto.
Qed.
Lemma solve_no_panic : forall alg s nv P H os hd n, reach alg s nv P H -> fits alg P -> (forall i, fair (os i)) -> runAlgo os hd n alg (set_weighted (negb (curW (m_alg s) =? 1)) (m_alg s)) <> MPanic.
Proof. intros alg s nv P H os hd n R Fi F. apply reach_inv in R as [D I2 I3 I4 I5 Ip Io I6 I7 I8 I9]. apply (run_ok os hd n alg (set_weighted (negb (curW (m_alg s) =? 1)) (m_alg s)) nv P Cancelled (m_alg s) F I3 Fi Ip I2 eq_refl Io D). Qed.

(** ** C56: what Solve returns on an unweighted problem is right, after every correct history of the solver,
    for every behaviour of the heuristics of the SAT solver and for every handler *)
Theorem C56_solve : forall alg s nv P H os hd n v s', reach alg s nv P H -> (forall wc, In wc (p_soft P) -> fst wc = 1) -> (forall i, fair (os i)) ->
  sSolve os hd n alg s = Some (v, s') -> right nv P v.
Proof. intros alg s nv P H os hd n v s' R HO F E. eapply solve_right; eauto. left; auto. Qed.
Print Assumptions C56_solve.
(** in plain terms: a reported optimum belongs to a model of the hard clauses with that cost, and no model is cheaper *)
Theorem C56_optimum : forall alg s nv P H os hd n k m s', reach alg s nv P H -> (forall wc, In wc (p_soft P) -> fst wc = 1) -> (forall i, fair (os i)) ->
  sSolve os hd n alg s = Some (Optimum k m, s') ->
  (forall c, In c (p_hard P) -> true_in (of_list m) c = true) /\ cost P (of_list m) = k /\ forall a, (forall c, In c (p_hard P) -> true_in a c = true) -> k <= cost P a.
Proof. intros alg s nv P H os hd n k m s' R HO F E. destruct (C56_solve _ _ _ _ _ _ _ _ _ _ R HO F E) as (_ & A & B & C). auto. Qed.
Print Assumptions C56_optimum.
Theorem C56_infeasible : forall alg s nv P H os hd n s', reach alg s nv P H -> (forall wc, In wc (p_soft P) -> fst wc = 1) -> (forall i, fair (os i)) ->
  sSolve os hd n alg s = Some (Infeasible, s') -> forall a, ~ (forall c, In c (p_hard P) -> true_in a c = true).
Proof. intros alg s nv P H os hd n s' R HO F E. exact (C56_solve _ _ _ _ _ _ _ _ _ _ R HO F E). Qed.
Print Assumptions C56_infeasible.
(** two solvers with the same problem agree, whatever algorithm, heuristics and history they have *)
Theorem C56_algorithms_agree : forall alg1 s1 nv P H1 os1 hd1 n1 k1 m1 s1' alg2 s2 nv2 H2 os2 hd2 n2 v2 s2',
  reach alg1 s1 nv P H1 -> reach alg2 s2 nv2 P H2 -> (forall wc, In wc (p_soft P) -> fst wc = 1) -> (forall i, fair (os1 i)) -> (forall i, fair (os2 i)) ->
  sSolve os1 hd1 n1 alg1 s1 = Some (Optimum k1 m1, s1') -> sSolve os2 hd2 n2 alg2 s2 = Some (v2, s2') -> v2 <> Cancelled -> exists m2, v2 = Optimum k1 m2.
Proof.
  intros alg1 s1 nv P H1 os1 hd1 n1 k1 m1 s1' alg2 s2 nv2 H2 os2 hd2 n2 v2 s2' R1 R2 HO F1 F2 E1 E2 N. destruct (C56_solve _ _ _ _ _ _ _ _ _ _ R1 HO F1 E1) as (_ & A & B & C). pose proof (C56_solve _ _ _ _ _ _ _ _ _ _ R2 HO F2 E2) as D. destruct v2 as [| |k2 m2]; [congruence|destruct (D _ A)|].
  destruct D as (_ & A2 & B2 & C2). exists m2. f_equal. specialize (C _ A2). specialize (C2 _ A). lia.
Qed.
Print Assumptions C56_algorithms_agree.
(** no search panics *)
Theorem C56_no_panic : forall alg s nv P H os hd n, reach alg s nv P H -> (forall wc, In wc (p_soft P) -> fst wc = 1) -> (forall i, fair (os i)) ->
  runAlgo os hd n alg (set_weighted (negb (curW (m_alg s) =? 1)) (m_alg s)) <> MPanic.
Proof. intros alg s nv P H os hd n R HO F. eapply solve_no_panic; eauto. left; auto. Qed.
Print Assumptions C56_no_panic.
(** a search that is not cancelled leaves the problem as it was: the next answers are about the same problem *)
Theorem C56_solve_keeps : forall alg s nv P H os hd n v s', reach alg s nv P H -> fits alg P -> (forall i, fair (os i)) ->
  sSolve os hd n alg s = Some (v, s') -> v <> Cancelled ->
  nbVars (m_alg s') = nbVars (m_alg s) /\ hard (m_alg s') = hard (m_alg s) /\ soft (m_alg s') = soft (m_alg s) /\ curW (m_alg s') = curW (m_alg s).
Proof.
  intros alg s nv P H os hd n v s' R HO F E N. pose proof (r_solve _ _ _ _ _ _ _ _ _ _ R HO F E N) as R'. apply reach_inv in R as [(D1 & D2 & D3 & _) I2 _ _ _ _ _ _ _ _ _]. apply reach_inv in R' as [(D1' & D2' & D3' & _) I2' _ _ _ _ _ _ _ _ _]. repeat split; congruence.
Qed.
Print Assumptions C56_solve_keeps.
(** LinearUS and MSU3 refuse weighted problems *)
Theorem C56_weighted_refused : forall alg s nv P H os hd n wc, reach alg s nv P H -> (exists i, alg = LinearUS i \/ alg = MSU3 i) -> In wc (p_soft P) -> 1 < fst wc ->
  runAlgo os hd n alg (set_weighted (negb (curW (m_alg s) =? 1)) (m_alg s)) = MPanic.
Proof.
  intros alg s nv P H os hd n wc R Na I W. apply reach_inv in R as [D I2 I3 I4 I5 Ip Io I6 I7 I8 I9]. assert (C : curW (m_alg s) <> 1).
  { rewrite I2. intros E. pose proof (maxW_le _ _ I) as L. rewrite E in L. exact (Nat.lt_irrefl _ (Nat.lt_le_trans _ _ _ W L)). }
  apply Nat.eqb_neq in C. rewrite C. destruct Na as (i & [-> | ->]); reflexivity.
Qed.
Print Assumptions C56_weighted_refused.

(** ** Saved states *)
(** C57: after a state is loaded, the solver answers for the problem that it held when the state was saved *)
Theorem C57_load : forall alg s nv P H st nv' P' s1 os hd n v s2, reach alg s nv P H -> In (st, (nv', P')) H -> sLoad st s = Some (true, s1) ->
  fits alg P' -> (forall i, fair (os i)) -> sSolve os hd n alg s1 = Some (v, s2) -> right nv' P' v.
Proof. intros alg s nv P H st nv' P' s1 os hd n v s2 R I E HO F Es. eapply solve_right; eauto. eapply r_load; eauto. Qed.
Print Assumptions C57_load.
(** a state that was just saved can be loaded after more clauses and searches; no load panics *)
Theorem C57_load_no_panic : forall alg s nv P H st q, reach alg s nv P H -> In (st, q) H -> sLoad st s <> None.
Proof.
  intros alg s nv P H st [nv' P'] R J. apply reach_inv in R as [(D1 & D2 & D3 & D4 & D5 & D6 & D7) I2 I3 I4 I5 Ip Io I6 I7 I8 I9]. destruct (I8 _ _ _ J) as (J1 & (T1 & T2 & T3 & T4 & T5) & J3 & J4). unfold sLoad, mload. destruct (lastPos (ms_id st) (valid (m_alg s)) 0) as [i|] eqn:El; [|discriminate].
  rewrite D3, T4. destruct (Nat.ltb_spec (length (map fst (p_soft P'))) (length (firstn (ms_soft st) (clean (p_soft P))))) as [L|]; [|discriminate]. exfalso. rewrite firstn_length, map_length, T3 in L. lia.
Qed.
Print Assumptions C57_load_no_panic.
(** while clauses are only added and the solver searches, a saved state stays valid *)
Inductive later (alg : algo) : msolver -> msolver -> Prop :=
| l_same : forall s, later alg s s
| l_var : forall s t, later alg s t -> later alg s (sVar t)
| l_hard : forall s t c, later alg s t -> later alg s (sHard c t)
| l_soft : forall s t w c, later alg s t -> later alg s (sSoft w c t)
| l_save : forall s t st u, later alg s t -> sSave t = Some (st, u) -> later alg s u
| l_solve : forall s t os hd n v u, later alg s t -> sSolve os hd n alg t = Some (v, u) -> v <> Cancelled -> (exists nv P H, reach alg t nv P H /\ fits alg P /\ forall i, fair (os i)) -> later alg s u.
Theorem C57_still_valid : forall alg s nv P H st s1 t, reach alg s nv P H -> sSave s = Some (st, s1) -> later alg s1 t -> (exists nv' P' H', reach alg t nv' P' H' /\ In (st, (nv, P)) H') -> exists t', sLoad st t = Some (true, t').
Proof.
  intros alg s nv P H st s1 t R E L (nv' & P' & H' & R' & J).
  assert (V : In (ms_id st) (valid (m_alg t))).
  { clear - E L. assert (V1 : In (ms_id st) (valid (m_alg s1))) by (unfold sSave, msave in E; inversion E; subst; cbn; apply in_or_app; right; left; auto). clear E. induction L; cbn; auto.
    - apply IHL in V1. unfold sSave, msave in H. inversion H; subst. cbn. apply in_or_app; auto.
    - specialize (IHL V1). destruct H1 as (nv & P & H' & R & O & F). unfold sSolve in H. destruct (m_result t) eqn:Em; [inversion H; subst; auto|]. pose proof (reach_inv _ _ _ _ _ R) as [D I2 I3 _ _ Ip Io _ _ _ _]. set (x := set_weighted (negb (curW (m_alg t) =? 1)) (m_alg t)) in *.
      destruct (runAlgo os hd n alg x) as [r y| |] eqn:Er; try discriminate. inversion H; subst. destruct (run_ok os hd n alg x nv P v y F I3 O Ip I2 eq_refl Io D) as [_ G]. destruct (G Er) as [_ G']. destruct (G' H0) as ((_ & _ & _ & V & _) & _). cbn [m_alg]. rewrite V. apply in_or_app. left. exact IHL. }
  assert (N : sLoad st t <> None) by (eapply C57_load_no_panic; eauto). unfold sLoad, mload in *. destruct (lastPos (ms_id st) (valid (m_alg t)) 0) as [i|] eqn:El.
  - destruct (_ <? _); [congruence|]. eauto.
  - exfalso. clear - V El. revert El. generalize 0. induction (valid (m_alg t)) as [|y r IH]; intros i El; [destruct V|]. cbn in El. destruct (lastPos (ms_id st) r (S i)) eqn:E; [discriminate|]. destruct V as [->|V]; [rewrite Nat.eqb_refl in El; discriminate|]. eapply IH; eauto.
Qed.
Print Assumptions C57_still_valid.

(** ** Examples and refutations *)
Definition fill (nv : nat) (hs : list (list slit)) (ss : list (nat * list slit)) : msolver :=
  fold_left (fun s wc => sSoft (fst wc) (snd wc) s) ss (fold_left (fun s c => sHard c s) hs (Nat.iter nv sVar newSolverM)).
Lemma fill_reach : forall alg nv hs ss, (forall c, In c hs -> forall l, In l c -> fst l < nv) -> (forall wc, In wc ss -> 1 <= fst wc /\ forall l, In l (snd wc) -> fst l < nv) -> reach alg (fill nv hs ss) nv (Problem hs ss) [].
Proof.
  intros alg nv hs ss Hh Hs. unfold fill.
  assert (R0 : reach alg (Nat.iter nv sVar newSolverM) nv (Problem [] []) []) by (clear; induction nv; cbn; constructor; auto).
  assert (R1 : forall l s P, reach alg s nv P [] -> (forall c, In c l -> forall x, In x c -> fst x < nv) -> reach alg (fold_left (fun s c => sHard c s) l s) nv (Problem (p_hard P ++ l) (p_soft P)) []).
  { induction l as [|c l IH]; intros s P R Hl; cbn; [rewrite app_nil_r; destruct P; auto|]. specialize (IH (sHard c s) (grow P [c] []) (r_hard _ _ _ _ _ c R (Hl c (or_introl eq_refl))) (fun c' I => Hl c' (or_intror I))). cbn in IH. rewrite <- app_assoc, app_nil_r in IH. exact IH. }
  assert (R2 : forall l s P, reach alg s nv P [] -> (forall wc, In wc l -> 1 <= fst wc /\ forall x, In x (snd wc) -> fst x < nv) -> reach alg (fold_left (fun s wc => sSoft (fst wc) (snd wc) s) l s) nv (Problem (p_hard P) (p_soft P ++ l)) []).
  { induction l as [|[w c] l IH]; intros s P R Hl; cbn; [rewrite app_nil_r; destruct P; auto|]. destruct (Hl (w, c) (or_introl eq_refl)) as [H1 H2]. specialize (IH (sSoft w c s) (grow P [] [(w, c)]) (r_soft _ _ _ _ _ w c R H1 H2) (fun c' I => Hl c' (or_intror I))). cbn in IH. rewrite <- app_assoc, app_nil_r in IH. exact IH. }
  exact (R2 ss _ _ (R1 hs _ _ R0 Hh) Hs).
Qed.
Ltac inlist := cbn; intros; repeat match goal with H : _ \/ _ |- _ => destruct H end; subst; cbn in *; repeat match goal with H : _ \/ _ |- _ => destruct H end; subst; try contradiction; cbn; auto; try lia.
Definition go : nat -> bool := fun _ => true.
Lemma goO_fair : fair goO. Proof. split; auto. Qed.
(** at most one of 0, 1, 2; each of them is wanted, and not 0 *)
Definition exHard : list (list slit) := [[(0, true); (1, true)]; [(1, true); (2, true)]; [(0, true); (2, true)]].
Definition exSoft : list (nat * list slit) := [(1, [(0, false)]); (1, [(1, false)]); (1, [(2, false)]); (1, [(0, true)])].
Example ex_reach : forall alg, reach alg (fill 3 exHard exSoft) 3 (Problem exHard exSoft) [].
Proof. intros alg. apply fill_reach; [inlist|]. cbn. intros wc I. repeat destruct I as [<-|I]; try contradiction; cbn; split; auto; inlist. Qed.
Example ex_solve : forall alg, In alg [LinearSU; LinearBMO; LinearUS IncNone; LinearUS IncIterative; MSU3 IncNone; MSU3 IncIterative; WBO false WeightNone; WBO true WeightNone; WBO false WeightNormal; WBO true WeightDiversify] ->
  match sSolve (fun _ => goO) go 60 alg (fill 3 exHard exSoft) with Some (v, _) => v = Optimum 2 [false; false; true] | None => False end.
Proof. intros alg I. repeat destruct I as [<-|I]; try contradiction; vm_compute; reflexivity. Qed.
(** four variables, at most one of them false: the cores overlap and WBO adds symmetry breaking clauses *)
Definition tHard : list (list slit) := [[(0, false); (1, false)]; [(0, false); (2, false)]; [(0, false); (3, false)]; [(1, false); (2, false)]; [(1, false); (3, false)]; [(2, false); (3, false)]].
Definition tSoft : list (nat * list slit) := [(1, [(0, true)]); (1, [(1, true)]); (1, [(2, true)]); (1, [(3, true)])].
Example ex_sym : reach (WBO true WeightNone) (fill 4 tHard tSoft) 4 (Problem tHard tSoft) [] /\
  match sSolve (fun _ => goO) go 200 (WBO true WeightNone) (fill 4 tHard tSoft) with Some (Optimum k _, _) => k = 3 | _ => False end.
Proof. split; [apply fill_reach; [inlist|]; cbn; intros wc I; repeat destruct I as [<-|I]; try contradiction; cbn; split; auto; inlist|]. vm_compute. reflexivity. Qed.
Example ex_infeasible : match sSolve (fun _ => goO) go 60 (MSU3 IncIterative) (sHard [(0, true)] (sHard [(0, false)] (fill 3 exHard exSoft))) with Some (v, _) => v = Infeasible | None => False end.
Proof. vm_compute. reflexivity. Qed.
(** save; two more hard clauses; solve; load; solve *)
Example ex_load : match sSave (fill 3 exHard exSoft) with
  | Some (st, s1) => match sSolve (fun _ => goO) go 60 (MSU3 IncIterative) (sHard [(2, true)] (sHard [(1, true)] s1)) with
    | Some (v1, s2) => match sLoad st s2 with Some (b, s3) => match sSolve (fun _ => goO) go 60 (MSU3 IncIterative) s3 with Some (v2, _) => (v1, b, v2) = (Optimum 3 [false; false; false], true, Optimum 2 [false; false; true]) | None => False end | None => False end
    | None => False end
  | None => False end.
Proof. vm_compute. reflexivity. Qed.

(** C58: LinearSU on weighted problems. The encoding of weighted sums (enc_swc.go 64-67) forbids the only remaining literal although its
    weight is within the bound. Here 5, 4 and 3 are not BMO (5 < 4 + 3), so that the normal search runs. *)
Definition wHard : list (list slit) := [[(0, false)]; [(1, false); (2, false)]; [(1, true); (2, true)]].
Definition wSoft : list (nat * list slit) := [(5, [(0, false)]); (4, [(1, false)]); (3, [(2, false)])].
Theorem C58_weighted_linear_su_refuted : exists s s' a k m, reach LinearSU s 3 (Problem wHard wSoft) [] /\ fair goO /\
  sSolve (fun _ => goO) go 60 LinearSU s = Some (Optimum k m, s') /\ feasible (Problem wHard wSoft) a /\ cost (Problem wHard wSoft) a < k.
Proof.
  assert (Fe : feasible (Problem wHard wSoft) (fun v => v <=? 1)) by (intros c I; repeat (destruct I as [<-|I]; [reflexivity|]); destruct I).
  assert (R : reach LinearSU (fill 3 wHard wSoft) 3 (Problem wHard wSoft) []). { apply fill_reach; [inlist|]. cbn. intros wc I. repeat destruct I as [<-|I]; try contradiction; cbn; split; auto; try lia; inlist. }
  assert (C : match sSolve (fun _ => goO) go 60 LinearSU (fill 3 wHard wSoft) with Some (v, _) => Some v | None => None end = Some (Optimum 4 [true; false; true])) by (vm_compute; reflexivity).
  destruct (sSolve (fun _ => goO) go 60 LinearSU (fill 3 wHard wSoft)) as [[v s']|] eqn:E; [|discriminate]. injection C as ->.
  exists (fill 3 wHard wSoft), s', (fun v => v <=? 1), 4, [true; false; true]. split; [exact R|]. split; [apply goO_fair|]. split; [exact E|]. split; [exact Fe|]. clear. vm_compute. auto.
Qed.
Print Assumptions C58_weighted_linear_su_refuted.

(** the same with the default configuration *)
Theorem C58_weighted_default_refuted : exists s s' a k m, reach LinearBMO s 3 (Problem wHard wSoft) [] /\ fair goO /\
  sSolve (fun _ => goO) go 60 LinearBMO s = Some (Optimum k m, s') /\ feasible (Problem wHard wSoft) a /\ cost (Problem wHard wSoft) a < k.
Proof.
  assert (Fe : feasible (Problem wHard wSoft) (fun v => v <=? 1)) by (intros c I; repeat (destruct I as [<-|I]; [reflexivity|]); destruct I).
  assert (R : reach LinearBMO (fill 3 wHard wSoft) 3 (Problem wHard wSoft) []). { apply fill_reach; [inlist|]. cbn. intros wc I. repeat destruct I as [<-|I]; try contradiction; cbn; split; auto; try lia; inlist. }
  assert (C : match sSolve (fun _ => goO) go 60 LinearBMO (fill 3 wHard wSoft) with Some (v, _) => Some v | None => None end = Some (Optimum 4 [true; false; true])) by (vm_compute; reflexivity).
  destruct (sSolve (fun _ => goO) go 60 LinearBMO (fill 3 wHard wSoft)) as [[v s']|] eqn:E; [|discriminate]. injection C as ->.
  exists (fill 3 wHard wSoft), s', (fun v => v <=? 1), 4, [true; false; true]. split; [exact R|]. split; [apply goO_fair|]. split; [exact E|]. split; [exact Fe|]. clear. vm_compute. auto.
Qed.
Print Assumptions C58_weighted_default_refuted.
(** LinearSU with BMO, as in the default configuration, is right on the weighted problems of Boolean multilevel optimization: no weight is
    smaller than the sum of all smaller ones. What is missing are the other weighted problems, where the claim is false. *)
Theorem C58_bmo_partial : forall s nv P H os hd n v s', reach LinearBMO s nv P H ->
  (forall wc, In wc (p_soft P) -> list_sum (map fst (filter (fun x => fst x <? fst wc) (p_soft P))) <= fst wc) -> (forall wc, In wc (p_soft P) -> snd wc <> []) ->
  (forall i, fair (os i)) -> sSolve os hd n LinearBMO s = Some (v, s') -> right nv P v.
Proof. intros s nv P H os hd n v s' R HB HN F E. eapply solve_right; eauto. right. right. auto. Qed.
Print Assumptions C58_bmo_partial.
(** in plain terms *)
Theorem C58_bmo_optimum_partial : forall s nv P H os hd n k m s', reach LinearBMO s nv P H -> bmo P -> (forall wc, In wc (p_soft P) -> snd wc <> []) -> (forall i, fair (os i)) ->
  sSolve os hd n LinearBMO s = Some (Optimum k m, s') ->
  (forall c, In c (p_hard P) -> true_in (of_list m) c = true) /\ cost P (of_list m) = k /\ forall a, (forall c, In c (p_hard P) -> true_in a c = true) -> k <= cost P a.
Proof. intros s nv P H os hd n k m s' R HB HN F E. destruct (C58_bmo_partial _ _ _ _ _ _ _ _ _ R HB HN F E) as (_ & A & B & C). auto. Qed.
Print Assumptions C58_bmo_optimum_partial.
Theorem C58_bmo_no_panic_partial : forall s nv P H os hd n, reach LinearBMO s nv P H -> bmo P -> (forall wc, In wc (p_soft P) -> snd wc <> []) -> (forall i, fair (os i)) ->
  runAlgo os hd n LinearBMO (set_weighted (negb (curW (m_alg s) =? 1)) (m_alg s)) <> MPanic.
Proof. intros s nv P H os hd n R HB HN F. eapply solve_no_panic; eauto. right. right. auto. Qed.
Print Assumptions C58_bmo_no_panic_partial.
(** 0 excludes 1 and 3; 2 excludes 1: the weights 8, 4, 2, 1, 1 are BMO *)
Definition bHard : list (list slit) := [[(0, true); (1, true)]; [(0, true); (3, true)]; [(1, true); (2, true)]].
Definition bSoft : list (nat * list slit) := [(4, [(1, false)]); (1, [(2, false)]); (8, [(0, false); (3, false)]); (2, [(3, false)]); (1, [(2, true); (0, false)])].
Example ex_bmo : reach LinearBMO (fill 4 bHard bSoft) 4 (Problem bHard bSoft) [] /\ bmo (Problem bHard bSoft) /\ (forall wc, In wc (p_soft (Problem bHard bSoft)) -> snd wc <> []) /\
  match sSolve (fun _ => goO) go 60 LinearBMO (fill 4 bHard bSoft) with Some (v, _) => v = Optimum 1 [false; true; false; true] | None => False end.
Proof.
  split; [apply fill_reach; [inlist|]; cbn; intros wc I; repeat destruct I as [<-|I]; try contradiction; cbn; split; auto; try lia; inlist|].
  split; [intros wc I; repeat destruct I as [<-|I]; try contradiction; cbn; lia|]. split; [intros wc I; repeat destruct I as [<-|I]; try contradiction; discriminate|]. vm_compute. reflexivity.
Qed.

(** C60: WBO without symmetry breaking is right on every problem, weighted or not, after every history and with each strategy for the weights:
    all soft clauses at once, or those of large weight first *)
Theorem C60_wbo_solve : forall ws s nv P H os hd n v s', reach (WBO false ws) s nv P H -> (forall i, fair (os i)) ->
  sSolve os hd n (WBO false ws) s = Some (v, s') -> right nv P v.
Proof. intros ws s nv P H os hd n v s' R F E. eapply solve_right; eauto. right. left. exists ws. reflexivity. Qed.
Print Assumptions C60_wbo_solve.
(** in plain terms *)
Theorem C60_wbo_optimum : forall ws s nv P H os hd n k m s', reach (WBO false ws) s nv P H -> (forall i, fair (os i)) ->
  sSolve os hd n (WBO false ws) s = Some (Optimum k m, s') ->
  (forall c, In c (p_hard P) -> true_in (of_list m) c = true) /\ cost P (of_list m) = k /\ forall a, (forall c, In c (p_hard P) -> true_in a c = true) -> k <= cost P a.
Proof. intros ws s nv P H os hd n k m s' R F E. destruct (C60_wbo_solve _ _ _ _ _ _ _ _ _ _ R F E) as (_ & A & B & C). auto. Qed.
Print Assumptions C60_wbo_optimum.
Theorem C60_wbo_infeasible : forall ws s nv P H os hd n s', reach (WBO false ws) s nv P H -> (forall i, fair (os i)) ->
  sSolve os hd n (WBO false ws) s = Some (Infeasible, s') -> forall a, ~ (forall c, In c (p_hard P) -> true_in a c = true).
Proof. intros ws s nv P H os hd n s' R F E. exact (C60_wbo_solve _ _ _ _ _ _ _ _ _ _ R F E). Qed.
Print Assumptions C60_wbo_infeasible.
Theorem C60_wbo_no_panic : forall ws s nv P H os hd n, reach (WBO false ws) s nv P H -> (forall i, fair (os i)) ->
  runAlgo os hd n (WBO false ws) (set_weighted (negb (curW (m_alg s) =? 1)) (m_alg s)) <> MPanic.
Proof. intros ws s nv P H os hd n R F. eapply solve_no_panic; eauto. right. left. exists ws. reflexivity. Qed.
Print Assumptions C60_wbo_no_panic.
(** on problems of Boolean multilevel optimization it agrees with LinearSU with BMO *)
Theorem C60_wbo_agrees_bmo : forall ws s1 nv P H1 os1 hd1 n1 k1 m1 s1' s2 nv2 H2 os2 hd2 n2 v2 s2', reach (WBO false ws) s1 nv P H1 -> reach LinearBMO s2 nv2 P H2 ->
  bmo P -> (forall wc, In wc (p_soft P) -> snd wc <> []) -> (forall i, fair (os1 i)) -> (forall i, fair (os2 i)) ->
  sSolve os1 hd1 n1 (WBO false ws) s1 = Some (Optimum k1 m1, s1') -> sSolve os2 hd2 n2 LinearBMO s2 = Some (v2, s2') -> v2 <> Cancelled -> exists m2, v2 = Optimum k1 m2.
Proof.
  intros ws s1 nv P H1 os1 hd1 n1 k1 m1 s1' s2 nv2 H2 os2 hd2 n2 v2 s2' R1 R2 HB HN F1 F2 E1 E2 N. destruct (C60_wbo_solve _ _ _ _ _ _ _ _ _ _ R1 F1 E1) as (_ & A & B & C). pose proof (C58_bmo_partial _ _ _ _ _ _ _ _ _ R2 HB HN F2 E2) as D. destruct v2 as [| |k2 m2]; [congruence|destruct (D _ A)|].
  destruct D as (_ & A2 & B2 & C2). exists m2. f_equal. specialize (C _ A2). specialize (C2 _ A). lia.
Qed.
Print Assumptions C60_wbo_agrees_bmo.
(** the strategies for the weights agree with each other *)
Theorem C60_wbo_strategies_agree : forall ws1 ws2 s1 nv P H1 os1 hd1 n1 k1 m1 s1' s2 nv2 H2 os2 hd2 n2 v2 s2', reach (WBO false ws1) s1 nv P H1 -> reach (WBO false ws2) s2 nv2 P H2 ->
  (forall i, fair (os1 i)) -> (forall i, fair (os2 i)) ->
  sSolve os1 hd1 n1 (WBO false ws1) s1 = Some (Optimum k1 m1, s1') -> sSolve os2 hd2 n2 (WBO false ws2) s2 = Some (v2, s2') -> v2 <> Cancelled -> exists m2, v2 = Optimum k1 m2.
Proof.
  intros ws1 ws2 s1 nv P H1 os1 hd1 n1 k1 m1 s1' s2 nv2 H2 os2 hd2 n2 v2 s2' R1 R2 F1 F2 E1 E2 N. destruct (C60_wbo_solve _ _ _ _ _ _ _ _ _ _ R1 F1 E1) as (_ & A & B & C). pose proof (C60_wbo_solve _ _ _ _ _ _ _ _ _ _ R2 F2 E2) as D. destruct v2 as [| |k2 m2]; [congruence|destruct (D _ A)|].
  destruct D as (_ & A2 & B2 & C2). exists m2. f_equal. specialize (C _ A2). specialize (C2 _ A). lia.
Qed.
Print Assumptions C60_wbo_strategies_agree.
(** the weighted problem on which LinearSU fails, and the one of Boolean multilevel optimization *)
Example ex_wbo : forall ws, reach (WBO false ws) (fill 3 wHard wSoft) 3 (Problem wHard wSoft) [] /\
  match sSolve (fun _ => goO) go 60 (WBO false ws) (fill 3 wHard wSoft) with Some (Optimum k _, _) => k = 3 | _ => False end /\
  match sSolve (fun _ => goO) go 60 (WBO false ws) (fill 4 bHard bSoft) with Some (Optimum k _, _) => k = 1 | _ => False end.
Proof.
  intros ws. split; [apply fill_reach; [inlist|]; cbn; intros wc I; repeat destruct I as [<-|I]; try contradiction; cbn; split; auto; try lia; inlist|]. destruct ws; split; vm_compute; reflexivity.
Qed.

(** C59: cancelled searches. The empty result of a cancelled search is kept (solver.go 233-235): the next call returns it with success although the
    problem has a solution. ([Cancelled] in the cache is the result with Satisfiable = false and Optimum = 0.) *)
Definition stopAt (k : nat) : nat -> bool := fun i => negb (i =? k).
Theorem C59_cancelled_result_kept_refuted : exists s s1, reach (MSU3 IncNone) s 3 (Problem exHard exSoft) [] /\
  sSolve (fun _ => goO) (stopAt 2) 60 (MSU3 IncNone) s = Some (Cancelled, s1) /\
  (forall os hd n, sSolve os hd n (MSU3 IncNone) s1 = Some (Cancelled, s1)) /\ exists a, feasible (Problem exHard exSoft) a.
Proof.
  assert (C : match sSolve (fun _ => goO) (stopAt 2) 60 (MSU3 IncNone) (fill 3 exHard exSoft) with Some (v, s) => Some (v, m_result s) | None => None end = Some (Cancelled, Some Cancelled)) by (vm_compute; reflexivity).
  destruct (sSolve (fun _ => goO) (stopAt 2) 60 (MSU3 IncNone) (fill 3 exHard exSoft)) as [[v s1]|] eqn:E; [|discriminate]. injection C as -> C.
  exists (fill 3 exHard exSoft), s1. split; [apply ex_reach|]. split; auto. split; [intros; unfold sSolve; rewrite C; auto|]. exists (fun _ => false). clear. intros c I; repeat (destruct I as [<-|I]; [reflexivity|]); destruct I.
Qed.
Print Assumptions C59_cancelled_result_kept_refuted.
(** A search that is cancelled by the event at its end does not restore the problem (algorithm.go 108-110): after one more clause, which every
    assignment satisfies, the reported optimum is wrong. The soft clause still has the relaxation variable of the first search. *)
Definition lastO : oracle := Oracle (fun _ => 2) (fun _ b => b) (fun _ => false) (fun _ => false) (fun _ l => l) (fun _ => false) (fun _ => true) (fun _ => true) (fun _ => true).
Theorem C59_cancelled_at_end_refuted : exists s s1 s2 a k m, reach (LinearUS IncNone) s 1 (Problem [] [(1, [(0, false)])]) [] /\ fair lastO /\
  sSolve (fun _ => lastO) (stopAt 4) 60 (LinearUS IncNone) s = Some (Cancelled, s1) /\
  sSolve (fun _ => lastO) go 60 (LinearUS IncNone) (sHard [(0, true); (0, false)] s1) = Some (Optimum k m, s2) /\
  feasible (Problem [[(0, true); (0, false)]] [(1, [(0, false)])]) a /\ cost (Problem [[(0, true); (0, false)]] [(1, [(0, false)])]) a < k.
Proof.
  assert (Fe : feasible (Problem [[(0, true); (0, false)]] [(1, [(0, false)])]) (fun _ => true)) by (intros c I; repeat (destruct I as [<-|I]; [reflexivity|]); destruct I).
  assert (R : reach (LinearUS IncNone) (fill 1 [] [(1, [(0, false)])]) 1 (Problem [] [(1, [(0, false)])]) []). { apply fill_reach; [inlist|]. cbn. intros wc I. repeat destruct I as [<-|I]; try contradiction; cbn; split; auto; inlist. }
  assert (C : match sSolve (fun _ => lastO) (stopAt 4) 60 (LinearUS IncNone) (fill 1 [] [(1, [(0, false)])]) with Some (v, s) => Some (v, match sSolve (fun _ => lastO) go 60 (LinearUS IncNone) (sHard [(0, true); (0, false)] s) with Some (w, _) => Some w | None => None end) | None => None end = Some (Cancelled, Some (Optimum 1 [false; true]))) by (vm_compute; reflexivity).
  destruct (sSolve (fun _ => lastO) (stopAt 4) 60 (LinearUS IncNone) (fill 1 [] [(1, [(0, false)])])) as [[v s1]|] eqn:E; [|discriminate]. injection C as -> C.
  destruct (sSolve (fun _ => lastO) go 60 (LinearUS IncNone) (sHard [(0, true); (0, false)] s1)) as [[w s2]|] eqn:E2; [|discriminate]. injection C as ->.
  exists (fill 1 [] [(1, [(0, false)])]), s1, s2, (fun _ => true), 1, [false; true]. split; [exact R|]. split; [split; auto|]. split; [exact E|]. split; [exact E2|]. split; [exact Fe|]. clear. vm_compute. auto.
Qed.
Print Assumptions C59_cancelled_at_end_refuted.
