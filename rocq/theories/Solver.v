(** * The solver as its clients see it

    The algorithms built on the SAT solver (explanations, optimization,
    enumeration, prime implicants, backbones) use it only through the methods
    of [sat/solver.go] and [sat/call.go].  This file models that interface.

    Simplification: the content of a solver is the list of formulas added to
    it, not the clauses they are translated to.  What a SAT call answers is
    chosen by an environment, which may give a different answer (and a
    different model) at every moment of the history and may report that the
    handler cancelled the call.  The predicate [env_ok] says that answers are
    correct; for the core solver that is what C37, C38 (SatProps.v) and the
    encoding and normal form theorems (EncProps.v, NfProps.v) establish. *)
From Coq Require Import String List Bool Arith Lia ZArith.
From Verif Require Import Spec.
Import ListNotations.

(** sat/call.go:142-171 (CallResult): cancelled, satisfiable (with the values
    of the variables) or unsatisfiable. *)
Inductive answer := Canceled | Sat (b : asg) | Unsat.

(** The choices that the client does not control: the answer of a SAT call
    with given content and assumption literals (sat/call.go:198-257), the
    variables which get an index when a formula is added
    (sat/solver.go:165-173, getOrAddIndex), and the decision of the handler at
    an event (handler/handler.go, ShouldResume).  The first argument is the
    moment in the history. *)
Record env := mkEnv {
  e_solve : nat -> list tree -> list lit -> answer;
  e_reg : nat -> tree -> list string;
  e_resume : nat -> bool
}.

Definition satisfies (b : asg) (fs : list tree) : Prop := forall t, In t fs -> eval b t = true.

(** Correct answers.  The last clause says that a variable of a formula which
    did not get an index on the solver does not matter for the formula. *)
Record env_ok (E : env) : Prop := mkEnvOk {
  eo_sat : forall c fs ls b, e_solve E c fs ls = Sat b -> satisfies b fs /\ satisfies b (map TLit ls);
  eo_unsat : forall c fs ls, e_solve E c fs ls = Unsat -> forall b, satisfies b fs -> satisfies b (map TLit ls) -> False;
  eo_reg : forall c t b b', (forall x, In x (e_reg E c t) -> b x = b' x) -> eval b t = eval b' t
}.

(** No call is cancelled. *)
Definition uncancelled (E : env) : Prop :=
  (forall c fs ls, e_solve E c fs ls <> Canceled) /\ (forall c, e_resume E c = true).

(** sat/solver.go:18-33 (Solver, SolverState): content, variables with an index, the saved
    states that are still valid (the latest first, sat/core.go:531-620) with
    what they restore, the number of the next state, and the time. *)
Record solver := mkSolver {
  s_forms : list tree;
  s_known : list string;
  s_states : list (nat * (list tree * list string));
  s_next : nat;
  s_time : nat
}.

(** sat/solver.go:35-50 (newSolver, NewSolver). *)
Definition newSolver (time : nat) : solver := mkSolver [] [] [] 0 time.

(** sat/solver.go:66-80 (Add, AddProposition). *)
Definition add (E : env) (s : solver) (t : tree) : solver :=
  mkSolver (s_forms s ++ [t]) (s_known s ++ e_reg E (s_time s) t) (s_states s) (s_next s) (S (s_time s)).

Fixpoint addAll (E : env) (s : solver) (ts : list tree) : solver :=
  match ts with [] => s | t :: r => addAll E (add E s t) r end.

(** sat/solver.go:181-183 (SaveState). *)
Definition saveState (s : solver) : nat * solver :=
  (s_next s, mkSolver (s_forms s) (s_known s) ((s_next s, (s_forms s, s_known s)) :: s_states s) (S (s_next s)) (S (s_time s))).

(** sat/solver.go:187-195 (LoadState): the states saved after the loaded one
    become invalid; [None] is the error for a state that is not valid. *)
Fixpoint cutStates (id : nat) (l : list (nat * (list tree * list string))) :=
  match l with
  | [] => None
  | (i, c) :: r => if Nat.eqb i id then Some (c, l) else cutStates id r
  end.

Definition loadState (s : solver) (id : nat) : option solver :=
  match cutStates id (s_states s) with
  | None => None
  | Some ((fs, kn), l) => Some (mkSolver fs kn l (s_next s) (S (s_time s)))
  end.

(** sat/call.go:198-287 (Call, initCall, close) with assumption literals; the
    variables of the assumptions get an index. *)
Definition call (E : env) (s : solver) (ls : list lit) : answer * solver :=
  (e_solve E (s_time s) (s_forms s) ls,
   mkSolver (s_forms s) (s_known s ++ map fst ls) (s_states s) (s_next s) (S (s_time s))).

(** sat/core.go:1336-1346 (CreateModel) for the given variables: those without
    an index are left out. *)
Definition knows (s : solver) (x : string) : bool := existsb (String.eqb x) (s_known s).
Definition createModel (s : solver) (b : asg) (xs : list string) : list lit :=
  map (fun x => (x, b x)) (filter (knows s) xs).

(** model/model.go:55-64 (PosVars). *)
Definition posVars (m : list lit) : list string := map fst (filter snd m).

(** ** Facts *)

Lemma satisfies_nil b : satisfies b []. Proof. intros t []. Qed.
Lemma satisfies_app b l1 l2 : satisfies b (l1 ++ l2) <-> satisfies b l1 /\ satisfies b l2.
Proof.
  split.
  - intros H; split; intros t Ht; apply H, in_or_app; auto.
  - intros [H1 H2] t Ht; apply in_app_or in Ht as [Ht|Ht]; auto.
Qed.
Lemma satisfies_cons b t l : satisfies b (t :: l) <-> eval b t = true /\ satisfies b l.
Proof.
  split.
  - intros H; split; [apply H; now left|intros u Hu; apply H; now right].
  - intros [H1 H2] u [<- |Hu]; auto.
Qed.
Lemma satisfies_one b t : satisfies b [t] <-> eval b t = true.
Proof. rewrite satisfies_cons. split; [tauto|]. intros H; split; auto using satisfies_nil. Qed.
Lemma satisfies_incl b l l' : incl l l' -> satisfies b l' -> satisfies b l.
Proof. intros H1 H2 t Ht; auto. Qed.

Lemma addAll_forms E : forall ts s, s_forms (addAll E s ts) = s_forms s ++ ts.
Proof.
  induction ts as [|t r IH]; intros s; cbn; [now rewrite app_nil_r|].
  rewrite IH. cbn. now rewrite <- app_assoc.
Qed.
Lemma addAll_states E : forall ts s, s_states (addAll E s ts) = s_states s /\ s_next (addAll E s ts) = s_next s.
Proof. induction ts as [|t r IH]; intros s; cbn; auto. destruct (IH (add E s t)) as [-> ->]; auto. Qed.

(** ** A solver by exhaustive search, to show that [env_ok] can be met *)

Fixpoint varsOf (t : tree) : list string :=
  match t with
  | TFalse | TTrue => []
  | TLit l => [fst l]
  | TNot t => varsOf t
  | TAnd ts | TOr ts => flat_map varsOf ts
  | TImpl a b | TEquiv a b => varsOf a ++ varsOf b
  | TPBC _ _ _ ls _ => map fst ls
  end.

Lemma wsum_agree b b' : forall ls cs, (forall x, In x (map fst ls) -> b x = b' x) -> wsum b ls cs = wsum b' ls cs.
Proof.
  induction ls as [|[x p] r IH]; intros cs H; destruct cs as [|c cs]; cbn; auto.
  rewrite (IH cs) by (intros; apply H; now right).
  unfold eval_lit; cbn. rewrite (H x) by now left. reflexivity.
Qed.

Fixpoint eval_agree (b b' : asg) (t : tree) {struct t} : (forall x, In x (varsOf t) -> b x = b' x) -> eval b t = eval b' t.
Proof.
  destruct t as [| |l|t|ts|ts|t u|t u|cc c rhs ls cs]; cbn; intros H; auto.
  - unfold eval_lit. rewrite (H (fst l)) by now left. reflexivity.
  - rewrite (eval_agree b b' t); auto.
  - induction ts as [|t r IH]; cbn in *; auto.
    rewrite (eval_agree b b' t), IH; auto; intros; apply H, in_or_app; auto.
  - induction ts as [|t r IH]; cbn in *; auto.
    rewrite (eval_agree b b' t), IH; auto; intros; apply H, in_or_app; auto.
  - rewrite (eval_agree b b' t), (eval_agree b b' u); auto; intros; apply H, in_or_app; auto.
  - rewrite (eval_agree b b' t), (eval_agree b b' u); auto; intros; apply H, in_or_app; auto.
  - now rewrite (wsum_agree b b').
Qed.

Definition setTo (b : asg) (x : string) (v : bool) : asg := fun y => if String.eqb y x then v else b y.

Fixpoint search (xs : list string) (ts : list tree) (b : asg) : option asg :=
  match xs with
  | [] => if forallb (eval b) ts then Some b else None
  | x :: r => match search r ts (setTo b x false) with Some b' => Some b' | None => search r ts (setTo b x true) end
  end.

Lemma search_sound ts : forall xs b b', search xs ts b = Some b' -> satisfies b' ts.
Proof.
  induction xs as [|x r IH]; cbn; intros b b' H.
  - destruct (forallb (eval b) ts) eqn:F; [|discriminate]. injection H as <-.
    rewrite forallb_forall in F. exact F.
  - destruct (search r ts (setTo b x false)) eqn:F; [injection H as <-|]; eauto.
Qed.

Lemma search_complete ts : forall xs b b', search xs ts b = None ->
  (forall x, In x (flat_map varsOf ts) -> ~ In x xs -> b' x = b x) -> satisfies b' ts -> False.
Proof.
  induction xs as [|x r IH]; cbn; intros b b' H A S.
  - destruct (forallb (eval b) ts) eqn:F; [discriminate|].
    assert (forallb (eval b) ts = true); [|congruence].
    apply forallb_forall. intros t Ht. rewrite <- (S t Ht). symmetry. apply eval_agree.
    intros y Hy. apply A; auto. apply in_flat_map; eauto.
  - destruct (search r ts (setTo b x false)) eqn:F; [discriminate|].
    destruct (b' x) eqn:Bx.
    + eapply (IH _ b' H); auto. intros y Hy N. unfold setTo. destruct (String.eqb_spec y x) as [-> |]; auto.
      apply A; auto. intros [->|]; auto.
    + eapply (IH _ b' F); auto. intros y Hy N. unfold setTo. destruct (String.eqb_spec y x) as [-> |]; auto.
      apply A; auto. intros [->|]; auto.
Qed.

Definition bruteEnv : env :=
  mkEnv (fun _ fs ls => let ts := fs ++ map TLit ls in
           match search (nodup string_dec (flat_map varsOf ts)) ts (fun _ => false) with Some b => Sat b | None => Unsat end)
        (fun _ t => varsOf t) (fun _ => true).

Lemma bruteEnv_ok : env_ok bruteEnv /\ uncancelled bruteEnv.
Proof.
  split; [split|split]; cbn.
  - intros c fs ls b. destruct (search _ _ _) eqn:F; [|discriminate]. intros H; injection H as <-.
    apply search_sound in F. now apply satisfies_app in F.
  - intros c fs ls. destruct (search _ _ _) eqn:F; [discriminate|]. intros _ b H1 H2.
    eapply (search_complete _ _ _ b F).
    + intros x Hx N. exfalso. apply N. now apply nodup_In.
    + now apply satisfies_app.
  - intros c t b b' H. now apply eval_agree.
  - intros c fs ls. destruct (search _ _ _); discriminate.
  - reflexivity.
Qed.
