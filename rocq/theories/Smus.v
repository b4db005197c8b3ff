(** * Smallest unsatisfiable sets (explanation/smus/smus.go) *)
From Coq Require Import String List Bool Arith Lia ZArith DecimalString NArith.
From Verif Require Import Spec Solver Optimize Mus.
Import ListNotations.

(** explanation/smus/smus.go:12 and 80: names of the selector variables. *)
Definition propSel (i : nat) : string := ("@PROPOSITION_SEL_" ++ NilEmpty.string_of_uint (N.to_uint (N.of_nat i)))%string.

Definition atTime (t : nat) (s : solver) : solver := mkSolver (s_forms s) (s_known s) (s_states s) (s_next s) t.

Definition posLits (xs : list string) : list lit := map (fun x => (x, true)) xs.

(** Result: [SNil] is the nil slice returned for a satisfiable input. *)
Inductive smusRes := SNil | SProps (l : list prop) | SCanceled | SPanic | SFuel.

(** explanation/smus/smus.go:114-120 (minimumHs): a nil model would be
    dereferenced. *)
Inductive hsRes := HSet (h : list string) | HCanceled | HPanic.
Definition minimumHs (E : env) (hSolver : solver) (vars : list string) : hsRes * solver :=
  match optimize E hSolver false (posLits vars) [] with
  | (OModel m, s) => (HSet (posVars m), s)
  | (OCanceled _, s) => (HCanceled, s)
  | (OUnsat, s) | (OPanic, s) | (OFuel, s) => (HPanic, s)
  end.

(** explanation/smus/smus.go:122-141 (grow): [GNone] is the nil result. *)
Inductive growRes := GNone | GSet (c : list string) | GCanceled | GPanic.
Definition grow (E : env) (growSolver : solver) (h vars : list string) : growRes * solver :=
  let '(id, s0) := saveState growSolver in
  let s1 := addAll E s0 (map TLit (posLits h)) in
  match optimize E s1 true (posLits vars) [] with
  | (OCanceled _, s) => (GCanceled, s)
  | (OUnsat, s) => (GNone, s)
  | (OModel m, s) =>
      match loadState s id with
      | None => (GPanic, s)
      | Some s' => (GSet (filter (fun x => negb (existsb (String.eqb x) (posVars m))) vars), s')
      end
  | (OPanic, s) | (OFuel, s) => (GPanic, s)
  end.

(** explanation/smus/smus.go:82 and 104: the map from selectors to propositions. *)
Fixpoint mapping (sels : list string) (props : list prop) (x : string) : option prop :=
  match sels, props with
  | y :: sels', p :: props' => if String.eqb x y then Some p else mapping sels' props' x
  | _, _ => None
  end.

Fixpoint collect {A} (l : list (option A)) : list A :=
  match l with [] => [] | Some x :: r => x :: collect r | None :: r => collect r end.

(** explanation/smus/smus.go:93-111: the loop. *)
Fixpoint smusLoop (fuel : nat) (E : env) (growS hS : solver) (sels : list string) (props : list prop) : smusRes :=
  match fuel with
  | O => SFuel
  | S fuel' =>
      match minimumHs E hS sels with
      | (HCanceled, _) => SCanceled
      | (HPanic, _) => SPanic
      | (HSet h, hS1) =>
          match grow E (atTime (s_time hS1) growS) h sels with
          | (GCanceled, _) => SCanceled
          | (GPanic, _) => SPanic
          | (GNone, _) => SProps (collect (map (mapping sels props) h))
          | (GSet c, growS1) =>
              smusLoop fuel' E growS1 (add E (atTime (s_time growS1) hS1) (TOr (map TLit (posLits c)))) sels props
          end
      end
  end.

(** explanation/smus/smus.go:65-112 (ComputeWithHandler). *)
Definition smus (fuel : nat) (E : env) (props : list prop) (constraints : list tree) : smusRes :=
  if e_resume E 0 then
    let sels := map propSel (seq 0 (length props)) in
    let s1 := addAll E (newSolver 1) constraints in
    let s2 := addAll E s1 (map (fun p => TEquiv (TLit (fst p, true)) (p_form (snd p))) (combine sels props)) in
    match call E s2 (posLits sels) with
    | (Canceled, _) => SCanceled
    | (Sat _, _) => SNil
    | (Unsat, s3) => smusLoop fuel E s3 (newSolver (s_time s3)) sels props
    end
  else SCanceled.

(** The loop of the code has no bound; this many rounds always suffice. *)
Definition smusFuel (props : list prop) : nat := S (2 ^ length props).
