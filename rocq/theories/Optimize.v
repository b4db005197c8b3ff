(** * Optimization on the solver (sat/optimizer_function.go) *)
From Coq Require Import String List Bool Arith Lia ZArith DecimalString NArith.
From Verif Require Import Spec Solver.
Import ListNotations.

(** sat/optimizer_function.go:20 and 99: names of the selector variables. *)
Definition selName (i : nat) : string := ("@SEL_OPT_" ++ NilEmpty.string_of_uint (N.to_uint (N.of_nat i)))%string.

(** formula/literal negation. *)
Definition negl (l : lit) : lit := (fst l, negb (snd l)).

(** sat/optimizer_function.go:104-114: the clauses for one selector. *)
Definition selClauses (maximize : bool) (sel : string) (l : lit) : list tree :=
  if maximize then [TOr [TLit (sel, false); TLit l]; TOr [TLit (negl l); TLit (sel, true)]]
  else [TOr [TLit (sel, false); TLit (negl l)]; TOr [TLit l; TLit (sel, true)]].

(** The cardinality constraint "at least k of the variables". *)
Definition atLeast (k : nat) (xs : list string) : tree :=
  TPBC true GE (Z.of_nat k) (map (fun x => (x, true)) xs) (map (fun _ => 1%Z) xs).

(** Result: the model together with the state; [OCanceled None] is a nil model. *)
Inductive optRes := OUnsat | OModel (m : list lit) | OCanceled (m : option (list lit)) | OPanic | OFuel.

Definition modelOf (rel : list string) (b : asg) : list lit := map (fun x => (x, b x)) rel.

(** The length of [currentModel.PosVars()] for the model of the selectors. *)
Definition boundOf (s : solver) (b : asg) (sels : list string) : nat := length (posVars (createModel s b sels)).

(** encoding/cc_encoding.go:358-394 (alkIncremental): incremental data is only
    returned for a bound strictly between 1 and the number of variables; the
    value here is the current right-hand side. *)
Definition incData (k n : nat) : option nat :=
  if Nat.ltb 1 k && Nat.ltb k n then Some k else None.

(** sat/optimizer_function.go:150-169: the loop that tightens the bound.  [a]
    is the answer of the latest call, [best] the latest internal model. *)
Fixpoint optLoop (fuel : nat) (E : env) (s : solver) (sels rel : list string) (best : asg) (data : option nat) (a : answer) : optRes * solver :=
  match a with
  | Canceled => (OCanceled (Some (modelOf rel best)), s)
  | Unsat => (OModel (modelOf rel best), s)
  | Sat b =>
      match fuel with
      | O => (OFuel, s)
      | S fuel' =>
          let s1 := mkSolver (s_forms s) (s_known s) (s_states s) (s_next s) (S (s_time s)) in
          if e_resume E (s_time s) then
            let bound := boundOf s1 b sels in
            if Nat.eqb bound (length sels) then (OModel (modelOf rel b), s1)
            else
              match data with
              | None => (OPanic, s1)
              | Some rhs =>
                  (* encoding/cc_incremental_data.go: the bound must be tightened *)
                  if Nat.leb (bound + 1) rhs then (OPanic, s1)
                  else
                    let s2 := add E s1 (atLeast (bound + 1) sels) in
                    let '(a', s3) := call E s2 [] in
                    optLoop fuel' E s3 sels rel b (Some (bound + 1)) a'
              end
          else (OCanceled (Some (modelOf rel b)), s1)
      end
  end.

(** sat/optimizer_function.go:140-169: from the first incremental constraint on. *)
Definition optTail (E : env) (s : solver) (sels rel : list string) (best : asg) (bound : nat) : optRes * solver :=
  let s1 := add E s (atLeast (bound + 1) sels) in
  let '(a, s2) := call E s1 [] in
  optLoop (S (length sels)) E s2 sels rel best (incData (bound + 1) (length sels)) a.

(** sat/optimizer_function.go:83-170 (maximize). *)
Definition maximizeM (E : env) (s : solver) (maximize : bool) (lits : list lit) (rel : list string) : optRes * solver :=
  if e_resume E (s_time s) then
    let sels := map selName (seq 0 (length lits)) in
    let s1 := addAll E (mkSolver (s_forms s) (s_known s) (s_states s) (s_next s) (S (s_time s)))
                (flat_map (fun p => selClauses maximize (fst p) (snd p)) (combine sels lits)) in
    let '(a, s2) := call E s1 [] in
    match a with
    | Canceled => (OCanceled None, s2)
    | Unsat => (OUnsat, s2)
    | Sat b =>
        let bound := boundOf s2 b sels in
        if Nat.eqb bound 0 then
          let s3 := add E s2 (atLeast 1 sels) in
          let '(a', s4) := call E s3 [] in
          match a' with
          | Canceled => (OCanceled (Some (modelOf rel b)), s4)
          | Unsat => (OModel (modelOf rel b), s4)
          | Sat b' => optTail E s4 sels rel b' (boundOf s4 b' sels)
          end
        else if Nat.eqb bound (length sels) then (OModel (modelOf rel b), s2)
        else optTail E s2 sels rel b bound
    end
  else (OCanceled None, mkSolver (s_forms s) (s_known s) (s_states s) (s_next s) (S (s_time s))).

(** sat/optimizer_function.go:58-81 (optimize): the state is saved before and
    loaded after; an error of LoadState is ignored.  Simplification: the order
    of the variables in the returned model. *)
Definition optimize (E : env) (s : solver) (maximize : bool) (lits : list lit) (extra : list string) : optRes * solver :=
  let '(id, s0) := saveState s in
  let rel := filter (knows s0) (nodup string_dec (extra ++ map fst lits)) in
  let '(r, s1) := maximizeM E s0 maximize lits rel in
  match loadState s1 id with
  | Some s2 => (r, s2)
  | None => (r, s1)
  end.
