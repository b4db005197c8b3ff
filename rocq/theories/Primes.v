(** * Prime implicants and implicates (primeimplicant/computation.go) *)
From Coq Require Import String List Bool Arith Lia ZArith.
From Verif Require Import Spec Solver Optimize Smus.
Import ListNotations.

Definition litEqb (l m : lit) : bool := String.eqb (fst l) (fst m) && Bool.eqb (snd l) (snd m).

(** primeimplicant/computation.go:33-36, 184-200 (createSubstitution): the
    variable that stands for a literal. *)
Definition newVar (l : lit) : string := (fst l ++ (if snd l then "_POS" else "_NEG"))%string.

(** All literals over the variables of the formula. *)
Definition allLits (vs : list string) : list lit := flat_map (fun x => [(x, true); (x, false)]) vs.

(** primeimplicant/computation.go:195-199: at most one of the two variables. *)
Definition amo2 (x y : string) : tree := TPBC true LE 1%Z [(x, true); (y, true)] [1%Z; 1%Z].
Definition constraintFormula (vs : list string) : tree :=
  TAnd (map (fun x => amo2 (newVar (x, true)) (newVar (x, false))) vs).

(** primeimplicant/computation.go:202-208 (transformModel). *)
Definition transformModel (ol : list lit) (m : list lit) : list lit :=
  collect (map (fun y => find (fun l => String.eqb (newVar l) y) ol) (posVars m)).

(** primeimplicant/computation.go:235-275 (reduceImplicant, reduceImplicate):
    [g] is the identity for implicants and the negation for implicates.
    Simplification: the order of the literals in the set. *)
Inductive redRes := RSet (ls : list lit) | RCanceled.
Definition removeLit (l : lit) (ls : list lit) : list lit := filter (fun m => negb (litEqb l m)) ls.
Fixpoint reduceLoop (E : env) (s : solver) (g : lit -> lit) (todo cur : list lit) : redRes * solver :=
  match todo with
  | [] => (RSet cur, s)
  | l :: r =>
      let cur' := removeLit l cur in
      match call E s (map g cur') with
      | (Canceled, s') => (RCanceled, s')
      | (Sat _, s') => reduceLoop E s' g r (cur' ++ [l])
      | (Unsat, s') => reduceLoop E s' g r cur'
      end
  end.
Fixpoint dedup (ls : list lit) : list lit :=
  match ls with [] => [] | l :: r => l :: removeLit l (dedup r) end.
Definition reduce (E : env) (s : solver) (g : lit -> lit) (ls : list lit) : redRes * solver :=
  if e_resume E (s_time s) then reduceLoop E (atTime (S (s_time s)) s) g ls (dedup ls)
  else (RCanceled, atTime (S (s_time s)) s).

(** The solvers of the computation (lines 117-121, 227-233). *)
Record primeSolvers := mkPS { ps_h : solver; ps_f : solver; ps_implicant : solver; ps_implicate : solver }.

Inductive primeRes := PRes (implicants implicates : list (list lit)) | PCanceled | PPanic | PFuel.

(** primeimplicant/computation.go:123-181: the loop of computeGeneric. *)
Fixpoint primeLoop (fuel : nat) (E : env) (time : nat) (vs : list string) (maximize : bool)
    (S0 : primeSolvers) (imps ices : list (list lit)) : primeRes :=
  match fuel with
  | O => PFuel
  | S fuel' =>
      let ol := allLits vs in
      match optimize E (atTime time (ps_h S0)) maximize (posLits (map newVar ol)) [] with
      | (OCanceled _, _) => PCanceled
      | (OPanic, _) => PPanic
      | (OFuel, _) => PFuel
      | (OUnsat, _) => PRes imps ices
      | (OModel m, h1) =>
          let fModel := transformModel ol m in
          match call E (atTime (s_time h1) (ps_f S0)) fModel with
          | (Canceled, _) => PCanceled
          | (Unsat, f1) =>
              let '(r, im1) := if maximize then reduce E (atTime (s_time f1) (ps_implicant S0)) (fun l => l) fModel
                               else (RSet fModel, atTime (s_time f1) (ps_implicant S0)) in
              match r with
              | RCanceled => PCanceled
              | RSet p =>
                  let h2 := add E (atTime (s_time im1) h1) (TOr (map (fun l => TLit (newVar l, false)) p)) in
                  primeLoop fuel' E (s_time h2) vs maximize (mkPS h2 f1 im1 (ps_implicate S0)) (imps ++ [p]) ices
              end
          | (Sat b, f1) =>
              let ls := if maximize then fModel else createModel f1 b vs in
              match reduce E (atTime (s_time f1) (ps_implicate S0)) negl (map negl ls) with
              | (RCanceled, _) => PCanceled
              | (RSet p, ic1) =>
                  let h2 := add E (atTime (s_time ic1) h1) (TOr (map (fun l => TLit (newVar l, true)) p)) in
                  primeLoop fuel' E (s_time h2) vs maximize (mkPS h2 f1 (ps_implicant S0) ic1) imps (ices ++ [p])
              end
          end
      end
  end.

(** primeimplicant/computation.go:105-182 (computeGeneric). *)
Definition computeGeneric (fuel : nat) (E : env) (t : tree) (maximize : bool) : primeRes :=
  let vs := nodup string_dec (varsOf t) in
  let h := add E (newSolver 1) (constraintFormula vs) in
  let f := add E (newSolver (s_time h)) (TNot t) in
  let im := add E (newSolver (s_time f)) (TNot t) in
  let ic := add E (newSolver (s_time im)) t in
  primeLoop fuel E (s_time ic) vs maximize (mkPS h f im ic) [] [].

(** primeimplicant/computation.go:78-103 (compute). *)
Inductive coverSort := CoverImplicants | CoverImplicates.
Definition primes (fuel : nat) (E : env) (t : tree) (c : coverSort) (maximize : bool) : primeRes :=
  if e_resume E 0 then
    match c with
    | CoverImplicants => computeGeneric fuel E t maximize
    | CoverImplicates =>
        match computeGeneric fuel E (TNot t) maximize with
        | PRes imps ices => PRes (map (map negl) ices) (map (map negl) imps)
        | r => r
        end
    end
  else PCanceled.

(** The loop of the code has no bound; this many rounds always suffice. *)
Definition primeFuel (t : tree) : nat := S (2 ^ (2 * length (nodup string_dec (varsOf t)))).
