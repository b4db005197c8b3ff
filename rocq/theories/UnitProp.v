(** * Model of unit propagation: simplification/unit_propagation.go, sat/unit_propagator.go

    Simplifications:
    - The variables are decision variables; the flag, the heap of variables and the clause
      minimization are read by the search only, which the propagator never starts.
    - The result [SStuck] means that the recursion depth [k] of the core solver does not suffice. *)
From Coq Require Import String List Bool Arith ZArith NArith.
From Verif Require Sat.
From Verif Require Import Spec Factory Assign EncSpec EncApi EncPbc NormalForm SatApi.
Import ListNotations.

Section UnitPropagator.
Variables (enc : encConfig) (nf : cnfConfig) (k : nat).
(** unit_propagator.go:17-22 NewUnitPropagator; NewVar(false, false) in line 83 *)
Definition upConfig : satConfig := SatCfg CNFFactory false true Sat.MinBasic enc nf.
(** unit_propagator.go:25-40 Add and 76-97 generateClauseVector; Content sorts as slices.Sort does *)
Definition upAdd (n : nat) (f : formula) : SM unit := g <~ liftF (CNF n enc nf f) ;; addClauseSet upConfig k n g.
(** unit_propagator.go:72-74 solverLiteralToFormula *)
Definition litForm (ns : list string) (l : nat * bool) : M formula := up (Lit (nth (fst l) ns EmptyString) (negb (snd l))).
(** unit_propagator.go:58-70 clauseToFormula *)
Fixpoint clauseForm (c : Sat.sat) (ns : list string) (ls : list (nat * bool)) (acc : list formula) : M formula :=
  match ls with
  | [] => up (Or acc)
  | l :: r => match Sat.val c l with
              | Some true => ret ftrue
              | None => x <- litForm ns l ;; clauseForm c ns r (acc ++ [x])
              | Some false => clauseForm c ns r acc
              end
  end.
(** unit_propagator.go:47-55: the clauses and the trail *)
Definition solverForm (c : Sat.sat) (ns : list string) : M formula :=
  cs <- mapM (fun i => clauseForm c ns (Sat.c_lits (Sat.db c i)) []) (Sat.clauses c) ;;
  ts <- mapM (litForm ns) (Sat.trail c) ;; up (And (cs ++ ts)).
(** unit_propagator.go:43-56 PropagateFormula *)
Definition propagateFormula : SM formula :=
  b <~ getW (fun w => Sat.ok (core w)) ;;
  if b then
    c <~ liftC (Sat.propagate k) ;;
    match c with
    | Some _ => sret ffalse
    | None => w <~ getW (fun w => w) ;; liftF (solverForm (core w) (vnames w))
    end
  else sret ffalse.
(** unit_propagation.go:15-25 PropagateUnits *)
Definition propagateUnits (n : nat) (f : formula) : SM formula :=
  c <~ liftF (get (lookupTrans TransUnitProp f)) ;;
  match c with
  | Some g => sret g
  | None => _ <~ putW (fun _ => newSolver) ;; _ <~ upAdd n f ;; g <~ propagateFormula ;;
            _ <~ liftF (put (setTrans TransUnitProp f g)) ;; sret g
  end.
End UnitPropagator.
