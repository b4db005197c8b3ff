(** * Model of the MaxSAT solver on formulas: maxsat/{solver,algorithm}.go

    MaxSat.v knows clauses over numbered variables; this layer keeps the names of the variables, translates formulas to
    clauses with the CNF of the factory (CNFMethod = CNFFactory, the default), and builds models.  Operations work on a
    factory ([M]); [n] is the recursion depth of the factory operations.  They return [None] if they panic or if the depth
    is too small. *)
From Coq Require Import String Ascii List Bool Arith ZArith NArith DecimalString.
From Verif Require Import MaxSpec MaxSat.
From Verif Require Import Spec Factory Assign EncSpec EncApi EncPbc NormalForm SatApi.
Import ListNotations.
Local Close Scope N_scope.

(** solver.go 47-56 [Solver], algorithm.go 33-62.  The maps var2index and index2var are one list: the name at position i belongs to
    variable i (as long as no search is cancelled at its end, there are no other variables between searches).  [padded] is not in the code: it notes
    whether a clause vector was longer than the set of its literals (see [addClause]). *)
Record maxw := MaxW { mcore : msolver; mnames : list string; selCtr : nat; padded : bool }.
Definition newMaxw : maxw := MaxW newSolverM [] 0 false.
(** solver.go 42, 181 *)
Definition selPrefix : string := "@SEL_SOFT_".
Definition selName (i : nat) : string := (selPrefix ++ NilEmpty.string_of_uint (N.to_uint (N.of_nat i)))%string.

(** algorithm.go 268-273 *)
Definition varIndex (x : string) (w : maxw) : nat * maxw :=
  match indexOf x (mnames w) with
  | Some i => (i, w)
  | None => (length (mnames w), MaxW (sVar (mcore w)) (mnames w ++ [x]) (selCtr w) (padded w))
  end.
(** algorithm.go 267-280 *)
Fixpoint clauseVec (nps : list (string * bool)) (w : maxw) : list (nat * bool) * maxw :=
  match nps with
  | [] => ([], w)
  | np :: r => let (i, w1) := varIndex (fst np) w in let (ps, w2) := clauseVec r w1 in ((i, negb (snd np)) :: ps, w2)
  end.
(** algorithm.go 265-294 addClause, addClauseVec.  The vector has as many entries as the formula has atoms; entries without a literal stay 0, which is
    the positive literal of variable 0.  [wt] is the weight of a soft clause, [None] for -1. *)
Definition addClause (n : nat) (wt : option nat) (f : formula) (w : maxw) : M maxw :=
  k <- numberOfAtoms n f ;;
  ls <- literalsOf n f ;;
  nps <- get (fun s => map (fun l => match literals s l with Some np => np | None => (EmptyString, false) end) (sortF ls)) ;;
  let (ps, w1) := clauseVec nps w in
  if Z.to_nat k <? length ps then fail
  else
    let vec := ps ++ repeat (0, false) (Z.to_nat k - length ps) in
    ret (MaxW (match wt with Some v => sSoft v vec (mcore w1) | None => sHard vec (mcore w1) end) (mnames w1) (selCtr w1) (padded w1 || (length ps <? Z.to_nat k))).
Fixpoint addClauses (n : nat) (wt : option nat) (fs : list formula) (w : maxw) : M maxw :=
  match fs with [] => ret w | f :: r => w1 <- addClause n wt f w ;; addClauses n wt r w1 end.

Section Api.
Variables (cf : encConfig) (nf : cnfConfig).
(** solver.go 248-270 addFormulaAsCNF, addCNF *)
Definition addAsCNF (n : nat) (wt : option nat) (f : formula) (w : maxw) : M maxw :=
  g <- CNF n cf nf f ;;
  let w0 := MaxW (sDrop (mcore w)) (mnames w) (selCtr w) (padded w) in
  match srt g with
  | STrue => ret w0
  | SFalse | SLit | SOr => addClause n wt g w0
  | SAnd => ops <- get (opNary g) ;; addClauses n wt ops w0
  | _ => fail
  end.
(** solver.go 169-173 AddHardFormula, for one formula *)
Definition addHardFormula (n : nat) (f : formula) (w : maxw) : M maxw := addAsCNF n None f w.
(** solver.go 177-187 AddSoftFormula; false is the error *)
Definition addSoftFormula (n : nat) (f : formula) (wt : Z) (w : maxw) : M (bool * maxw) :=
  if Z.ltb wt 1 then ret (false, w)
  else
    let x := selName (selCtr w) in
    sel <- up (Var x) ;;
    let w0 := MaxW (mcore w) (mnames w) (S (selCtr w)) (padded w) in
    nsel <- up (Lit x false) ;;
    a <- up (Or [nsel; f]) ;;
    w1 <- addAsCNF n None a w0 ;;
    g <- up (Not f) ;;
    b <- up (Or [g; sel]) ;;
    w2 <- addAsCNF n None b w1 ;;
    w3 <- addAsCNF n (Some (Z.to_nat wt)) sel w2 ;;
    ret (true, w3).
End Api.

(** solver.go 19-29 Result; the model is the list of its literals *)
Inductive answer := ACancelled | AUnsat | AOptimum (k : nat) (ls : list formula).
(** solver.go 223-236 SolveWithHandler, algorithm.go 372-395 createModel, optimum *)
Definition solveFormulas (os : nat -> Sat.oracle) (hd : nat -> bool) (k : nat) (alg : algo) (w : maxw) : M (answer * maxw) :=
  match sSolve os hd k alg (mcore w) with
  | None => fail
  | Some (v, c) =>
      let w' := MaxW c (mnames w) (selCtr w) (padded w) in
      match v with
      | Cancelled => ret (ACancelled, w')
      | Infeasible => ret (AUnsat, w')
      | Optimum z m =>
          ls <- mapM (fun p => up (Lit (fst p) (snd p))) (filter (fun p => negb (String.prefix selPrefix (fst p))) (combine (mnames w) m)) ;;
          ret (AOptimum z ls, w')
      end
  end.

(** solver.go 190-211 SaveState, LoadState on formulas, algorithm.go 307-361: a load forgets the names of all variables that are younger than the state; it
    does not set the counter of the selectors back.  false is the error. *)
Definition saveW (w : maxw) : option (mstate * maxw) :=
  match sSave (mcore w) with Some (st, c) => Some (st, MaxW c (mnames w) (selCtr w) (padded w)) | None => None end.
Definition loadW (st : mstate) (w : maxw) : option (bool * maxw) :=
  match sLoad st (mcore w) with
  | Some (true, c) => Some (true, MaxW c (firstn (ms_vars st) (mnames w)) (selCtr w) (padded w))
  | Some (false, c) => Some (false, MaxW c (mnames w) (selCtr w) (padded w))
  | None => None
  end.
