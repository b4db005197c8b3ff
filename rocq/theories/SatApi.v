(** * Model of the SAT solver on formulas: sat/{solver,pg_on_solver,encoding_result,call}.go

    The core solver (Sat.v) knows variables by number; this layer keeps the names of the
    variables, translates formulas to clauses and at-most constraints, and runs calls.

    An operation works on a factory and a solver.  It returns ([SRet]), panics, or runs out of
    the recursion depth given to the core solver ([SStuck]).  [n] is the recursion depth of the
    factory operations, [k] that of the core solver.  Proof tracing is off. *)
From Coq Require Import String Ascii List Bool Arith ZArith NArith DecimalString.
From Verif Require Sat.
From Verif Require Import Spec Factory Assign EncSpec EncApi EncPbc NormalForm.
Import ListNotations.

(** sat/config.go: CNFMethod *)
Inductive cnfMethod := CNFFactory | CNFPG | CNFFullPG.
(** sat/config.go: the fields this layer reads, the clause minimization of the core solver, and
    the configurations of the encodings and of the CNF that the factory holds *)
Record satConfig := SatCfg {
  g_method : cnfMethod; g_atMost : bool; g_phase : bool; g_min : Sat.clauseMin;
  g_enc : encConfig; g_nf : cnfConfig
}.
(** solver.go:18-24 [Solver], pg_on_solver.go:13-25.  The maps name2idx and idx2name of the core solver are
    one list: the name at position i belongs to variable i.  One cache of variables of
    subformulas instead of two: a solver uses only the one of its CNF method. *)
Record solver := Slv { core : Sat.sat; vnames : list string; pgCache : formula -> option (nat * bool * bool) }.

Inductive sres (A : Type) := SRet (a : A) (s : state) (w : solver) | SPanic | SStuck.
Arguments SRet {A} _ _ _. Arguments SPanic {A}. Arguments SStuck {A}.
Definition SM A := state -> solver -> sres A.
Definition sret {A} (a : A) : SM A := fun s w => SRet a s w.
Definition spanic {A} : SM A := fun _ _ => SPanic.
Definition sbind {A B} (m : SM A) (h : A -> SM B) : SM B :=
  fun s w => match m s w with SRet a s' w' => h a s' w' | SPanic => SPanic | SStuck => SStuck end.
Notation "x <~ m ;; h" := (sbind m (fun x => h)) (at level 61, m at next level, right associativity).
Definition liftF {A} (m : M A) : SM A := fun s w => match m s with Some (a, s') => SRet a s' w | None => SPanic end.
Definition liftC {A} (m : Sat.S_ A) : SM A := fun s w =>
  match m (core w) with Sat.Ret a c => SRet a s (Slv c (vnames w) (pgCache w)) | Sat.Panic => SPanic | Sat.Stuck => SStuck end.
Definition getW {A} (h : solver -> A) : SM A := fun s w => SRet (h w) s w.
Definition putW (h : solver -> solver) : SM unit := fun s w => SRet tt s (h w).
Fixpoint mapS {A B} (h : A -> SM B) (l : list A) : SM (list B) :=
  match l with [] => sret [] | x :: r => y <~ h x ;; ys <~ mapS h r ;; sret (y :: ys) end.
Fixpoint eachS {A} (h : A -> SM unit) (l : list A) : SM unit :=
  match l with [] => sret tt | x :: r => _ <~ h x ;; eachS h r end.

(** core.go 1300-1306 IdxForName *)
Fixpoint indexOf (x : string) (l : list string) : option nat :=
  match l with [] => None | y :: r => if String.eqb y x then Some 0 else match indexOf x r with Some i => Some (S i) | None => None end end.
(** solver.go:35-44 newSolver *)
Definition newSolver : solver := Slv Sat.newSolver [] (fun _ => None).

(** slices.Sort on literals: by id *)
Fixpoint insF (l : formula) (ls : list formula) : list formula :=
  match ls with [] => [l] | x :: r => if N.leb (fid l) (fid x) then l :: ls else x :: insF l r end.
Definition sortF (ls : list formula) : list formula := fold_right insF [] ls.

Section Solver.
Variables (cfg : satConfig) (k : nat).

(** core.go 236-249: NewVar and addName *)
Definition newNamed (name : nat -> string) : SM nat :=
  v <~ liftC (Sat.newVar (negb (g_phase cfg)) true) ;;
  _ <~ putW (fun w => Slv (core w) (vnames w ++ [name v]) (pgCache w)) ;; sret v.
(** solver.go:165-173 getOrAddIndex, pg_on_solver.go:293-303 solverLiteral, encoding_result.go:32-48 addLiteral *)
Definition solverLiteral (name : string) (phase : bool) : SM (nat * bool) :=
  i <~ getW (fun w => indexOf name (vnames w)) ;;
  v <~ match i with Some v => sret v | None => newNamed (fun _ => name) end ;;
  sret (v, negb phase).
(** LitNamePhase; an unknown literal has the empty name *)
Definition namePhase (l : formula) : SM (string * bool) :=
  liftF (get (fun s => match literals s l with Some np => np | None => (EmptyString, false) end)).
Definition literalOf (l : formula) : SM (nat * bool) := np <~ namePhase l ;; solverLiteral (fst np) (snd np).
(** solver.go:148-163 generateClauseVector, pg_on_solver.go:282-291 generateClauseSlice *)
Definition generateClauseVector (ls : list formula) : SM (list (nat * bool)) := mapS literalOf (sortF ls).
Definition addClauseC (ps : list (nat * bool)) : SM unit := _ <~ liftC (Sat.addClause k ps) ;; sret tt.
Definition addAtMostC (ps : list (nat * bool)) (b : Z) : SM unit := liftC (Sat.addAtMost k ps b).

(** solver.go:143-146 addClause *)
Definition addClauseF (n : nat) (f : formula) : SM unit :=
  ls <~ liftF (literalsOf n f) ;; ps <~ generateClauseVector ls ;; addClauseC ps.
(** solver.go:124-141 addClauseSet, pg_on_solver.go:77-91 addCNF *)
Definition addClauseSet (n : nat) (f : formula) : SM unit :=
  match srt f with
  | STrue => sret tt
  | SFalse | SLit | SOr => addClauseF n f
  | SAnd => ops <~ liftF (get (opNary f)) ;; eachS (addClauseF n) ops
  | _ => spanic
  end.

(** encoding_result.go with encoding/{cc,pbc}_encoding.go EncodeCCInResult, EncodePBCInResult.
    Simplified as [encodePBCM]: the clauses are computed first, and an auxiliary
    variable gets its number on the solver where it first occurs in a clause, not where it is
    created.  The literal 0 (see EncSpec.v) panics. *)
Definition encodeOnSolver (f : formula) : SM unit :=
  p <~ liftF (get (opPbc f)) ;;
  out <~ liftF (get (fun s =>
    let ls := map (elitOf s) (p_lits p) in
    match srt f with
    | SCC => encodeCC (f_cc (g_enc cfg)) (p_cmp p) (p_rhs p) ls (encCtr s)
    | _ => encodePBC (f_ord (g_enc cfg)) (f_pbc (g_enc cfg)) (f_cc (g_enc cfg)) (p_cmp p) (p_rhs p) ls (p_coeffs p) (encCtr s)
    end)) ;;
  cls <~ liftF (mapM (mapM litM) (fst out)) ;;
  _ <~ liftF (put (setEncCtr (snd out))) ;;
  eachS (fun c => ps <~ mapS literalOf c ;; addClauseC ps) cls.

(** ** Plaisted-Greenbaum on the solver *)

(** encoding/contains_pbc.go:10-33 *)
Fixpoint containsPBC (n : nat) (f : formula) : M bool :=
  match n with
  | 0 => fail
  | S n' =>
    match srt f with
    | SFalse | STrue | SLit => ret false
    | SAnd | SOr => ops <- get (opNary f) ;;
        (fix go l := match l with [] => ret false | op :: r => b <- containsPBC n' op ;; if b then ret true else go r end) ops
    | SNot => op <- get (opNot f) ;; containsPBC n' op
    | SImpl | SEquiv => q <- get (opBin f) ;; b <- containsPBC n' (fst q) ;; if b then ret true else containsPBC n' (snd q)
    | SCC | SPBC => ret true
    end
  end.

(** pg_on_solver.go:305-310 newSolverVariable *)
Definition pgVarName (i : nat) : string := (auxPrefix AuxCNF ++ "SOLVER_" ++ NilEmpty.string_of_uint (N.to_uint (N.of_nat i)))%string.
(** pg_on_solver.go:31-41 setPolarityCached, 269-280 getPGVar: was the polarity cached, and the variable *)
Definition getPGVar (f : formula) (pol : bool) : SM (bool * nat) :=
  e <~ getW (fun w => pgCache w f) ;;
  e <~ match e with Some e => sret e | None => v <~ newNamed pgVarName ;; sret (v, false, false) end ;;
  let '(v, pos, neg) := e in
  _ <~ putW (fun w => Slv (core w) (vnames w) (fun g => if feqb g f then Some (v, if pol then true else pos, if pol then neg else true) else pgCache w g)) ;;
  sret (if pol then pos else neg, v).

Definition notL (l : nat * bool) : nat * bool := (fst l, negb (snd l)).
Definition lits (o : option (list (nat * bool))) : list (nat * bool) := match o with Some l => l | None => [] end.
(** AddClause if the slice is not nil *)
Definition addTop (o : option (list (nat * bool))) : SM unit := match o with Some l => addClauseC l | None => sret tt end.

(** pg_on_solver.go:93-267: computeTransformation, pgImpl, pgEquiv, pgNary.  [None] is the nil slice. *)
Fixpoint computeTransformation (n : nat) (f : formula) (pol top : bool) : SM (option (list (nat * bool))) :=
  match n with
  | 0 => spanic
  | S n' =>
    let rec := computeTransformation n' in
    let pgLit v := (v, negb pol) in
    match srt f with
    | SLit => l <~ literalOf f ;; sret (Some [if pol then l else notL l])
    | SNot => op <~ liftF (get (opNot f)) ;; rec op (negb pol) top
    | SOr | SAnd =>
      let one := match srt f with SAnd => negb pol | _ => pol end in
      c <~ (if top || one then sret (false, 0) else getPGVar f pol) ;;
      if fst c then sret (Some [pgLit (snd c)]) else
      ops <~ liftF (get (opNary f)) ;;
      if one then ls <~ mapS (fun op => rec op pol false) ops ;; sret (Some (flat_map lits ls))
      else _ <~ eachS (fun op => l <~ rec op pol top ;; if top then addTop l else addClauseC (notL (pgLit (snd c)) :: lits l)) ops ;;
           sret (if top then None else Some [pgLit (snd c)])
    | SImpl =>
      c <~ (if pol || top then sret (false, 0) else getPGVar f pol) ;;
      if fst c then sret (Some [(snd c, true)]) else
      q <~ liftF (get (opBin f)) ;;
      if pol then
        l <~ rec (fst q) false false ;; r <~ rec (snd q) true false ;; sret (Some (lits l ++ lits r))
      else
        l <~ rec (fst q) true top ;; r <~ rec (snd q) false top ;;
        if top then _ <~ addTop l ;; _ <~ addTop r ;; sret None
        else _ <~ addClauseC ((snd c, false) :: lits l) ;; _ <~ addClauseC ((snd c, false) :: lits r) ;; sret (Some [(snd c, true)])
    | SEquiv =>
      c <~ (if top then sret (false, 0) else getPGVar f pol) ;;
      if fst c then sret (Some [pgLit (snd c)]) else
      q <~ liftF (get (opBin f)) ;;
      lp <~ rec (fst q) true false ;; ln <~ rec (fst q) false false ;; rp <~ rec (snd q) true false ;; rn <~ rec (snd q) false false ;;
      let pre := if top then [] else [notL (pgLit (snd c))] in
      _ <~ (if pol then _ <~ addClauseC (pre ++ lits ln ++ lits rp) ;; addClauseC (pre ++ lits lp ++ lits rn)
            else _ <~ addClauseC (pre ++ lits lp ++ lits rp) ;; addClauseC (pre ++ lits ln ++ lits rn)) ;;
      sret (if top then None else Some [pgLit (snd c)])
    | _ => spanic
    end
  end.

(** pg_on_solver.go:47-71 addCNFToSolver *)
Definition addCNFToSolver (n : nat) (nnf : bool) (f : formula) : SM unit :=
  g <~ liftF (if nnf then NNF n (g_enc cfg) f else ret f) ;;
  c <~ liftF (containsPBC n g) ;;
  h <~ liftF (if negb nnf && c then NNF n (g_enc cfg) g else ret g) ;;
  b <~ liftF (isCNF h) ;;
  if b then addClauseSet n h else l <~ computeTransformation n h true true ;; addTop l.

(** ** solver.go *)

(** solver.go:111-122 addFormulaAsCNF *)
Definition addFormulaAsCNF (n : nat) (f : formula) : SM unit :=
  match g_method cfg with
  | CNFFactory => g <~ liftF (CNF n (g_enc cfg) (g_nf cfg) f) ;; addClauseSet n g
  | CNFPG => addCNFToSolver n true f
  | CNFFullPG => addCNFToSolver n false f
  end.
(** generateClauseVector on the literals of a constraint sorts the slice that the factory stores. *)
Definition constraintVector (f : formula) (p : pbc) : SM (list (nat * bool)) :=
  let ls := sortF (p_lits p) in
  _ <~ liftF (put (fun s => if opsEquals ls (p_lits p) then s else set_ccs (fun g => if feqb g f then Some (Pbc ls (p_coeffs p) (p_rhs p) (p_cmp p)) else ccs s g) s)) ;;
  generateClauseVector ls.
(** solver.go:82-109 addWithProp *)
Definition addWithProp (n : nat) (f : formula) : SM unit :=
  match srt f with
  | SCC =>
    if g_atMost cfg then
      p <~ liftF (get (opPbc f)) ;;
      match p_cmp p with
      | LE => ps <~ constraintVector f p ;; addAtMostC ps (p_rhs p)
      | LT => if Z.ltb 3 (p_rhs p) then ps <~ constraintVector f p ;; addAtMostC ps (p_rhs p - 1) else addFormulaAsCNF n f
      | EQ => if Z.eqb (p_rhs p) 1 then ps <~ constraintVector f p ;; _ <~ addAtMostC ps (p_rhs p) ;; ps <~ constraintVector f p ;; addClauseC ps
              else addFormulaAsCNF n f
      | _ => addFormulaAsCNF n f
      end
    else encodeOnSolver f
  | SPBC => encodeOnSolver f
  | _ => addFormulaAsCNF n f
  end.
(** solver.go:66-70 Add, 76-80 AddProposition *)
Definition add (n : nat) (fs : list formula) : SM unit := eachS (addWithProp n) fs.

(** solver.go:181-183 SaveState *)
Definition saveState : SM Sat.saved := liftC Sat.saveState.
(** solver.go:187-195 LoadState, core.go:568-576: the names of the removed variables are
    deleted; false is the error *)
Definition loadState (x : Sat.saved) : SM bool :=
  b <~ liftC (Sat.loadState k x) ;;
  if b then _ <~ putW (fun w => Slv (core w) (firstn (Sat.nvars (core w)) (vnames w)) (fun _ => None)) ;; sret true
  else sret false.

(** solver.go:216-226 computeModel with core.go:1336-1346 CreateModel; the model is the list of its literals *)
Definition computeModel (vars : list formula) : SM (list formula) :=
  r <~ mapS (fun v =>
    np <~ namePhase v ;;
    i <~ getW (fun w => indexOf (fst np) (vnames w)) ;;
    match i with
    | None => sret []
    | Some i => m <~ getW (fun w => nth_error (Sat.model (core w)) i) ;;
                match m with Some b => l <~ liftF (up (Lit (fst np) b)) ;; sret [l] | None => spanic end
    end) vars ;;
  sret (concat r).

(** call.go:181-279: Call, initCall, splitPropsIntoLitsAndFormulas, close, for a call with
    additional formulas [adds] and a model for [vars].  The result is the answer ([None]:
    cancelled) and the literals of the model. *)
Definition isLitF (f : formula) : bool := match srt f with SLit => true | _ => false end.
Definition call (n : nat) (o : Sat.oracle) (adds vars : list formula) : SM (option bool * list formula) :=
  let lits := filter isLitF adds in
  let props := filter (fun f => negb (isLitF f)) adds in
  ps <~ generateClauseVector lits ;;
  st <~ match props with [] => sret None | _ => x <~ saveState ;; _ <~ add n props ;; sret (Some x) end ;;
  r <~ liftC (Sat.solveWith o (g_min cfg) k ps) ;;
  m <~ match r with Some true => computeModel vars | _ => sret [] end ;;
  _ <~ match st with Some x => b <~ loadState x ;; if b then sret tt else spanic | None => sret tt end ;;
  sret (r, m).
End Solver.
