(** * Model of package assignment: assignments, Evaluate, Restrict, EvaluatesToTrue/False

    Operations that create formulas are state transformers that may fail:
    [None] is a Go panic or a recursion that is deeper than the given fuel.
    Recursive functions on formulas take fuel as first argument. *)
From Coq Require Import String Ascii List Bool ZArith NArith.
From Verif Require Import Spec Factory.
Import ListNotations.
Local Open Scope N_scope.

Definition M (A : Type) : Type := state -> option (A * state).
Definition ret {A} (a : A) : M A := fun s => Some (a, s).
Definition fail {A} : M A := fun _ => None.
Definition bind {A B} (m : M A) (k : A -> M B) : M B :=
  fun s => match m s with Some (a, s') => k a s' | None => None end.
Definition up {A} (g : state -> A * state) : M A := fun s => Some (g s).
Definition get {A} (g : state -> A) : M A := fun s => Some (g s, s).
Definition put (g : state -> state) : M unit := fun s => Some (tt, g s).
Notation "x <- m ;; k" := (bind m (fun x => k)) (at level 61, m at next level, right associativity).

Fixpoint mapM {A B} (h : A -> M B) (l : list A) : M (list B) :=
  match l with
  | [] => ret []
  | x :: r => y <- h x ;; ys <- mapM h r ;; ret (y :: ys)
  end.

(** The operands of a formula as the Go code reads them, dropping the ok flag. *)
Definition opNot (f : formula) (s : state) : formula := match NotOperand f s with Some g => g | None => fzero end.
Definition opBin (f : formula) (s : state) : formula * formula :=
  match BinaryLeftRight f s with Some p => p | None => (fzero, fzero) end.
Definition opNary (f : formula) (s : state) : list formula :=
  match NaryOperands f s with Some l => l | None => [] end.
Definition opPbc (f : formula) (s : state) : pbc := match PBCOps f s with Some p => p | None => pzero end.

(** [BinaryOperator] / [NaryOperator] with the error dropped: the result is then
    the zero formula. *)
Definition binOp (k : fsort) (l r : formula) : M formula :=
  fun s => match BinaryOperator k l r s with Some x => Some x | None => Some (fzero, s) end.
Definition naryOp (k : fsort) (ops : list formula) : M formula :=
  fun s => match NaryOperator k ops s with Some x => Some x | None => Some (fzero, s) end.

(** assignment/assignment.go:12-15; the maps are lists of their keys. *)
Record assignment := Asn { a_pos : list N; a_neg : list N }.
Definition memN (i : N) (l : list N) : bool := existsb (N.eqb i) l.
Definition emptyAssignment : assignment := Asn [] [].

(** assignment.go:40-53 [AddLit]; [None] is the error. *)
Definition addLit (a : assignment) (l : formula) : option assignment :=
  if isPos l then
    if memN (negId (fid l)) (a_neg a) then None else Some (Asn (fid l :: a_pos a) (a_neg a))
  else
    if memN (negId (fid l)) (a_pos a) then None else Some (Asn (a_pos a) (fid l :: a_neg a)).

(** assignment.go:26-35 [New]. *)
Fixpoint addLits (a : assignment) (ls : list formula) : option assignment :=
  match ls with
  | [] => Some a
  | l :: r => match addLit a l with Some a' => addLits a' r | None => None end
  end.
Definition newAssignment (ls : list formula) : option assignment := addLits emptyAssignment ls.

(** assignment.go:56-73 [PosVars], [NegVars], up to order and repetition;
    76-78 [Size] counts both. *)
Definition posVars (a : assignment) : list formula := map (F SLit) (a_pos a).
Definition negVars (a : assignment) : list formula := map (F SLit) (a_neg a).

(** assignment.go:111-123 *)
Definition evaluateVariable (a : assignment) (v : formula) : bool := memN (fid v) (a_pos a).
Definition evaluateNegativeLiteral (a : assignment) (l : formula) : bool :=
  if memN (fid l) (a_neg a) then true else negb (memN (negId (fid l)) (a_pos a)).

(** assignment.go:125-147 *)
Definition restrictVariable (a : assignment) (v : formula) : formula :=
  if memN (fid v) (a_pos a) then ftrue
  else if memN (negId (fid v)) (a_neg a) then ffalse else v.
Definition restrictNegativeLiteral (a : assignment) (l : formula) : formula :=
  if memN (negId (fid l)) (a_pos a) then ffalse
  else if memN (fid l) (a_neg a) then ftrue else l.

(** evaluate.go:66-81 [evaluateComparator] *)
Definition evaluateComparator (lhs rhs : Z) (c : cmp) : bool :=
  match c with
  | EQ => Z.eqb lhs rhs | LE => Z.leb lhs rhs | LT => Z.ltb lhs rhs
  | GE => Z.geb lhs rhs | GT => Z.gtb lhs rhs
  end.

(** evaluate.go:18-21: a literal *)
Definition evaluateLiteral (a : assignment) (l : formula) : bool :=
  if isPos l then evaluateVariable a l else evaluateNegativeLiteral a l.

(** evaluate.go:56-64 [evaluateLhs].  The operands of a constraint are literals, so the
    recursive call of Evaluate is [evaluateLiteral].  Constraints have as many coefficients
    as literals. *)
Definition evaluateLhs (a : assignment) (ls : list formula) (cs : list Z) : Z :=
  fold_left (fun acc q => if evaluateLiteral a (fst q) then (acc + snd q)%Z else acc) (combine ls cs) 0%Z.

(** evaluate.go:11-54 [Evaluate]; the sorts outside the enumeration (a panic) do not exist. *)
Fixpoint evaluate (n : nat) (s : state) (a : assignment) (f : formula) : option bool :=
  match n with
  | O => None
  | S n' =>
    let ev := evaluate n' s a in
    match srt f with
    | STrue => Some true
    | SFalse => Some false
    | SLit => Some (evaluateLiteral a f)
    | SNot => option_map negb (ev (opNot f s))
    | SImpl => let (l, r) := opBin f s in
               match ev l with Some false => Some true | Some true => ev r | None => None end
    | SEquiv => let (l, r) := opBin f s in
                match ev l, ev r with Some x, Some y => Some (Bool.eqb x y) | _, _ => None end
    | SAnd => (fix go l := match l with
                           | [] => Some true
                           | op :: r => match ev op with Some true => go r | x => x end
                           end) (opNary f s)
    | SOr => (fix go l := match l with
                          | [] => Some false
                          | op :: r => match ev op with Some false => go r | x => x end
                          end) (opNary f s)
    | SCC | SPBC => let p := opPbc f s in
                    Some (evaluateComparator (evaluateLhs a (p_lits p) (p_coeffs p)) (p_rhs p) (p_cmp p))
    end
  end.

(** evaluate.go:83-131 [evaluateCoeffs]; [None] is TristateUndef. *)
Definition evaluateCoeffs (minValue maxValue rhs : Z) (c : cmp) : option bool :=
  let status := ((if minValue <=? rhs then 1 else 0) + (if minValue <? rhs then 1 else 0)
                 + (if maxValue <=? rhs then 1 else 0) + (if maxValue <? rhs then 1 else 0))%Z in
  (match c with
   | EQ => if (status =? 0) || (status =? 4) then Some false else None
   | LE => if 3 <=? status then Some true else if status <? 1 then Some false else None
   | LT => if 3 <? status then Some true else if status <=? 1 then Some false else None
   | GE => if status <=? 1 then Some true else if 3 <? status then Some false else None
   | GT => if status <? 1 then Some true else if 3 <=? status then Some false else None
   end)%Z.

(** restrict.go:54-73: the loop; returns the new literals and coefficients, the fixed part
    of the left-hand side, the minimal and the maximal value of the rest. *)
Definition restrictLit (a : assignment) (l : formula) : formula :=
  if isPos l then restrictVariable a l else restrictNegativeLiteral a l.
Fixpoint restrictLoop (a : assignment) (q : list (formula * Z)) : list formula * list Z * Z * Z * Z :=
  match q with
  | [] => ([], [], 0, 0, 0)%Z
  | (l, c) :: r =>
    let '(ls, cs, fixed, mn, mx) := restrictLoop a r in
    match srt (restrictLit a l) with
    | SLit => (l :: ls, c :: cs, fixed, (if 0 <? c then mn else mn + c), (if 0 <? c then mx + c else mx))%Z
    | STrue => (ls, cs, fixed + c, mn, mx)%Z
    | _ => (ls, cs, fixed, mn, mx)
    end
  end.

(** restrict.go:44-92 [restrict] *)
Definition restrictPbc (p : pbc) (a : assignment) : M formula :=
  let '(ls, cs, fixed, mn, mx) := restrictLoop a (combine (p_lits p) (p_coeffs p)) in
  match ls with
  | [] => ret (Constant (evaluateComparator fixed (p_rhs p) (p_cmp p)))
  | _ =>
    let rhs := (p_rhs p - fixed)%Z in
    match (if cmp_eqb (p_cmp p) EQ then None else evaluateCoeffs mn mx rhs (p_cmp p)) with
    | Some b => ret (Constant b)
    | None => up (PBC (p_cmp p) rhs ls cs)
    end
  end.

(** restrict.go:12-42 [Restrict] *)
Fixpoint restrict (n : nat) (a : assignment) (f : formula) : M formula :=
  match n with
  | O => fail
  | S n' =>
    match srt f with
    | STrue | SFalse => ret f
    | SLit => ret (restrictLit a f)
    | SNot => g <- get (opNot f) ;; r <- restrict n' a g ;; up (Not r)
    | SImpl | SEquiv =>
      q <- get (opBin f) ;; l <- restrict n' a (fst q) ;; r <- restrict n' a (snd q) ;; binOp (srt f) l r
    | SAnd | SOr => ops <- get (opNary f) ;; nops <- mapM (restrict n' a) ops ;; naryOp (srt f) nops
    | SCC | SPBC => p <- get (opPbc f) ;; restrictPbc p a
    end
  end.

(** evaluate_to_constant.go:185-189: a map from variables to truth values, as the list of
    its entries in the order of iteration. *)
Definition mapping := list (formula * bool).
Definition lookupMap (m : mapping) (v : formula) : option bool :=
  option_map snd (find (fun e => feqb (fst e) v) m).

Definition isConstant (f : formula) : bool := match srt f with STrue | SFalse => true | _ => false end.
Definition isFalsum (f : formula) : bool := match srt f with SFalse => true | _ => false end.
Definition isVerum (f : formula) : bool := match srt f with STrue => true | _ => false end.

(** evaluate_to_constant.go:168-175: the assignment for a constraint; an error of AddLit
    leaves the assignment as it is. *)
Fixpoint mappingAssignment (m : mapping) (a : assignment) : M assignment :=
  match m with
  | [] => ret a
  | (v, phase) :: r =>
    name <- get (fun s => match VarName v s with Some x => x | None => EmptyString end) ;;
    l <- up (Lit name phase) ;;
    mappingAssignment r (match addLit a l with Some a' => a' | None => a end)
  end.

(** evaluate_to_constant.go:42-175 [test] and its cases; [e] is evaluatesToTrue. *)
Fixpoint testConst (n : nat) (e : bool) (m : mapping) (f : formula) (topLevel : bool) : M formula :=
  match n with
  | O => fail
  | S n' =>
    let test := testConst n' e m in
    match srt f with
    | SFalse | STrue => ret f
    | SLit =>
      match lookupMap m (litVariable f) with
      | None => ret f
      | Some found => ret (Constant (Bool.eqb (isPos f) found))
      end
    | SNot =>
      op <- get (opNot f) ;; r <- test op false ;;
      if topLevel && negb (isConstant r) then ret (Constant (negb e))
      else if isConstant r then ret (Constant (isFalsum r)) else up (Not r)
    | SImpl =>
      q <- get (opBin f) ;; l <- test (fst q) false ;;
      if isConstant l then
        if e then (if isFalsum l then ret ftrue else test (snd q) topLevel)
        else (if isVerum l then test (snd q) topLevel else ret ftrue)
      else if negb e && topLevel then ret ftrue
      else
        r <- test (snd q) false ;;
        if isConstant r then (if isVerum r then ret ftrue else up (Not l)) else up (Implication l r)
    | SEquiv =>
      q <- get (opBin f) ;; l <- test (fst q) false ;;
      if isConstant l then
        if isVerum l then test (snd q) topLevel
        else nr <- up (Not (snd q)) ;; test nr topLevel
      else
        r <- test (snd q) false ;;
        if isConstant r then
          if topLevel then ret (Constant (negb e))
          else if isVerum r then ret l else up (Not l)
        else up (Equivalence l r)
    | SOr =>
      ops <- get (opNary f) ;;
      (fix go (l nops : list formula) : M formula :=
         match l with
         | [] => up (Or nops)
         | op :: rest =>
           r <- test op (negb e && topLevel) ;;
           if isVerum r then ret ftrue
           else if negb (isConstant r) then
             if negb e && topLevel then ret ftrue else go rest (nops ++ [r])
           else go rest nops
         end) ops []
    | SAnd =>
      ops <- get (opNary f) ;;
      (fix go (l nops : list formula) : M formula :=
         match l with
         | [] => up (And nops)
         | op :: rest =>
           r <- test op (e && topLevel) ;;
           if isFalsum r then ret ffalse
           else if negb (isConstant r) then
             if e && topLevel then ret ffalse else go rest (nops ++ [r])
           else go rest nops
         end) ops []
    | SCC | SPBC =>
      a <- mappingAssignment m emptyAssignment ;; restrict n' a f
    end
  end.

(** evaluate_to_constant.go:20-23, 37-40 *)
Definition evaluatesToTrue (n : nat) (m : mapping) (f : formula) : M bool :=
  r <- testConst n true m f true ;; ret (isVerum r).
Definition evaluatesToFalse (n : nat) (m : mapping) (f : formula) : M bool :=
  r <- testConst n false m f true ;; ret (isFalsum r).
