(** * Model of package normalform, of the functions on formulas and of substitution

    normalform/{nnf,cnf,dnf,aig,term,handler}.go, formula/{set,number_of_atoms,
    number_of_nodes,formula_depth,subnode}.go, transformation/substitution.go.
    Conventions as in Assign.v. *)
From Coq Require Import String Ascii List Bool ZArith NArith.
From Verif Require Import Spec Factory Assign EncSpec EncAmo EncApi EncPbc.
Import ListNotations.
Local Open Scope N_scope.

(** ** The encoders on a factory *)

(** The encoding configuration stored in the factory (encoding/config.go); [f_ord] is the
    order of the sort in Normalize. *)
Record encConfig := EncCfg {
  f_pbc : pbcConfig;
  f_cc : ccConfig;
  f_ord : list (Z * elit) -> list (Z * elit)
}.

(** The literals of a constraint as the encoders of EncPbc.v see them. *)
Definition elitOf (s : state) (l : formula) : elit :=
  match literals s l with Some (x, p) => (Usr x, p) | None => (Usr EmptyString, false) end.

Definition asortOf (k : asort) : auxsort := match k with ACC => AuxCC | APB => AuxPBC end.

(** The name of a variable of an encoding.  The literal 0 (see EncSpec.v) and the marks of
    panics and endless recursions have none. *)
Definition nameOf (v : var) : option string :=
  match v with
  | Usr x => Some x
  | Aux k i => Some (auxName (asortOf k) (N.of_nat i))
  | _ => None
  end.
Definition litM (l : elit) : M formula :=
  match nameOf (fst l) with Some x => up (Lit x (snd l)) | None => fail end.
(** encoding/result.go:59-61 [AddClause] of a formula result *)
Definition clauseM (c : clause) : M formula := ls <- mapM litM c ;; up (Clause ls).

Definition encCtr (s : state) : ctr := (N.to_nat (auxCtr s AuxCC), N.to_nat (auxCtr s AuxPBC)).
Definition setEncCtr (n : ctr) (s : state) : state :=
  set_auxCtr (fun k => match k with AuxCNF => auxCtr s AuxCNF | AuxCC => N.of_nat (fst n) | AuxPBC => N.of_nat (snd n) end) s.

(** encoding/pbc_encoding.go:17-57 [EncodePBC] with a formula result.  Simplified: the
    encoders of EncPbc.v compute the clauses first, then the clauses are created; so new
    literals get their ids in the order of the clauses, and literals that occur in no clause
    are not created. *)
Definition encodePBCM (cf : encConfig) (f : formula) : M (list formula) :=
  p <- get (opPbc f) ;;
  out <- get (fun s =>
    let ls := map (elitOf s) (p_lits p) in
    match srt f with
    | SCC => encodeCC (f_cc cf) (p_cmp p) (p_rhs p) ls (encCtr s)
    | _ => encodePBC (f_ord cf) (f_pbc cf) (f_cc cf) (p_cmp p) (p_rhs p) ls (p_coeffs p) (encCtr s)
    end) ;;
  r <- mapM clauseM (fst out) ;;
  _ <- put (setEncCtr (snd out)) ;;
  ret r.

(** encoding/normalize.go:62-84 [NegatePBC] *)
Definition negatePBCM (f : formula) : M formula :=
  p <- get (opPbc f) ;;
  let mk c := PBC c (p_rhs p) (p_lits p) (p_coeffs p) in
  match p_cmp p with
  | EQ => x <- up (mk LT) ;; y <- up (mk GT) ;; up (Or [x; y])
  | LE => up (mk GT)
  | LT => up (mk GE)
  | GE => up (mk LT)
  | GT => up (mk LE)
  end.

(** ** Negation normal form *)

Definition flipSort (k : fsort) : fsort := match k with SAnd => SOr | _ => SAnd end.

(** nnf.go:45-99 [nnfRec], 101-116 [nnfRecNary] *)
Fixpoint nnfRec (n : nat) (cf : encConfig) (f : formula) (pol : bool) : M formula :=
  match n with
  | O => fail
  | S n' =>
    let rec := nnfRec n' cf in
    let nary k pol' ops := nops <- mapM (fun op => rec op pol') ops ;;
                           naryOp (if pol' then k else flipSort k) nops in
    let compute : M formula :=
      match srt f with
      | STrue | SFalse | SLit => if pol then ret f else up (Not f)
      | SNot => op <- get (opNot f) ;; rec op (negb pol)
      | SOr | SAnd => ops <- get (opNary f) ;; nary (srt f) pol ops
      | SEquiv =>
        q <- get (opBin f) ;;
        if pol then
          l1 <- rec (fst q) false ;; r1 <- rec (snd q) true ;; o1 <- up (Or [l1; r1]) ;;
          l2 <- rec (fst q) true ;; r2 <- rec (snd q) false ;; o2 <- up (Or [l2; r2]) ;;
          up (And [o1; o2])
        else
          l1 <- rec (fst q) false ;; r1 <- rec (snd q) false ;; o1 <- up (Or [l1; r1]) ;;
          l2 <- rec (fst q) true ;; r2 <- rec (snd q) true ;; o2 <- up (Or [l2; r2]) ;;
          up (And [o1; o2])
      | SImpl =>
        q <- get (opBin f) ;;
        if pol then l <- rec (fst q) false ;; r <- rec (snd q) true ;; up (Or [l; r])
        else l <- rec (fst q) true ;; r <- rec (snd q) false ;; up (And [l; r])
      | SCC | SPBC =>
        if pol then cs <- encodePBCM cf f ;; nary SAnd true cs
        else g <- negatePBCM f ;; rec g true
      end in
    if pol then
      c <- get (lookupTrans TransNNF f) ;;
      match c with
      | Some g => ret g
      | None => g <- compute ;; _ <- put (setTrans TransNNF f g) ;; ret g
      end
    else compute
  end.

(** nnf.go:12 [NNF] *)
Definition NNF (n : nat) (cf : encConfig) (f : formula) : M formula := nnfRec n cf f true.

(** for loops with break: all operands satisfy a cached predicate *)
Fixpoint allM {A} (h : A -> M bool) (l : list A) : M bool :=
  match l with
  | [] => ret true
  | x :: r => b <- h x ;; if b then allM h r else ret false
  end.

(** nnf.go:19-43 [IsNNF] *)
Fixpoint isNNF (n : nat) (f : formula) : M bool :=
  match n with
  | O => fail
  | S n' =>
    c <- get (lookupPred PredNNF f) ;;
    match c with
    | Some b => ret b
    | None =>
      b <- match srt f with
           | SFalse | STrue | SLit => ret true
           | SAnd | SOr => ops <- get (opNary f) ;; allM (isNNF n') ops
           | _ => ret false
           end ;;
      _ <- put (setPred PredNNF f b) ;; ret b
    end
  end.

(** ** Conjunctive normal form *)

(** cnf.go:63-77 [IsCNF]; the missing cases are a panic. *)
Definition isCNF (f : formula) : M bool :=
  c <- get (lookupPred PredCNF f) ;;
  match c with
  | Some b => ret b
  | None => match srt f with
            | SFalse | STrue | SLit => ret true
            | SNot | SImpl | SEquiv | SCC | SPBC => ret false
            | SAnd | SOr => fail
            end
  end.

(** event/event.go: the events of a factorization *)
Inductive fevent := FactorizationStarted | DistributionPerformed | FactorizationCreatedClause.

(** handler/handler.go:10-13: a handler is a state with a method [ShouldResume]. *)
Record handler (H : Type) := Hdl { resume : fevent -> H -> bool * H }.
Arguments resume {H}.
Definition nopHandler : handler unit := Hdl unit (fun _ h => (true, h)).

(** normalform/handler.go:8-46 *)
Record fhandler := FH { h_canceled : bool; h_dist : Z; h_clause : Z; h_curD : Z; h_curC : Z }.
Definition factorizationHandler : handler fhandler := Hdl fhandler (fun e h =>
  let h' :=
    match e with
    | FactorizationStarted => FH (h_canceled h) (h_dist h) (h_clause h) 0 0
    | DistributionPerformed =>
      let d := (h_curD h + 1)%Z in
      FH (negb (h_dist h =? -1)%Z && (h_dist h <? d)%Z) (h_dist h) (h_clause h) d (h_curC h)
    | FactorizationCreatedClause =>
      let c := (h_curC h + 1)%Z in
      FH (negb (h_clause h =? -1)%Z && (h_clause h <? c)%Z) (h_dist h) (h_clause h) (h_curD h) c
    end in
  (negb (h_canceled h'), h')).

(** A factorization threads the handler's state and can be canceled ([None]); it stops at
    the first cancelation. *)
Definition HM (H : Type) : Type := H -> M (option formula * H).
Fixpoint mapH {H} (g : formula -> HM H) (l : list formula) (h : H) : M (option (list formula) * H) :=
  match l with
  | [] => ret (Some [], h)
  | x :: r =>
    y <- g x h ;;
    match fst y with
    | None => ret (None, snd y)
    | Some a =>
      ys <- mapH g r (snd y) ;;
      match fst ys with
      | None => ret (None, snd ys)
      | Some l' => ret (Some (a :: l'), snd ys)
      end
    end
  end.

(** cnf.go:213-246 [distributeCNF] ([k] is SAnd), dnf.go:115-148 [distributeDNF] ([k] is SOr);
    the results are joined with the operator [k], the parts with the other one. *)
Fixpoint distribute {H} (hd : handler H) (k : fsort) (n : nat) (f1 f2 : formula) (h : H) : M (option formula * H) :=
  match n with
  | O => fail
  | S n' =>
    let (b, h1) := resume hd DistributionPerformed h in
    if negb b then ret (None, h1) else
    if fsort_eqb (srt f1) k || fsort_eqb (srt f2) k then
      let '(form, f') := if fsort_eqb (srt f1) k then (f2, f1) else (f1, f2) in
      ops <- get (opNary f') ;;
      r <- mapH (fun op => distribute hd k n' op form) ops h1 ;;
      match fst r with
      | None => ret (None, snd r)
      | Some nops => g <- naryOp k nops ;; ret (Some g, snd r)
      end
    else
      g <- naryOp (flipSort k) [f1; f2] ;;
      let (b2, h2) := resume hd FactorizationCreatedClause h1 in
      ret (if b2 then Some g else None, h2)
  end.

(** cnf.go:188-195, dnf.go:92-99: distribution of a list *)
Fixpoint distributeAll {H} (hd : handler H) (k : fsort) (n : nat) (acc : formula) (l : list formula) (h : H)
  : M (option formula * H) :=
  match l with
  | [] => ret (Some acc, h)
  | x :: r =>
    y <- distribute hd k n acc x h ;;
    match fst y with
    | None => ret (None, snd y)
    | Some a => distributeAll hd k n a r (snd y)
    end
  end.

(** cnf.go:159-211 [factorizedCNFRec].  A canceled operand ends the loops; the loop of a
    disjunction notices a canceled last operand only at its next use, with the same effect. *)
Fixpoint cnfRec {H} (hd : handler H) (n : nat) (cf : encConfig) (f : formula) (h : H) : M (option formula * H) :=
  match n with
  | O => fail
  | S n' =>
    match srt f with
    | SFalse | STrue | SLit => ret (Some f, h)
    | _ =>
      c <- get (lookupTrans TransCNF f) ;;
      match c with
      | Some g => ret (Some g, h)
      | None =>
        r <- match srt f with
             | SNot | SImpl | SEquiv => g <- NNF n' cf f ;; cnfRec hd n' cf g h
             | SOr =>
               ops <- get (opNary f) ;;
               q <- mapH (cnfRec hd n' cf) ops h ;;
               match fst q with
               | None => ret (None, snd q)
               | Some [] => fail
               | Some (x :: r) => distributeAll hd SAnd n' x r (snd q)
               end
             | SAnd =>
               ops <- get (opNary f) ;;
               q <- mapH (cnfRec hd n' cf) ops h ;;
               match fst q with
               | None => ret (None, snd q)
               | Some nops => g <- up (And nops) ;; ret (Some g, snd q)
               end
             | _ => g <- NNF n' cf f ;; ret (Some g, h)
             end ;;
        match fst r with
        | Some g => _ <- put (setTrans TransCNF f g) ;; ret r
        | None => ret r
        end
      end
    end
  end.

(** cnf.go:144-147 [FactorizedCNF]: a canceled run returns the zero formula. *)
Definition factorizedCNF (n : nat) (cf : encConfig) (f : formula) : M formula :=
  r <- cnfRec nopHandler n cf f tt ;;
  ret (match fst r with Some g => g | None => fzero end).

(** cnf.go:152-157 [FactorizedCNFWithHandler] *)
Definition factorizedCNFWithHandler {H} (hd : handler H) (n : nat) (cf : encConfig) (f : formula) (h : H)
  : M (option formula * H) :=
  let (b, h1) := resume hd FactorizationStarted h in
  if b then cnfRec hd n cf f h1 else ret (None, h1).

(** ** Disjunctive normal form *)

(** term.go:21-44 [testTerm], [onlyLiterals] *)
Definition testTerm (minterm : bool) (f : formula) (s : state) : bool :=
  let onlyLiterals := forallb (fun op => fsort_eqb (srt op) SLit) (opNary f s) in
  match srt f with
  | STrue | SFalse | SLit => true
  | SOr => negb minterm && onlyLiterals
  | SAnd => minterm && onlyLiterals
  | _ => false
  end.

(** dnf.go:12-41 [IsDNF] *)
Definition isDNF (f : formula) : M bool :=
  c <- get (lookupPred PredDNF f) ;;
  match c with
  | Some b => ret b
  | None =>
    match srt f with
    | SFalse | STrue | SLit => ret true
    | SOr => b <- get (fun s => forallb (fun op => testTerm true op s) (opNary f s)) ;;
             _ <- put (setPred PredDNF f b) ;; ret b
    | SAnd => b <- get (testTerm true f) ;; _ <- put (setPred PredDNF f b) ;; ret b
    | _ => ret false
    end
  end.

(** dnf.go:62-113 [factorizedDNFRec] *)
Fixpoint dnfRec {H} (hd : handler H) (n : nat) (cf : encConfig) (f : formula) (h : H) : M (option formula * H) :=
  match n with
  | O => fail
  | S n' =>
    match srt f with
    | SFalse | STrue | SLit => ret (Some f, h)
    | _ =>
      c <- get (lookupTrans TransDNF f) ;;
      match c with
      | Some g => ret (Some g, h)
      | None =>
        r <- match srt f with
             | SAnd =>
               ops <- get (opNary f) ;;
               q <- mapH (dnfRec hd n' cf) ops h ;;
               match fst q with
               | None => ret (None, snd q)
               | Some [] => fail
               | Some (x :: r) => distributeAll hd SOr n' x r (snd q)
               end
             | SOr =>
               ops <- get (opNary f) ;;
               q <- mapH (dnfRec hd n' cf) ops h ;;
               match fst q with
               | None => ret (None, snd q)
               | Some nops => g <- up (Or nops) ;; ret (Some g, snd q)
               end
             | _ => g <- NNF n' cf f ;; dnfRec hd n' cf g h
             end ;;
        match fst r with
        | Some g => _ <- put (setTrans TransDNF f g) ;; ret r
        | None => ret r
        end
      end
    end
  end.

(** dnf.go:46-49, 54-60 *)
Definition factorizedDNF (n : nat) (cf : encConfig) (f : formula) : M formula :=
  r <- dnfRec nopHandler n cf f tt ;;
  ret (match fst r with Some g => g | None => fzero end).
Definition factorizedDNFWithHandler {H} (hd : handler H) (n : nat) (cf : encConfig) (f : formula) (h : H)
  : M (option formula * H) :=
  let (b, h1) := resume hd FactorizationStarted h in
  if b then dnfRec hd n cf f h1 else ret (None, h1).

(** ** Functions on formulas *)

(** formula/number_of_atoms.go:5-20 *)
Fixpoint numberOfAtoms (n : nat) (f : formula) : M Z :=
  match n with
  | O => fail
  | S n' =>
    c <- get (lookupFunc FuncAtoms f) ;;
    match c with
    | Some (VNum z) => ret z
    | Some (VSet _) => fail
    | None =>
      z <- match srt f with
           | SNot | SImpl | SEquiv | SOr | SAnd =>
             ops <- get (Operands f) ;; zs <- mapM (numberOfAtoms n') ops ;; ret (sumZ zs)
           | _ => ret 1%Z
           end ;;
      _ <- put (setFunc FuncAtoms f (VNum z)) ;; ret z
    end
  end.

(** formula/number_of_nodes.go:4-23 *)
Fixpoint numberOfNodes (n : nat) (f : formula) : M Z :=
  match n with
  | O => fail
  | S n' =>
    c <- get (lookupFunc FuncNodes f) ;;
    match c with
    | Some (VNum z) => ret z
    | Some (VSet _) => fail
    | None =>
      z <- match srt f with
           | SNot | SImpl | SEquiv | SOr | SAnd =>
             ops <- get (Operands f) ;; zs <- mapM (numberOfNodes n') ops ;; ret (1 + sumZ zs)%Z
           | SCC | SPBC => p <- get (opPbc f) ;; ret (1 + Z.of_nat (List.length (p_lits p)))%Z
           | _ => ret 1%Z
           end ;;
      _ <- put (setFunc FuncNodes f (VNum z)) ;; ret z
    end
  end.

(** formula/formula_depth.go:5-23 *)
Fixpoint depth (n : nat) (f : formula) : M Z :=
  match n with
  | O => fail
  | S n' =>
    c <- get (lookupFunc FuncDepth f) ;;
    match c with
    | Some (VNum z) => ret z
    | Some (VSet _) => fail
    | None =>
      z <- match srt f with
           | SNot | SImpl | SEquiv | SOr | SAnd =>
             ops <- get (Operands f) ;; zs <- mapM (depth n') ops ;; ret (fold_left Z.max zs 0 + 1)%Z
           | _ => ret 0%Z
           end ;;
      _ <- put (setFunc FuncDepth f (VNum z)) ;; ret z
    end
  end.

(** A set in order of insertion. *)
Definition memF (f : formula) (l : list formula) : bool := existsb (feqb f) l.
Definition addSet (l : list formula) (f : formula) : list formula := if memF f l then l else l ++ [f].
Definition addAll (l m : list formula) : list formula := fold_left addSet m l.

(** formula/subnode.go:8-25 [SubNodes] *)
Fixpoint subNodes (n : nat) (f : formula) : M (list formula) :=
  match n with
  | O => fail
  | S n' =>
    c <- get (lookupFunc FuncSubnodes f) ;;
    match c with
    | Some (VSet l) => ret l
    | Some (VNum _) => fail
    | None =>
      ops <- get (Operands f) ;;
      acc <- (fix go (l : list formula) (acc : list formula) : M (list formula) :=
                match l with
                | [] => ret acc
                | op :: r => if memF op acc then go r acc
                             else sub <- subNodes n' op ;; go r (addAll acc sub)
                end) ops [] ;;
      let res := addSet acc f in
      _ <- put (setFunc FuncSubnodes f (VSet res)) ;; ret res
    end
  end.

(** formula/set.go:204-240 [variables] ([lits] false), 255-288 [literals] ([lits] true); the
    sets are lists without repetition. *)
Fixpoint atomSet (lits : bool) (n : nat) (f : formula) : M (list formula) :=
  match n with
  | O => fail
  | S n' =>
    let k := if lits then FuncLiterals else FuncVariables in
    let conv l := if lits then l else litVariable l in
    c <- get (lookupFunc k f) ;;
    match c with
    | Some (VSet l) => ret l
    | Some (VNum _) => fail
    | None =>
      res <- match srt f with
             | SFalse | STrue => ret []
             | SLit => ret [conv f]
             | SNot => op <- get (opNot f) ;; l <- atomSet lits n' op ;; ret (addAll [] l)
             | SImpl | SEquiv =>
               q <- get (opBin f) ;; l <- atomSet lits n' (fst q) ;; r <- atomSet lits n' (snd q) ;;
               ret (addAll (addAll [] l) r)
             | SOr | SAnd =>
               ops <- get (opNary f) ;; ls <- mapM (atomSet lits n') ops ;; ret (fold_left addAll ls [])
             | SCC | SPBC => p <- get (opPbc f) ;; ret (addAll [] (map conv (p_lits p)))
             end ;;
      _ <- put (setFunc k f (VSet res)) ;; ret res
    end
  end.
Definition variables := atomSet false.
Definition literalsOf := atomSet true.

(** ** Plaisted & Greenbaum, Tseitin *)

(** cnf.go:458-461 [CNFAuxState]: FormulaMap and LiteralMap *)
Record auxState := AuxSt { x_formula : formula -> option formula; x_literal : formula -> option formula }.
Definition newAuxState : auxState := AuxSt (fun _ => None) (fun _ => None).
Definition setXF (f v : formula) (x : auxState) : auxState := AuxSt (upd feqb (x_formula x) f (Some v)) (x_literal x).
Definition setXL (f v : formula) (x : auxState) : auxState := AuxSt (x_formula x) (upd feqb (x_literal x) f (Some v)).
Definition getXF (f : formula) (x : auxState) : formula := match x_formula x f with Some g => g | None => fzero end.
Definition getXL (f : formula) (x : auxState) : formula := match x_literal x f with Some g => g | None => fzero end.

(** assignment.New with one literal; the error (there is none) leaves a nil assignment. *)
Definition newAsn1 (l : formula) : assignment :=
  match newAssignment [l] with Some a => a | None => emptyAssignment end.

(** cnf.go:337-348 [pgVariable] *)
Definition pgVariable (f : formula) (x : auxState) : M (formula * auxState) :=
  match srt f with
  | SLit => ret (f, x)
  | _ =>
    match x_literal x f with
    | Some v => ret (v, x)
    | None => v <- up (NewAuxVar AuxCNF) ;; ret (v, setXL f v x)
    end
  end.

Fixpoint mapX {A B} (g : A -> auxState -> M (B * auxState)) (l : list A) (x : auxState) : M (list B * auxState) :=
  match l with
  | [] => ret ([], x)
  | a :: r => y <- g a x ;; ys <- mapX g r (snd y) ;; ret (fst y :: fst ys, snd ys)
  end.

(** cnf.go:308-335 [computePosPolarity] *)
Definition computePosPolarity (f : formula) (x : auxState) : M (formula * auxState) :=
  match x_formula x f with
  | Some g => ret (g, x)
  | None =>
    v <- pgVariable f x ;;
    r <- match srt f with
         | SAnd =>
           ops <- get (opNary f) ;;
           nops <- mapX (fun op x => nv <- up (negateLit (fst v)) ;; w <- pgVariable op x ;;
                                     c <- up (Clause [nv; fst w]) ;; ret (c, snd w)) ops (snd v) ;;
           g <- up (And (fst nops)) ;; ret (g, snd nops)
         | SOr =>
           ops <- get (opNary f) ;;
           nv <- up (negateLit (fst v)) ;;
           nops <- mapX pgVariable ops (snd v) ;;
           g <- up (Clause (nv :: fst nops)) ;; ret (g, snd nops)
         | _ => fail
         end ;;
    ret (fst r, setXF f (fst r) (snd r))
  end.

(** cnf.go:291-306 [computeTransformation] *)
Fixpoint computeTransformation (n : nat) (f : formula) (x : auxState) : M (formula * auxState) :=
  match n with
  | O => fail
  | S n' =>
    match srt f with
    | SLit => ret (ftrue, x)
    | SOr | SAnd =>
      ops <- get (opNary f) ;;
      p <- computePosPolarity f x ;;
      nops <- mapX (computeTransformation n') ops (snd p) ;;
      g <- up (And (fst p :: fst nops)) ;; ret (g, snd nops)
    | _ => fail
    end
  end.

(** cnf.go:274-289 [PGCNF] *)
Definition pgCNF (n : nat) (cf : encConfig) (bnd : Z) (f : formula) (x : auxState) : M (formula * auxState) :=
  nnf <- NNF n cf f ;;
  b <- isCNF nnf ;;
  if b then ret (nnf, x) else
  k <- numberOfAtoms n nnf ;;
  r <- (if (k <? bnd)%Z then g <- factorizedCNF n cf nnf ;; ret (g, x)
        else p <- computeTransformation n nnf x ;;
             g <- restrict n (newAsn1 (getXL nnf (snd p))) (fst p) ;; ret (g, snd p)) ;;
  ret (fst r, setXL f (getXL nnf (snd r)) (snd r)).

(** cnf.go:438-450 [handleNary], with the recursive call abstracted; returns the new
    formulas, the operands and the negated operands. *)
Fixpoint handleNary (rec : formula -> auxState -> M auxState) (ops : list formula) (x : auxState)
  : M (list formula * list formula * list formula * auxState) :=
  match ops with
  | [] => ret ([], [], [], x)
  | op :: r =>
    x1 <- (match srt op with SLit => ret x | _ => rec op x end) ;;
    let pre := match srt op with SLit => [] | _ => [getXF op x1] end in
    let l := getXL op x1 in
    nl <- up (negateLit l) ;;
    q <- handleNary rec r x1 ;;
    let '(nops, os, ns, x2) := q in
    ret (pre ++ nops, l :: os, nl :: ns, x2)
  end.

(** cnf.go:401-436 [computeTseitin].  Simplified: the negation of the new variable is
    created before the loop in both cases. *)
Fixpoint computeTseitin (n : nat) (f : formula) (x : auxState) : M auxState :=
  match n with
  | O => fail
  | S n' =>
    match x_formula x f with
    | Some _ => ret x
    | None =>
      match srt f with
      | SLit => ret (setXL f f (setXF f f x))
      | SAnd | SOr =>
        v <- up (NewAuxVar AuxCNF) ;;
        ops <- get (Operands f) ;;
        nv <- up (negateLit v) ;;
        q <- handleNary (computeTseitin n') ops x ;;
        let '(nops, os, ns, x1) := q in
        defs <- (match srt f with
                 | SAnd => cs <- mapM (fun o => up (Or [nv; o])) os ;; c <- up (Or (v :: ns)) ;; ret (cs ++ [c])
                 | _ => cs <- mapM (fun o => up (Or [v; o])) ns ;; c <- up (Or (nv :: os)) ;; ret (cs ++ [c])
                 end) ;;
        g <- up (And (nops ++ defs)) ;;
        ret (setXF f g (setXL f v x1))
      | _ => fail
      end
    end
  end.

Fixpoint forX {A} (g : A -> auxState -> M auxState) (l : list A) (x : auxState) : M auxState :=
  match l with
  | [] => ret x
  | a :: r => x1 <- g a x ;; forX g r x1
  end.

(** cnf.go:378-399 [TseitinCNF] *)
Definition tseitinCNF (n : nat) (cf : encConfig) (bnd : Z) (f : formula) (x : auxState) : M (formula * auxState) :=
  nnf <- NNF n cf f ;;
  b <- isCNF nnf ;;
  if b then ret (nnf, x) else
  match x_formula x nnf with
  | Some t => g <- restrict n (newAsn1 (getXL nnf x)) t ;; ret (g, x)
  | None =>
    k <- numberOfAtoms n nnf ;;
    r <- (if (k <? bnd)%Z then g <- factorizedCNF n cf nnf ;; ret (g, x)
          else ops <- subNodes n nnf ;;
               x1 <- forX (computeTseitin n) ops x ;;
               g <- restrict n (newAsn1 (getXL nnf x1)) (getXF nnf x1) ;; ret (g, x1)) ;;
    ret (fst r, setXL f (getXL nnf (snd r)) (snd r))
  end.

(** cnf.go:16-22, 33-39 *)
Inductive cnfAlgorithm := CNFFactorization | CNFTseitin | CNFPlaistedGreenbaum | CNFAdvanced.
Record cnfConfig := CnfCfg {
  n_algorithm : cnfAlgorithm; n_fallback : cnfAlgorithm; n_dist : Z; n_clause : Z; n_atom : Z }.

(** cnf.go:127-139 [singleAdvancedEncoding] *)
Definition singleAdvanced (n : nat) (cf : encConfig) (nf : cnfConfig) (f : formula) (h : fhandler)
  : M (formula * fhandler) :=
  r <- factorizedCNFWithHandler factorizationHandler n cf f h ;;
  match fst r with
  | Some g => ret (g, snd r)
  | None =>
    q <- (match n_fallback nf with
          | CNFPlaistedGreenbaum => pgCNF n cf (n_atom nf) f newAuxState
          | _ => tseitinCNF n cf (n_atom nf) f newAuxState
          end) ;;
    ret (fst q, snd r)
  end.

Fixpoint mapF {A B S} (g : A -> S -> M (B * S)) (l : list A) (x : S) : M (list B * S) :=
  match l with
  | [] => ret ([], x)
  | a :: r => y <- g a x ;; ys <- mapF g r (snd y) ;; ret (fst y :: fst ys, snd ys)
  end.

(** cnf.go:111-125 [advancedEncoding] *)
Definition advancedEncoding (n : nat) (cf : encConfig) (nf : cnfConfig) (f : formula) : M formula :=
  let h := FH false (n_dist nf) (n_clause nf) 0 0 in
  match srt f with
  | SAnd =>
    ops <- get (opNary f) ;;
    r <- mapF (singleAdvanced n cf nf) ops h ;;
    up (And (fst r))
  | _ => r <- singleAdvanced n cf nf f h ;; ret (fst r)
  end.

(** cnf.go:84-98 [CNF] *)
Definition CNF (n : nat) (cf : encConfig) (nf : cnfConfig) (f : formula) : M formula :=
  match n_algorithm nf with
  | CNFFactorization => factorizedCNF n cf f
  | CNFPlaistedGreenbaum => r <- pgCNF n cf (n_atom nf) f newAuxState ;; ret (fst r)
  | CNFTseitin => r <- tseitinCNF n cf (n_atom nf) f newAuxState ;; ret (fst r)
  | CNFAdvanced => advancedEncoding n cf nf f
  end.

(** ** And-inverter graphs *)

(** aig.go:10-36 [IsAIG] *)
Fixpoint isAIG (n : nat) (f : formula) : M bool :=
  match n with
  | O => fail
  | S n' =>
    c <- get (lookupPred PredAIG f) ;;
    match c with
    | Some b => ret b
    | None =>
      b <- match srt f with
           | SFalse | STrue | SLit => ret true
           | SNot => op <- get (opNot f) ;; isAIG n' op
           | SAnd => ops <- get (Operands f) ;; allM (isAIG n') ops
           | _ => ret false
           end ;;
      _ <- put (setPred PredAIG f b) ;; ret b
    end
  end.

(** aig.go:41-83 [AIG] *)
Fixpoint AIG (n : nat) (cf : encConfig) (nf : cnfConfig) (f : formula) : M formula :=
  match n with
  | O => fail
  | S n' =>
    let rec := AIG n' cf nf in
    c <- get (lookupTrans TransAIG f) ;;
    match c with
    | Some g => ret g
    | None =>
      g <- match srt f with
           | SFalse | STrue | SLit => ret f
           | SNot => op <- get (opNot f) ;; x <- rec op ;; up (Not x)
           | SImpl =>
             q <- get (opBin f) ;; l <- rec (fst q) ;; r <- rec (snd q) ;; nr <- up (Not r) ;;
             c <- up (And [l; nr]) ;; up (Not c)
           | SEquiv =>
             q <- get (opBin f) ;; l <- rec (fst q) ;; r <- rec (snd q) ;; nr <- up (Not r) ;;
             c <- up (And [l; nr]) ;; c1 <- up (Not c) ;;
             nl <- up (Not (fst q)) ;; d <- up (And [nl; snd q]) ;; d1 <- up (Not d) ;;
             up (And [c1; d1])
           | SAnd => ops <- get (opNary f) ;; nops <- mapM rec ops ;; up (And nops)
           | SOr =>
             ops <- get (opNary f) ;; nops <- mapM (fun op => x <- rec op ;; up (Not x)) ops ;;
             c <- up (And nops) ;; up (Not c)
           | SCC | SPBC => x <- CNF n' cf nf f ;; rec x
           end ;;
      _ <- put (setTrans TransAIG f g) ;; ret g
    end
  end.

(** ** Substitution *)

(** substitution.go:10-31: a map from variables to formulas *)
Definition substitution := formula -> option formula.

(** substitution.go:91-130 [substitutePbc]: the loop; [None] is the error. *)
Fixpoint substLoop (sb : substitution) (q : list (formula * Z)) : M (option (list formula * list Z * Z)) :=
  match q with
  | [] => ret (Some ([], [], 0%Z))
  | (l, c) :: r =>
    match sb (litVariable l) with
    | None =>
      y <- substLoop sb r ;;
      ret (option_map (fun t => let '(ls, cs, fx) := t in (l :: ls, c :: cs, fx)) y)
    | Some g =>
      match srt g with
      | STrue =>
        y <- substLoop sb r ;;
        ret (option_map (fun t => let '(ls, cs, fx) := t in (ls, cs, if isPos l then (fx + c)%Z else fx)) y)
      | SFalse =>
        y <- substLoop sb r ;;
        ret (option_map (fun t => let '(ls, cs, fx) := t in (ls, cs, if isPos l then fx else (fx + c)%Z)) y)
      | SLit =>
        nl <- (if isPos l then ret g else up (negateLit g)) ;;
        y <- substLoop sb r ;;
        ret (option_map (fun t => let '(ls, cs, fx) := t in (nl :: ls, c :: cs, fx)) y)
      | _ => ret None
      end
    end
  end.
Definition substitutePbc (sb : substitution) (p : pbc) : M (option formula) :=
  y <- substLoop sb (combine (p_lits p) (p_coeffs p)) ;;
  match y with
  | None => ret None
  | Some ([], _, fx) => ret (Some (Constant (evaluateComparator fx (p_rhs p) (p_cmp p))))
  | Some (ls, cs, fx) => g <- up (PBC (p_cmp p) (p_rhs p - fx)%Z ls cs) ;; ret (Some g)
  end.

Fixpoint mapO {A B} (g : A -> M (option B)) (l : list A) : M (option (list B)) :=
  match l with
  | [] => ret (Some [])
  | x :: r =>
    y <- g x ;;
    match y with
    | None => ret None
    | Some a => ys <- mapO g r ;; ret (option_map (cons a) ys)
    end
  end.

(** substitution.go:39-89 [Substitute]; [Some None] is the error. *)
Fixpoint substitute (n : nat) (sb : substitution) (f : formula) : M (option formula) :=
  match n with
  | O => fail
  | S n' =>
    match srt f with
    | STrue | SFalse => ret (Some f)
    | SLit =>
      match sb (litVariable f) with
      | None => ret (Some f)
      | Some g => if isPos f then ret (Some g) else x <- up (Not g) ;; ret (Some x)
      end
    | SNot =>
      op <- get (opNot f) ;; x <- substitute n' sb op ;;
      match x with None => ret None | Some y => z <- up (Not y) ;; ret (Some z) end
    | SEquiv | SImpl =>
      q <- get (opBin f) ;; x <- substitute n' sb (fst q) ;;
      match x with
      | None => ret None
      | Some l =>
        y <- substitute n' sb (snd q) ;;
        match y with None => ret None | Some r => z <- binOp (srt f) l r ;; ret (Some z) end
      end
    | SOr | SAnd =>
      ops <- get (opNary f) ;; x <- mapO (substitute n' sb) ops ;;
      match x with None => ret None | Some l => z <- naryOp (srt f) l ;; ret (Some z) end
    | SCC | SPBC => p <- get (opPbc f) ;; substitutePbc sb p
    end
  end.
