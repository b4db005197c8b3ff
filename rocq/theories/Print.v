(** * Model of printing and parsing formulas: formula/printer.go, parser/propositional_parser.go
    with the grammar parser/LogicNGPropositional.g4, io/formula_{reader,writer}.go

    Texts are strings of bytes.  Integers are unbounded. *)
From Coq Require Import String Ascii List Bool Arith ZArith NArith DecimalString.
From Verif Require Import Spec Factory Assign Dimacs.
Import ListNotations.
Local Open Scope string_scope.

(** ** Printer *)

(** printer.go:14-32 PrintSymbols *)
Record symbols := Symbols {
  y_true : string; y_false : string; y_not : string; y_impl : string; y_equiv : string; y_and : string; y_or : string;
  y_lbr : string; y_rbr : string; y_plus : string; y_minus : string; y_mul : string;
  y_eq : string; y_lt : string; y_le : string; y_gt : string; y_ge : string }.
(** printer.go:35-55 DefaultSymbols *)
Definition defaultSymbols : symbols :=
  Symbols "$true" "$false" "~" " => " " <=> " " & " " | " "(" ")" " + " "-" "*" " = " " < " " <= " " > " " >= ".
(** formula.go:168-179: the order of the sorts *)
Definition rank (t : fsort) : nat :=
  match t with SFalse => 0 | STrue => 1 | SLit => 2 | SNot => 3 | SAnd => 4 | SOr => 5 | SImpl => 6 | SEquiv => 7 | SCC => 8 | SPBC => 9 end.
(** %d *)
Definition decZ (z : Z) : string := match z with Zneg p => "-" ++ dec (Pos.to_nat p) | _ => dec (Z.to_nat z) end.

Section Printer.
Variable y : symbols.
(** printer.go:198-213 formatPBComparator *)
Definition cmpText (c : cmp) : string := match c with EQ => y_eq y | LE => y_le y | LT => y_lt y | GE => y_ge y | GT => y_gt y end.
(** printer.go:90-97: a literal; [None]: the factory does not know it *)
Definition litText (l : formula) (s : state) : option string :=
  match LiteralNamePhase l s with Some (n, p) => Some (if p then n else y_not y ++ n) | None => None end.
(** printer.go:181-193: one summand *)
Definition mulText (l : formula) (c : Z) (s : state) : option string :=
  match litText l s with Some t => Some (if Z.eqb c 1 then t else decZ c ++ y_mul y ++ t) | None => None end.
(** printer.go:175-194: the sum; indexing a missing coefficient panics *)
Fixpoint sumText (ls : list formula) (cs : list Z) (s : state) : option string :=
  match ls, cs with
  | [], _ => Some ""
  | [l], c :: _ => mulText l c s
  | l :: r, c :: cr => match mulText l c s, sumText r cr s with Some a, Some b => Some (a ++ y_plus y ++ b) | _, _ => None end
  | _, [] => None
  end.
(** printer.go:175-196 formatPBC *)
Definition pbcText (p : pbc) (s : state) : option string :=
  match sumText (p_lits p) (p_coeffs p) s with Some t => Some (t ++ cmpText (p_cmp p) ++ decZ (p_rhs p)) | None => None end.
Fixpoint mapO {A B} (h : A -> option B) (l : list A) : option (list B) :=
  match l with [] => Some [] | x :: r => match h x, mapO h r with Some a, Some b => Some (a :: b) | _, _ => None end end.
(** printer.go:81-128 toInnerString, 130-132 formatBracket, 134-147 formatBinaryOperator, 149-173 formatNaryOperator.
    The last operand of formatNaryOperator is left out if it is the formula 0, falsum.  [None]: panic, or the
    recursion is deeper than [n]. *)
Fixpoint toInner (n : nat) (f : formula) (s : state) : option string :=
  match n with
  | 0 => None
  | S n' =>
    let inner op := match toInner n' op s with Some t => Some (if (rank (srt op) <? rank (srt f))%nat then t else y_lbr y ++ t ++ y_rbr y) | None => None end in
    match srt f with
    | STrue => Some (y_true y)
    | SFalse => Some (y_false y)
    | SLit => litText f s
    | SNot => match NotOperand f s with Some op => match toInner n' op s with Some t => Some (y_not y ++ y_lbr y ++ t ++ y_rbr y) | None => None end | None => None end
    | SImpl | SEquiv =>
      match BinaryLeftRight f s with
      | Some (a, b) => match inner a, inner b with Some x, Some z => Some (x ++ (match srt f with SImpl => y_impl y | _ => y_equiv y end) ++ z) | _, _ => None end
      | None => None end
    | SAnd | SOr =>
      match NaryOperands f s with
      | Some ops =>
        (fix go l := match l with
                     | [] => Some ""
                     | [last] => if feqb last ffalse then Some "" else inner last
                     | op :: r => match inner op, go r with Some x, Some z => Some (x ++ (match srt f with SAnd => y_and y | _ => y_or y end) ++ z) | _, _ => None end
                     end) ops
      | None => None end
    | SCC | SPBC => match PBCOps f s with Some p => pbcText p s | None => None end
    end
  end.
End Printer.
(** printer.go:61-63 Sprint of a factory with the default symbols *)
Definition sprint (n : nat) (f : formula) (s : state) : option string := toInner defaultSymbols n f s.

(** ** Lexer: LogicNGPropositional.g4:48-66

    At every position the rule with the longest match gives the token, the first one of them if
    several match the same text (ANTLR 4).  White space is skipped. *)
Inductive token := TkNum (t : string) | TkLit (t : string) | TkTrue | TkFalse | TkLbr | TkRbr | TkNot | TkAnd | TkOr | TkImpl | TkEquiv | TkMul | TkAdd | TkCmp (c : cmp).
Definition inRange (a b : nat) (c : ascii) : bool := let n := nat_of_ascii c in ((a <=? n) && (n <=? b))%nat.
Definition isDigit (c : ascii) : bool := inRange 48 57 c.
(** [A-Za-z0-9_#] and [A-Za-z0-9_@#] *)
Definition isTail (c : ascii) : bool := inRange 65 90 c || inRange 97 122 c || isDigit c || Ascii.eqb c "_" || Ascii.eqb c "#".
Definition isHead (c : ascii) : bool := isTail c || Ascii.eqb c "@".
Definition isWs (c : ascii) : bool := Ascii.eqb c " " || inRange 9 10 c || inRange 13 13 c.
Fixpoint countWhile (p : ascii -> bool) (t : string) : nat := match t with String c r => if p c then S (countWhile p r) else 0 | EmptyString => 0 end.
(** the length of the longest match of a rule at the start of the text, 0 if there is none *)
Definition matchNum (t : string) : nat :=
  let digits r := countWhile isDigit r in
  match t with
  | String c r => if Ascii.eqb c "-" then match digits r with 0 => 0 | d => S d end else digits t
  | EmptyString => 0 end.
Definition matchName (t : string) : nat := match t with String c r => if isHead c then S (countWhile isTail r) else 0 | EmptyString => 0 end.
Definition matchLit (t : string) : nat :=
  match t with String c r => if Ascii.eqb c "~" then match matchName r with 0 => 0 | d => S d end else matchName t | EmptyString => 0 end.
Definition matchStr (w t : string) : nat := if String.prefix w t then String.length w else 0.
Definition rules : list ((string -> nat) * (string -> option token)) := [
  (matchNum, fun t => Some (TkNum t)); (matchLit, fun t => Some (TkLit t));
  (matchStr "$true", fun _ => Some TkTrue); (matchStr "$false", fun _ => Some TkFalse);
  (matchStr "(", fun _ => Some TkLbr); (matchStr ")", fun _ => Some TkRbr); (matchStr "~", fun _ => Some TkNot);
  (matchStr "&", fun _ => Some TkAnd); (matchStr "|", fun _ => Some TkOr); (matchStr "=>", fun _ => Some TkImpl); (matchStr "<=>", fun _ => Some TkEquiv);
  (matchStr "*", fun _ => Some TkMul); (matchStr "+", fun _ => Some TkAdd); (matchStr "=", fun _ => Some (TkCmp EQ)); (matchStr "<=", fun _ => Some (TkCmp LE));
  (matchStr "<", fun _ => Some (TkCmp LT)); (matchStr ">=", fun _ => Some (TkCmp GE)); (matchStr ">", fun _ => Some (TkCmp GT)); (countWhile isWs, fun _ => None)].
(** the longest match: its length and what the rule makes of the text *)
Definition munch (t : string) : nat * (string -> option token) :=
  fold_left (fun best r => if (fst best <? fst r t)%nat then (fst r t, snd r) else best) rules (0, fun _ => None).
Fixpoint take (n : nat) (t : string) : string := match n, t with S n', String c r => String c (take n' r) | _, _ => "" end.
Fixpoint drop (n : nat) (t : string) : string := match n, t with S n', String _ r => drop n' r | _, _ => t end.
(** [None]: a character that no rule matches *)
Fixpoint lexer (n : nat) (t : string) : option (list token) :=
  match t with
  | EmptyString => Some []
  | _ => match n with
         | 0 => None
         | S n' => let (len, mk) := munch t in
                   match len with 0 => None | _ => match lexer n' (drop len t) with Some ts => Some (match mk (take len t) with Some k => k :: ts | None => ts end) | None => None end end
         end
  end.
Definition lex (t : string) : option (list token) := lexer (String.length t) t.

(** ** Parser: LogicNGPropositional.g4:3-45

    Parse trees; nodes with one child that the listener does not act on are left out. *)
Inductive mul := MLit (t : string) | MNum (t : string) | MNumLit (n t : string) | MNumNum (n m : string).
Inductive cst := PTrue | PFalse | PName (t : string) | PComp (ms : list mul) (c : cmp) (n : string) | PNot (a : cst) | PConj (l : list cst) | PDisj (l : list cst) | PImpl (a b : cst) | PEquiv (a b : cst).

(** add: mul (ADD mul)*; NUMBER alone and NUMBER MUL are told apart by the next token *)
Definition pMul (ts : list token) : option (mul * list token) :=
  match ts with
  | TkLit t :: r => Some (MLit t, r)
  | TkNum n :: TkMul :: TkLit t :: r => Some (MNumLit n t, r)
  | TkNum n :: TkMul :: TkNum m :: r => Some (MNumNum n m, r)
  | TkNum _ :: TkMul :: _ => None
  | TkNum n :: r => Some (MNum n, r)
  | _ => None
  end.
Fixpoint pAdd (n : nat) (ts : list token) : option (list mul * list token) :=
  match n with
  | 0 => None
  | S n' => match pMul ts with
            | Some (m, TkAdd :: r) => match pAdd n' r with Some (ms, r') => Some (m :: ms, r') | None => None end
            | Some (m, r) => Some ([m], r)
            | None => None end
  end.
(** comparison: add (EQ | LE | LT | GE | GT) NUMBER *)
Definition pComparison (n : nat) (ts : list token) : option (cst * list token) :=
  match pAdd n ts with Some (ms, TkCmp c :: TkNum k :: r) => Some (PComp ms c k, r) | _ => None end.
(** the alternative that the parser predicts for a literal or number: a comparison if the next token continues one *)
Definition continues (ts : list token) : bool := match ts with TkAdd :: _ | TkCmp _ :: _ | TkMul :: _ => true | _ => false end.
(** simp, lit, conj, disj, impl, equiv.  On a syntax error [None]: the code reports the error, unless the listener,
    which walks through the repaired tree first, panics. *)
Section Rules.
Variable parseEquiv : list token -> option (cst * list token).
Variable fuel : nat.
Definition pSimp (ts : list token) : option (cst * list token) :=
  match ts with
  | TkTrue :: r => Some (PTrue, r)
  | TkFalse :: r => Some (PFalse, r)
  | TkLbr :: r => match parseEquiv r with Some (c, TkRbr :: r') => Some (c, r') | _ => None end
  | TkLit t :: r | TkNum t :: r => if continues r then pComparison fuel ts else Some (PName t, r)
  | _ => None
  end.
(** lit: simp | NOT lit *)
Fixpoint pLit (ts : list token) : option (cst * list token) :=
  match ts with TkNot :: r => match pLit r with Some (c, r') => Some (PNot c, r') | None => None end | _ => pSimp ts end.
(** x (SEP x)* *)
Fixpoint pSeq (n : nat) (px : list token -> option (cst * list token)) (sep : token -> bool) (ts : list token) : option (list cst * list token) :=
  match n with
  | 0 => None
  | S n' => match px ts with
            | Some (c, k :: r) => if sep k then match pSeq n' px sep r with Some (cs, r') => Some (c :: cs, r') | None => None end else Some ([c], k :: r)
            | Some (c, []) => Some ([c], [])
            | None => None end
  end.
Definition isAnd (k : token) : bool := match k with TkAnd => true | _ => false end.
Definition isOr (k : token) : bool := match k with TkOr => true | _ => false end.
Definition pNary (mk : list cst -> cst) (r : option (list cst * list token)) : option (cst * list token) :=
  match r with Some ([c], r) => Some (c, r) | Some (cs, r) => Some (mk cs, r) | None => None end.
Definition pConj (ts : list token) : option (cst * list token) := pNary PConj (pSeq fuel pLit isAnd ts).
Definition pDisj (ts : list token) : option (cst * list token) := pNary PDisj (pSeq fuel pConj isOr ts).
(** impl: disj (IMPL impl)?; equiv: impl (EQUIV equiv)? *)
Fixpoint pImpl (n : nat) (ts : list token) : option (cst * list token) :=
  match n with
  | 0 => None
  | S n' => match pDisj ts with
            | Some (a, TkImpl :: r) => match pImpl n' r with Some (b, r') => Some (PImpl a b, r') | None => None end
            | o => o end
  end.
Definition pEquivF (ts : list token) : option (cst * list token) :=
  match pImpl fuel ts with
  | Some (a, TkEquiv :: r) => match parseEquiv r with Some (b, r') => Some (PEquiv a b, r') | None => None end
  | o => o end.
End Rules.
Fixpoint pEquiv (n : nat) (ts : list token) : option (cst * list token) := match n with 0 => None | S n' => pEquivF (pEquiv n') n' ts end.

(** ** Listener: propositional_parser.go:79-258

    The stack holds formulas and dividers ([None]), its top is the head of the list. *)
Definition pop (stk : list (option formula)) : option (option formula * list (option formula)) := match stk with x :: r => Some (x, r) | [] => None end.
(** stackFormula.formula of a divider is 0 *)
Definition sform (x : option formula) : formula := match x with Some f => f | None => ffalse end.
(** propositional_parser.go:131-140 parseLiteral *)
Definition parseLiteral (t : string) : string * bool := match t with String c r => if Ascii.eqb c "~" then (r, false) else (t, true) | EmptyString => (t, true) end.
(** strconv.Atoi of a NUMBER; simplified: no overflow *)
Definition atoi (t : string) : Z :=
  let num u := match NilEmpty.uint_of_string u with Some d => Z.of_N (N.of_uint d) | None => 0%Z end in
  match t with String c r => if Ascii.eqb c "-" then Z.opp (num r) else num t | EmptyString => 0%Z end.
(** ExitMul (212-231); a lone NUMBER calls a method of a nil LITERAL *)
Definition mulParts (m : mul) : option (string * Z) :=
  match m with MLit t => Some (t, 1%Z) | MNum _ => None | MNumLit n t => Some (t, atoi n) | MNumNum n k => Some (n, atoi k) end.
Definition exitMul (m : mul) : M (formula * Z) :=
  match mulParts m with Some (t, c) => l <- up (Lit (fst (parseLiteral t)) (snd (parseLiteral t))) ;; ret (l, c) | None => fail end.
(** ExitConj, ExitDisj (155-168, 176-189): pop up to the divider *)
Fixpoint popOps (stk : list (option formula)) (acc : list formula) : option (list formula * list (option formula)) :=
  match stk with [] => None | None :: r => Some (acc, r) | Some f :: r => popOps r (f :: acc) end.
Definition stack := list (option formula).
Definition nary (mk : list formula -> state -> formula * state) (stk : stack) : M stack :=
  match popOps stk [] with Some (ops, r) => g <- up (mk ops) ;; ret (Some g :: r) | None => fail end.
Definition binary (mk : formula -> formula -> state -> formula * state) (stk : stack) : M stack :=
  match stk with b :: a :: r => g <- up (mk (sform a) (sform b)) ;; ret (Some g :: r) | _ => fail end.
(** ExitSimp 120-129, ExitLit 142-147, EnterConj ... ExitDisj 149-189, ExitImpl 191-197, ExitEquiv 199-205, EnterAdd ... ExitComparison 207-241 *)
Fixpoint walk (c : cst) (stk : stack) : M stack :=
  match c with
  | PTrue => ret (Some ftrue :: stk)
  | PFalse => ret (Some ffalse :: stk)
  | PName t => g <- up (Lit (fst (parseLiteral t)) (snd (parseLiteral t))) ;; ret (Some g :: stk)
  | PComp ms c n => lcs <- mapM exitMul ms ;; g <- up (PBC c (atoi n) (map fst lcs) (map snd lcs)) ;; ret (Some g :: stk)
  | PNot a => st <- walk a stk ;; match st with x :: r => g <- up (Not (sform x)) ;; ret (Some g :: r) | [] => fail end
  | PConj l => st <- (fix go l st := match l with [] => ret st | c :: r => st' <- walk c st ;; go r st' end) l (None :: stk) ;; nary And st
  | PDisj l => st <- (fix go l st := match l with [] => ret st | c :: r => st' <- walk c st ;; go r st' end) l (None :: stk) ;; nary Or st
  | PImpl a b => st <- walk a stk ;; st <- walk b st ;; binary Implication st
  | PEquiv a b => st <- walk a stk ;; st <- walk b st ;; binary Equivalence st
  end.
Fixpoint allc (p : ascii -> bool) (t : string) : bool := match t with String c r => p c && allc p r | EmptyString => true end.
(** propositional_parser.go:38-62 Parse, parse, 99-101 formula; the inner [None] is an error.  Tokens after the formula are not looked at:
    the rule [formula] does not end with EOF. *)
Definition parse (n : nat) (data : string) : M (option formula) :=
  if allc isSpace data then ret (Some ftrue) else
  match lex data with
  | None => ret None
  | Some [] => fail
  | Some ts => match pEquiv n ts with None => ret None | Some (c, _) => st <- walk c [] ;; match rev st with x :: _ => ret (Some (sform x)) | [] => fail end end
  end.

(** ** Files *)
(** formula_writer.go:36-56 WriteFormulaToWriter *)
Definition writeFormula (n : nat) (split : bool) (f : formula) (s : state) : option string :=
  let one g := match sprint n g s with Some t => Some (t ++ nl) | None => None end in
  match split, srt f with
  | true, SAnd => match mapO one (Operands f s) with Some ts => Some (String.concat "" ts) | None => None end
  | _, _ => one f
  end.
(** formula_reader.go:49-65 ReadFormulasFile, 38-44 ReadFormulaFile; an error of the parser panics, a line that does not fit into the
    buffer of the scanner is an error *)
Definition readFits (line : string) : bool := N.ltb (N.of_nat (String.length line)) 1048576.
Definition readFormulas (n : nat) (text : string) : M (option (list formula)) :=
  (fix go (ls : list string) : M (option (list formula)) :=
     match ls with
     | [] => ret (Some [])
     | l :: r => if readFits l then g <- parse n l ;; match g with None => fail | Some g => gs <- go r ;; ret (match gs with Some gs => Some (g :: gs) | None => None end) end else ret None
     end) (scanLines "" text).
Definition readFormula (n : nat) (text : string) : M (option formula) :=
  gs <- readFormulas n text ;; match gs with Some gs => g <- up (And gs) ;; ret (Some g) | None => ret None end.
