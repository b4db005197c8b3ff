(** * The printed text of a formula tree, its tokens and its parse tree *)
From Coq Require Import String Ascii List Bool Arith ZArith NArith Lia.
From Verif Require Import Spec Factory Assign Dimacs Print.
Import ListNotations.
Local Open Scope string_scope.

Definition trank (t : tree) : nat :=
  match t with TFalse => 0 | TTrue => 1 | TLit _ => 2 | TNot _ => 3 | TAnd _ => 4 | TOr _ => 5 | TImpl _ _ => 6 | TEquiv _ _ => 7 | TPBC true _ _ _ _ => 8 | TPBC false _ _ _ _ => 9 end.
Definition litT (l : lit) : string := if snd l then fst l else "~" ++ fst l.
Definition mulT (x : lit * Z) : string := if Z.eqb (snd x) 1 then litT (fst x) else decZ (snd x) ++ "*" ++ litT (fst x).
Definition sumT (ls : list lit) (cs : list Z) : string := String.concat " + " (map mulT (combine ls cs)).
Definition cmpT (c : cmp) : string := match c with EQ => " = " | LE => " <= " | LT => " < " | GE => " >= " | GT => " > " end.
(** an operand of an operator of rank [k] *)
Definition brT (k : nat) (u : tree) (t : string) : string := if (trank u <? k)%nat then t else "(" ++ t ++ ")".
Fixpoint text (t : tree) : string :=
  match t with
  | TTrue => "$true" | TFalse => "$false" | TLit l => litT l
  | TNot a => "~(" ++ text a ++ ")"
  | TAnd l => String.concat " & " (map (fun u => brT 4 u (text u)) l)
  | TOr l => String.concat " | " (map (fun u => brT 5 u (text u)) l)
  | TImpl a b => brT 6 a (text a) ++ " => " ++ brT 6 b (text b)
  | TEquiv a b => brT 7 a (text a) ++ " <=> " ++ brT 7 b (text b)
  | TPBC _ c k ls cs => sumT ls cs ++ cmpT c ++ decZ k
  end.

(** tokens *)
Definition nameK (n : string) : token := if allc isDigit n then TkNum n else TkLit n.
Definition litK (l : lit) : token := if snd l then nameK (fst l) else TkLit ("~" ++ fst l).
Definition mulK (x : lit * Z) : list token := if Z.eqb (snd x) 1 then [litK (fst x)] else [TkNum (decZ (snd x)); TkMul; litK (fst x)].
Fixpoint joinK (k : token) (l : list (list token)) : list token :=
  match l with [] => [] | [x] => x | x :: r => x ++ k :: joinK k r end%list.
Definition brK (k : nat) (u : tree) (t : list token) : list token := if (trank u <? k)%nat then t else (TkLbr :: t ++ [TkRbr])%list.
Fixpoint toks (t : tree) : list token :=
  match t with
  | TTrue => [TkTrue] | TFalse => [TkFalse] | TLit l => [litK l]
  | TNot a => TkNot :: TkLbr :: toks a ++ [TkRbr]
  | TAnd l => joinK TkAnd (map (fun u => brK 4 u (toks u)) l)
  | TOr l => joinK TkOr (map (fun u => brK 5 u (toks u)) l)
  | TImpl a b => brK 6 a (toks a) ++ TkImpl :: brK 6 b (toks b)
  | TEquiv a b => brK 7 a (toks a) ++ TkEquiv :: brK 7 b (toks b)
  | TPBC _ c k ls cs => joinK TkAdd (map mulK (combine ls cs)) ++ [TkCmp c; TkNum (decZ k)]
  end%list.

(** parse tree *)
Definition mulC (x : lit * Z) : mul := if Z.eqb (snd x) 1 then MLit (litT (fst x)) else MNumLit (decZ (snd x)) (litT (fst x)).
Fixpoint cstOf (t : tree) : cst :=
  match t with
  | TTrue => PTrue | TFalse => PFalse | TLit l => PName (litT l)
  | TNot a => PNot (cstOf a)
  | TAnd l => PConj (map cstOf l)
  | TOr l => PDisj (map cstOf l)
  | TImpl a b => PImpl (cstOf a) (cstOf b)
  | TEquiv a b => PEquiv (cstOf a) (cstOf b)
  | TPBC _ c k ls cs => PComp (map mulC (combine ls cs)) c (decZ k)
  end.

(** ** Formulas whose text the parser understands: in constraints, a variable name must not be a number *)
(** the grammar's variable names: [A-Za-z0-9_@#][A-Za-z0-9_#]* *)
Definition admissible (n : string) : bool := match n with String c r => isHead c && allc isTail r | EmptyString => false end.
Fixpoint printable (t : tree) : bool :=
  match t with
  | TTrue | TFalse => true
  | TLit l => admissible (fst l)
  | TNot a => printable a
  | TAnd l | TOr l => forallb printable l
  | TImpl a b | TEquiv a b => printable a && printable b
  | TPBC cc c k ls cs => forallb (fun l => admissible (fst l) && negb (snd l && allc isDigit (fst l))) ls
  end.
(** no cardinality constraint of the form [... < 0] *)
Fixpoint noneBelow0 (t : tree) : bool :=
  match t with
  | TTrue | TFalse | TLit _ => true
  | TNot a => noneBelow0 a
  | TAnd l | TOr l => forallb noneBelow0 l
  | TImpl a b | TEquiv a b => noneBelow0 a && noneBelow0 b
  | TPBC cc c k _ _ => negb (cc && match c with LT => Z.eqb k 0 | _ => false end)
  end.
(** what the factory guarantees about its formulas *)
Fixpoint formed (t : tree) : Prop :=
  match t with
  | TTrue | TFalse | TLit _ => True
  | TNot a => formed a
  | TAnd l | TOr l => (2 <= length l)%nat /\ Forall (fun x => x) (map formed l)
  | TImpl a b | TEquiv a b => formed a /\ formed b
  | TPBC _ _ _ ls cs => ls <> [] /\ length cs = length ls
  end.
