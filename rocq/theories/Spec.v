(** * Independent specification: formula trees and their truth value.

    Nothing in this file refers to the model of the Go code. *)
From Coq Require Import String List Bool ZArith.
Import ListNotations.

(** Comparators of arithmetic constraints. *)
Inductive cmp := EQ | LE | LT | GE | GT.

Definition cmp_holds (c : cmp) (lhs rhs : Z) : bool :=
  match c with
  | EQ => Z.eqb lhs rhs
  | LE => Z.leb lhs rhs
  | LT => Z.ltb lhs rhs
  | GE => Z.leb rhs lhs
  | GT => Z.ltb rhs lhs
  end.

(** A literal: a variable name and a phase. *)
Definition lit := (string * bool)%type.

(** Abstract syntax of formulas.  An arithmetic constraint is a list of
    (literal, coefficient) pairs with a comparator and a right-hand side;
    a cardinality constraint is one over variables with coefficients 1, the
    flag [true] marks it. *)
Inductive tree :=
| TFalse
| TTrue
| TLit (l : lit)
| TNot (t : tree)
| TAnd (ts : list tree)
| TOr (ts : list tree)
| TImpl (a b : tree)
| TEquiv (a b : tree)
| TPBC (cc : bool) (c : cmp) (rhs : Z) (ls : list lit) (cs : list Z).

Definition asg := string -> bool.

Definition eval_lit (b : asg) (l : lit) : bool :=
  if snd l then b (fst l) else negb (b (fst l)).

(** Weighted sum of the satisfied literals. *)
Fixpoint wsum (b : asg) (ls : list lit) (cs : list Z) : Z :=
  match ls, cs with
  | l :: ls', c :: cs' => ((if eval_lit b l then c else 0) + wsum b ls' cs')%Z
  | _, _ => 0%Z
  end.

Fixpoint eval (b : asg) (t : tree) : bool :=
  match t with
  | TFalse => false
  | TTrue => true
  | TLit l => eval_lit b l
  | TNot t => negb (eval b t)
  | TAnd ts => forallb (eval b) ts
  | TOr ts => existsb (eval b) ts
  | TImpl x y => implb (eval b x) (eval b y)
  | TEquiv x y => Bool.eqb (eval b x) (eval b y)
  | TPBC _ c rhs ls cs => cmp_holds c (wsum b ls cs) rhs
  end.

(** Logical equivalence. *)
Definition equiv (t u : tree) : Prop := forall b, eval b t = eval b u.

(** Variables occurring in a tree. *)
Fixpoint occurs (x : string) (t : tree) : Prop :=
  match t with
  | TFalse | TTrue => False
  | TLit l => fst l = x
  | TNot t => occurs x t
  | TAnd ts | TOr ts =>
      (fix go (l : list tree) : Prop :=
         match l with [] => False | t :: r => occurs x t \/ go r end) ts
  | TImpl a b | TEquiv a b => occurs x a \/ occurs x b
  | TPBC _ _ _ ls _ => exists p, In (x, p) ls
  end.

(** Number of true literals in a list (for cardinality constraints). *)
Definition count (b : asg) (ls : list lit) : nat :=
  length (filter (eval_lit b) ls).

(** Induction principle for trees with nested lists. *)
Section TreeInd.
  Variable P : tree -> Prop.
  Hypothesis HF : P TFalse.
  Hypothesis HT : P TTrue.
  Hypothesis HL : forall l, P (TLit l).
  Hypothesis HN : forall t, P t -> P (TNot t).
  Hypothesis HA : forall ts, Forall P ts -> P (TAnd ts).
  Hypothesis HO : forall ts, Forall P ts -> P (TOr ts).
  Hypothesis HI : forall a b, P a -> P b -> P (TImpl a b).
  Hypothesis HE : forall a b, P a -> P b -> P (TEquiv a b).
  Hypothesis HP : forall k c r ls cs, P (TPBC k c r ls cs).
  Fixpoint tree_ind' (t : tree) : P t :=
    let fix go (l : list tree) : Forall P l :=
      match l with
      | [] => Forall_nil _
      | t :: r => Forall_cons t (tree_ind' t) (go r)
      end in
    match t with
    | TFalse => HF
    | TTrue => HT
    | TLit l => HL l
    | TNot t => HN t (tree_ind' t)
    | TAnd ts => HA ts (go ts)
    | TOr ts => HO ts (go ts)
    | TImpl a b => HI a b (tree_ind' a) (tree_ind' b)
    | TEquiv a b => HE a b (tree_ind' a) (tree_ind' b)
    | TPBC k c r ls cs => HP k c r ls cs
    end.
End TreeInd.

(** Shapes of normal forms. *)
Definition is_lit (t : tree) : bool := match t with TLit _ => true | _ => false end.
(** a literal or a disjunction of literals *)
Definition is_clause (t : tree) : bool :=
  match t with TLit _ => true | TOr ts => forallb is_lit ts | _ => false end.
(** a literal or a conjunction of literals *)
Definition is_term (t : tree) : bool :=
  match t with TLit _ => true | TAnd ts => forallb is_lit ts | _ => false end.
(** constant, clause, or conjunction of clauses *)
Definition is_cnf (t : tree) : bool :=
  match t with
  | TFalse | TTrue | TLit _ => true
  | TOr ts => forallb is_lit ts
  | TAnd ts => forallb is_clause ts
  | _ => false
  end.
(** constant, term, or disjunction of terms *)
Definition is_dnf (t : tree) : bool :=
  match t with
  | TFalse | TTrue | TLit _ => true
  | TAnd ts => forallb is_lit ts
  | TOr ts => forallb is_term ts
  | _ => false
  end.
(** negations on variables only, no implication, equivalence or constraint *)
Fixpoint is_nnf (t : tree) : bool :=
  match t with
  | TFalse | TTrue | TLit _ => true
  | TAnd ts | TOr ts => forallb is_nnf ts
  | _ => false
  end.
(** conjunctions and negations over literals and constants *)
Fixpoint is_aig (t : tree) : bool :=
  match t with
  | TFalse | TTrue | TLit _ => true
  | TNot t => is_aig t
  | TAnd ts => forallb is_aig ts
  | _ => false
  end.
(** no arithmetic constraint inside *)
Fixpoint pbfree (t : tree) : bool :=
  match t with
  | TFalse | TTrue | TLit _ => true
  | TNot t => pbfree t
  | TAnd ts | TOr ts => forallb pbfree ts
  | TImpl a b | TEquiv a b => pbfree a && pbfree b
  | TPBC _ _ _ _ _ => false
  end.

Fixpoint list_deq {A} (d : forall x y : A, {x = y} + {x <> y}) (a b : list A) : {a = b} + {a <> b}.
Proof. decide equality. Defined.
