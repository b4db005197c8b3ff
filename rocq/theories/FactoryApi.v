(** * What a client of the factory can do and see

    This file fixes the vocabulary of the factory theorems.  It only uses the
    API of formula/factory.go (as modelled in [Factory.v]) and [Spec.v]. *)
From Coq Require Import String Ascii List Bool ZArith NArith.
From Verif Require Import Spec Factory.
Import ListNotations.
Local Open Scope N_scope.

(** [Reads s f t]: walking through [f] with the accessors LiteralNamePhase, NotOperand,
    NaryOperands, BinaryLeftRight and PBCOps on factory [s] yields the tree [t]. *)
Inductive Reads (s : state) : formula -> tree -> Prop :=
| R_false : Reads s ffalse TFalse
| R_true : Reads s ftrue TTrue
| R_lit f np : LiteralNamePhase f s = Some np -> Reads s f (TLit np)
| R_not f g t : srt f = SNot -> NotOperand f s = Some g -> Reads s g t -> Reads s f (TNot t)
| R_and f l ts : srt f = SAnd -> NaryOperands f s = Some l -> Forall2 (Reads s) l ts -> Reads s f (TAnd ts)
| R_or f l ts : srt f = SOr -> NaryOperands f s = Some l -> Forall2 (Reads s) l ts -> Reads s f (TOr ts)
| R_impl f a b ta tb : srt f = SImpl -> BinaryLeftRight f s = Some (a, b) ->
    Reads s a ta -> Reads s b tb -> Reads s f (TImpl ta tb)
| R_equiv f a b ta tb : srt f = SEquiv -> BinaryLeftRight f s = Some (a, b) ->
    Reads s a ta -> Reads s b tb -> Reads s f (TEquiv ta tb)
| R_pbc f p ls : PBCOps f s = Some p -> Forall2 (fun l np => LiteralNamePhase l s = Some np) (p_lits p) ls ->
    Reads s f (TPBC (fsort_eqb (srt f) SCC) (p_cmp p) (p_rhs p) ls (p_coeffs p)).

(** The calls that create formulas. *)
Inductive call :=
| CVar (n : string) | CLit (n : string) (p : bool) | CAux (k : auxsort)
| CNot (f : formula) | CImpl (a b : formula) | CEquiv (a b : formula)
| CAnd (ops : list formula) | COr (ops : list formula)
| CMinterm (ls : list formula) | CClause (ls : list formula)
| CCC (c : cmp) (rhs : N) (vars : list formula) | CAMO (vars : list formula) | CEXO (vars : list formula)
| CPBC (c : cmp) (rhs : Z) (ls : list formula) (cs : list Z).

Definition run (c : call) : state -> formula * state :=
  match c with
  | CVar n => Var n
  | CLit n p => Lit n p
  | CAux k => NewAuxVar k
  | CNot f => Not f
  | CImpl a b => Implication a b
  | CEquiv a b => Equivalence a b
  | CAnd l => And l
  | COr l => Or l
  | CMinterm l => Minterm l
  | CClause l => Clause l
  | CCC c r l => CC c r l
  | CAMO l => AMO l
  | CEXO l => EXO l
  | CPBC c r l cs => PBC c r l cs
  end.

(** Well-typed calls: operands are formulas the client holds ([H]); Literal parameters are
    literals and Variable parameters positive literals, as the Go types say; PBC gets as
    many coefficients as literals. *)
Definition isLit (f : formula) : Prop := srt f = SLit.
Definition isVar (f : formula) : Prop := srt f = SLit /\ isPos f = true.
Definition allowed (H : list formula) (c : call) : Prop :=
  match c with
  | CVar _ | CLit _ _ | CAux _ => True
  | CNot f => In f H
  | CImpl a b | CEquiv a b => In a H /\ In b H
  | CAnd l | COr l => incl l H
  | CMinterm l | CClause l => incl l H /\ Forall isLit l
  | CCC _ _ l | CAMO l | CEXO l => incl l H /\ Forall isVar l
  | CPBC _ _ l cs => incl l H /\ Forall isLit l /\ length cs = length l
  end.

(** One step of a client of the library.  The last rule lets any library operation store
    anything at all in the transformation, predicate and function caches: the properties
    stated over histories hold no matter what the rest of the library writes there. *)
Inductive step (ok : call -> Prop) : state * list formula -> state * list formula -> Prop :=
| step_call c s H r s' : ok c -> allowed H c -> run c s = (r, s') -> step ok (s, H) (s', r :: H)
| step_operand f g s H : In f H -> In g (Operands f s) -> step ok (s, H) (s, g :: H)
| step_pbcop f p g s H : In f H -> PBCOps f s = Some p -> In g (p_lits p) -> step ok (s, H) (s, g :: H)
| step_cache t p u s H : step ok (s, H) (set_transC t (set_predC p (set_funcC u s)), H).

Inductive steps (ok : call -> Prop) : state * list formula -> state * list formula -> Prop :=
| steps_refl w : steps ok w w
| steps_more w1 w2 w3 : steps ok w1 w2 -> step ok w2 w3 -> steps ok w1 w3.

Definition anycall (c : call) : Prop := True.
(** all constructors but Minterm and Clause *)
Definition condensing (c : call) : Prop := match c with CMinterm _ | CClause _ => False | _ => True end.

(** [history ok cv s H]: a client of a new factory (created with conserveVars = [cv]) that
    only made calls satisfying [ok] holds the formulas [H] of the factory in state [s]. *)
Definition history (ok : call -> Prop) (cv : bool) (s : state) (H : list formula) : Prop :=
  steps ok (newFactory cv, [ffalse; ftrue]) (s, H).

(** [u] is the negation of [t] in the sense of the library: constants and literals are
    flipped, double negations do not exist. *)
Definition negation (t u : tree) : Prop :=
  match t with
  | TFalse => u = TTrue
  | TTrue => u = TFalse
  | TLit (n, p) => u = TLit (n, negb p)
  | TNot t' => u = t'
  | _ => u = TNot t
  end.

Definition lit_of (t : tree) : lit := match t with TLit np => np | _ => (EmptyString, true) end.

(** [promise c s ts] is what the call promises, [ts] being the trees of its formula operands *)
Definition promise (c : call) (s : state) (ts : list tree) : tree :=
  match c with
  | CVar n => TLit (n, true)
  | CLit n p => TLit (n, p)
  | CAux k => TLit (auxName k (auxCtr s k), true)
  | CNot _ => TNot (hd TFalse ts)
  | CImpl _ _ => TImpl (hd TFalse ts) (hd TFalse (tl ts))
  | CEquiv _ _ => TEquiv (hd TFalse ts) (hd TFalse (tl ts))
  | CAnd _ | CMinterm _ => TAnd ts
  | COr _ | CClause _ => TOr ts
  | CCC c rhs _ => TPBC true c (Z.of_N rhs) (map lit_of ts) (map (fun _ => 1%Z) ts)
  | CAMO _ => TPBC true LE 1 (map lit_of ts) (map (fun _ => 1%Z) ts)
  | CEXO _ => TPBC true EQ 1 (map lit_of ts) (map (fun _ => 1%Z) ts)
  | CPBC c rhs _ cs => TPBC false c rhs (map lit_of ts) cs
  end.
Definition operands_of (c : call) : list formula :=
  match c with
  | CVar _ | CLit _ _ | CAux _ => []
  | CNot f => [f]
  | CImpl a b | CEquiv a b => [a; b]
  | CAnd l | COr l | CMinterm l | CClause l => l
  | CCC _ _ l | CAMO l | CEXO l | CPBC _ _ l _ => l
  end.
