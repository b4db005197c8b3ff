(** * Specification vocabulary for the constraint encoders

    Independent of the encoders.  An encoding is a list of clauses over the
    user's variables and auxiliary variables.  What it promises is stated with
    the number of true literals of the constraint ([count]) or their weighted
    sum ([weight]) under an environment. *)

From Coq Require Import String List Bool Arith ZArith Lia.
Import ListNotations.

(** Sorts of auxiliary variables the encoders ask for: formula/factory.go:30-40
    ([AuxCC], [AuxPBC]). *)
Inductive asort := ACC | APB.

(** A propositional variable as the encoders see it: a variable of the user's
    constraint, or the [k]-th auxiliary variable of a sort.  Five more values
    stand for things that must not occur in the clauses of a correct run:
    - [Zero]: the literal whose uint32 value is 0 (Go's zero value),
    - [Bad]: the value read by an index out of range (the Go program panics),
    - [Loop]: emitted where the Go program does not terminate,
    - [Undef], [Err]: the marker variables "RESERVED@VAR_UNDEF" and
      "RESERVED@VAR_ERROR" of the modular totalizer, "@NULL_LIT" of the
      pseudo-Boolean encoders is [Undef] as well.  They are assumed not to be
      used by the user's constraint. *)
Inductive var :=
| Usr (x : string)
| Aux (s : asort) (k : nat)
| Zero
| Bad
| Loop
| Undef
| Err.

Definition elit := (var * bool)%type.
Definition clause := list elit.

Definition env := var -> bool.

Definition lval (a : env) (l : elit) : bool :=
  if snd l then a (fst l) else negb (a (fst l)).

Definition csat (a : env) (c : clause) : Prop := exists l, In l c /\ lval a l = true.

Definition sat (a : env) (cs : list clause) : Prop := forall c, In c cs -> csat a c.

(** The number of true literals in a list. *)
Fixpoint count (a : env) (ls : list elit) : nat :=
  match ls with
  | [] => 0
  | l :: r => (if lval a l then 1 else 0) + count a r
  end.

(** The weighted sum of a list of literals. *)
Fixpoint weight (a : env) (ls : list elit) (cs : list Z) : Z :=
  match ls, cs with
  | l :: r, c :: d => ((if lval a l then c else 0) + weight a r d)%Z
  | _, _ => 0%Z
  end.

(** Numbers of auxiliary variables of each sort created so far. *)
Definition ctr := (nat * nat)%type.

Definition fresh (s : asort) (n : ctr) : nat :=
  match s with ACC => fst n | APB => snd n end.

(** The names of auxiliary variables start like this (formula/formula.go:299-305);
    the user's constraint must not use them. *)
Definition reserved (x : string) : bool := prefix "@RESERVED_" x.

(** The variables that exist when the counters stand at [n]. *)
Definition scope (n : ctr) (v : var) : Prop :=
  match v with
  | Usr x => reserved x = false
  | Aux s k => k < fresh s n
  | Zero | Bad | Loop | Undef | Err => False
  end.

Definition lscope (n : ctr) (l : elit) : Prop := scope n (fst l).
Definition scoped (n : ctr) (ls : list elit) : Prop := forall l, In l ls -> lscope n l.
Definition cscoped (n : ctr) (cs : list clause) : Prop := forall c, In c cs -> scoped n c.

Definition cle (n m : ctr) : Prop := fst n <= fst m /\ snd n <= snd m.

(** Two environments agree on everything that existed at [n]. *)
Definition agree (n : ctr) (a b : env) : Prop := forall v, scope n v -> b v = a v.

(** [encodes P n out]: run with counters at [n], the encoder returned the
    clauses and the new counters [out]; the clauses talk only about variables
    that exist by then; every model of the clauses satisfies [P]; and every
    environment satisfying [P] can be extended on the freshly created auxiliary
    variables, and only on them, to a model of the clauses. *)
Definition encodes (P : env -> Prop) (n : ctr) (out : list clause * ctr) : Prop :=
  cle n (snd out) /\
  cscoped (snd out) (fst out) /\
  (forall a, sat a (fst out) -> P a) /\
  (forall a, P a -> exists b, agree n a b /\ sat b (fst out)).

(** The same promise for clauses that may contain the literal 0.  On a formula
    factory the literal 0 is the constant false, so only environments that
    falsify it are considered. *)
Definition lscope0 (n : ctr) (l : elit) : Prop := lscope n l \/ l = (Zero, true).
Definition cscoped0 (n : ctr) (cs : list clause) : Prop :=
  forall c, In c cs -> forall l, In l c -> lscope0 n l.

Definition encodes0 (P : env -> Prop) (n : ctr) (out : list clause * ctr) : Prop :=
  cle n (snd out) /\
  cscoped0 (snd out) (fst out) /\
  (forall a, a Zero = false -> sat a (fst out) -> P a) /\
  (forall a, a Zero = false -> P a -> exists b, agree n a b /\ b Zero = false /\ sat b (fst out)).
