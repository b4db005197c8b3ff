(** * Specification of a SAT solver (independent of the model)

    A literal is a variable with a sign, [true] for a negated variable. *)
From Coq Require Import List Bool ZArith.
Import ListNotations.

Definition assignment := nat -> bool.
Definition lit_true (a : assignment) (l : nat * bool) : bool := if snd l then negb (a (fst l)) else a (fst l).
(** What a client adds to a solver: at least one, or at most [k], of some literals is true. *)
Inductive constr := SomeOf (ls : list (nat * bool)) | AtMostOf (ls : list (nat * bool)) (k : Z).
Definition holds (a : assignment) (c : constr) : Prop :=
  match c with
  | SomeOf ls => exists l, In l ls /\ lit_true a l = true
  | AtMostOf ls k => (Z.of_nat (length (filter (lit_true a) ls)) <= k)%Z
  end.
Definition models (cs : list constr) (a : assignment) : Prop := forall c, In c cs -> holds a c.
