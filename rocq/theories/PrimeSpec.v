(** * Independent specification of prime implicants and implicates *)
From Coq Require Import List Bool.
From Verif Require Import Spec.
Import ListNotations.

(** A list of literals read as a conjunction and as a disjunction. *)
Definition allTrue (b : asg) (ls : list lit) : Prop := forall l, In l ls -> eval_lit b l = true.
Definition someTrue (b : asg) (ls : list lit) : Prop := exists l, In l ls /\ eval_lit b l = true.

(** The conjunction implies the formula; the formula implies the disjunction. *)
Definition implicant (t : tree) (ls : list lit) : Prop := forall b, allTrue b ls -> eval b t = true.
Definition implicate (t : tree) (ls : list lit) : Prop := forall b, eval b t = true -> someTrue b ls.

(** Prime: not contradictory (not tautological), and no literal can be left out. *)
Definition prime_implicant (t : tree) (ls : list lit) : Prop :=
  (exists b, allTrue b ls) /\ implicant t ls /\ forall a l c, ls = a ++ l :: c -> ~ implicant t (a ++ c).
Definition prime_implicate (t : tree) (ls : list lit) : Prop :=
  (exists b, ~ someTrue b ls) /\ implicate t ls /\ forall a l c, ls = a ++ l :: c -> ~ implicate t (a ++ c).

Definition same_lits (l m : list lit) : Prop := forall x, In x l <-> In x m.
