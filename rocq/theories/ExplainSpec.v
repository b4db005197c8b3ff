(** * Independent specification of explanations *)
From Coq Require Import List.
From Verif Require Import Spec.
Import ListNotations.

(** Some assignment makes all formulas true. *)
Definition jointly_sat (ts : list tree) : Prop := exists b, forall t, In t ts -> eval b t = true.

(** A minimal unsatisfiable set of formulas: no assignment makes all of them
    true, and leaving out any one of them makes the rest satisfiable. *)
Definition minimal_unsat (ts : list tree) : Prop :=
  ~ jointly_sat ts /\ forall a t c, ts = a ++ t :: c -> jointly_sat (a ++ c).

(** A smallest unsatisfiable subset of [ts] together with constraints [cs]
    (positions are subsets of the index set, given by sublists). *)
Inductive sublist {A} : list A -> list A -> Prop :=
| sub_nil : sublist [] []
| sub_skip x l l' : sublist l l' -> sublist l (x :: l')
| sub_keep x l l' : sublist l l' -> sublist (x :: l) (x :: l').

Definition smallest_unsat (cs ts u : list tree) : Prop :=
  sublist u ts /\ ~ jointly_sat (cs ++ u) /\
  forall v, sublist v ts -> ~ jointly_sat (cs ++ v) -> length u <= length v.
