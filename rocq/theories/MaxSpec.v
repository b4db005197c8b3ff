(** * Specification of partial weighted MaxSAT (independent of the model)

    A literal is a variable with a sign, [true] for a negated variable (see SatSpec.v). *)
From Coq Require Import List Bool Arith.
From Verif Require Import SatSpec.
Import ListNotations.

Definition true_in (a : assignment) (c : list (nat * bool)) : bool := existsb (lit_true a) c.
(** hard clauses, and soft clauses with their weights *)
Record problem := Problem { p_hard : list (list (nat * bool)); p_soft : list (nat * list (nat * bool)) }.
(** all hard clauses hold *)
Definition feasible (P : problem) (a : assignment) : Prop := forall c, In c (p_hard P) -> true_in a c = true.
(** the sum of the weights of the violated soft clauses *)
Definition costs (soft : list (nat * list (nat * bool))) (a : assignment) : nat := list_sum (map (fun wc => if true_in a (snd wc) then 0 else fst wc) soft).
Definition cost (P : problem) (a : assignment) : nat := costs (p_soft P) a.

(** all weights are 1 *)
Definition unweighted (P : problem) : Prop := forall wc, In wc (p_soft P) -> fst wc = 1.
(** Boolean multilevel optimization: no weight is smaller than the sum of all weights below it *)
Definition bmo (P : problem) : Prop := forall wc, In wc (p_soft P) -> list_sum (map fst (filter (fun x => fst x <? fst wc) (p_soft P))) <= fst wc.

(** what a solver reports *)
Inductive verdict := Cancelled | Infeasible | Optimum (k : nat) (m : list bool).
Definition of_list (m : list bool) : assignment := fun v => nth v m false.
(** a report on a problem with [nv] variables is right *)
Definition right (nv : nat) (P : problem) (v : verdict) : Prop :=
  match v with
  | Cancelled => True
  | Infeasible => forall a, ~ feasible P a
  | Optimum k m => length m = nv /\ feasible P (of_list m) /\ cost P (of_list m) = k /\ forall a, feasible P a -> k <= cost P a
  end.
