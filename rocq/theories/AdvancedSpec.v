(** * Independent specification of the advanced simplifier *)
From Coq Require Import String List Bool.
From Verif Require Import Spec Factory FactoryApi FactoryProps NfBase NormalForm NfProps SimplifyProps PrimeSpec Advanced.
Import ListNotations.
Local Open Scope list_scope.

(** [u] is a smallest disjunction of prime implicants of [t] that is equivalent to [t] *)
Definition minDNF (t u : tree) : Prop :=
  is_dnf u = true /\ (forall c, In c (terms u) -> exists I, prime_implicant t I /\ forall l, lit_occurs l c <-> In l I) /\
  forall Is, (forall I, In I Is -> prime_implicant t I) -> (forall b, eval b t = true -> exists I, In I Is /\ allTrue b I) -> (length (terms u) <= length Is)%nat.

(** Every model of the formula gives the variable, which occurs in it, the value. *)
Definition forced (t : tree) (x : string) (v : bool) : Prop := occurs x t /\ forall b, eval b t = true -> b x = v.
(** A right answer of the backbone computation for the formula *)
Definition bbRight (s : state) (t : tree) (bb : bbAnswer) : Prop :=
  match bb with
  | BbCancelled => True
  | BbUnsat => forall b, eval b t = false
  | BbSat ps ns => (exists b, eval b t = true) /\ exists xs ys, Forall2 (fun v x => Reads s v (TLit (x, true))) ps xs /\
      Forall2 (fun v x => Reads s v (TLit (x, true))) ns ys /\ (forall x, In x xs -> forced t x true) /\ (forall y, In y ys -> forced t y false)
  end.
