(** * What unit propagation is for *)
From Coq Require Import List.
From Verif Require Import Spec.
Import ListNotations.

Definition conjuncts (u : tree) : list tree := match u with TAnd us => us | TTrue => [] | _ => [u] end.
(** Every unit is propagated: the variable of a literal that is a conjunct occurs in no other conjunct. *)
Definition unitFree (u : tree) : Prop :=
  forall l t, In (TLit l) (conjuncts u) -> In t (conjuncts u) -> occurs (fst l) t -> t = TLit l.
