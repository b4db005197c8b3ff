(** * Model of quantifier elimination by Shannon expansion: transformation/qe.go *)
From Coq Require Import List.
From Verif Require Import Factory Assign.
Import ListNotations.

(** qe.go:14-15: assignment.New of one literal; its error is ignored, the nil assignment it would come with makes Restrict panic. *)
Definition single (l : formula) : M assignment := fun s => match newAssignment [l] with Some a => Some (a, s) | None => None end.
(** qe.go:14-16 and 27-29, one round of the loop; [join] is fac.Or or fac.And *)
Definition expand (n : nat) (join : list formula -> state -> formula * state) (f v : formula) : M formula :=
  pos <- single v ;;
  nv <- up (negateVar v) ;;
  neg <- single nv ;;
  a <- restrict n pos f ;;
  b <- restrict n neg f ;;
  up (join [a; b]).
(** qe.go:12-18 and 25-31: the loop *)
Fixpoint eliminate (n : nat) (join : list formula -> state -> formula * state) (f : formula) (vs : list formula) : M formula :=
  match vs with
  | [] => ret f
  | v :: r => g <- expand n join f v ;; eliminate n join g r
  end.
(** qe.go:11-19 ExistentialQE *)
Definition existentialQE (n : nat) (f : formula) (vs : list formula) : M formula := eliminate n Or f vs.
(** qe.go:24-32 UniversalQE *)
Definition universalQE (n : nat) (f : formula) (vs : list formula) : M formula := eliminate n And f vs.
