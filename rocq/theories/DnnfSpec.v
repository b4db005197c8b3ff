(** * Specification: deterministic decomposable formulas and numbers of models

    Nothing in this file refers to the model of the Go code. *)
From Coq Require Import String List Bool ZArith.
From Verif Require Import Spec.
Import ListNotations.

Definition assign (b : asg) (x : string) (v : bool) : asg := fun y => if String.eqb y x then v else b y.

(** The number of ways to give values to the variables [xs] such that [g] holds; all other
    variables have the values of [b]. *)
Fixpoint ways (xs : list string) (g : asg -> bool) (b : asg) : Z :=
  match xs with
  | [] => if g b then 1 else 0
  | x :: r => ways r g (assign b x true) + ways r g (assign b x false)
  end%Z.

(** The number of satisfying assignments of [t] over the variables [xs]. *)
Definition models (xs : list string) (t : tree) : Z := ways xs (fun b => eval b t) (fun _ => false).

(** Deterministic decomposable negation normal form: the operands of a conjunction share no
    variables, no assignment satisfies two operands of a disjunction. *)
Definition disjoint_vars (t u : tree) : Prop := forall x, occurs x t -> ~ occurs x u.
Definition exclusive (t u : tree) : Prop := forall b, eval b t = true -> eval b u = false.
Fixpoint pairwise {A} (R : A -> A -> Prop) (l : list A) : Prop :=
  match l with [] => True | x :: r => Forall (R x) r /\ pairwise R r end.
Inductive ddnnf : tree -> Prop :=
| dd_false : ddnnf TFalse
| dd_true : ddnnf TTrue
| dd_lit l : ddnnf (TLit l)
| dd_and ts : Forall ddnnf ts -> pairwise disjoint_vars ts -> ddnnf (TAnd ts)
| dd_or ts : Forall ddnnf ts -> pairwise exclusive ts -> ddnnf (TOr ts).

(** The variables of a tree without repetition. *)
Fixpoint occList (t : tree) : list string :=
  match t with
  | TFalse | TTrue => []
  | TLit l => [fst l]
  | TNot t => occList t
  | TAnd ts | TOr ts => flat_map occList ts
  | TImpl a b | TEquiv a b => occList a ++ occList b
  | TPBC _ _ _ ls _ => map fst ls
  end.
Definition treeVars (t : tree) : list string := nodup string_dec (occList t).
Definition nvars (t : tree) : Z := Z.of_nat (length (treeVars t)).

(** The count computed along the structure. *)
Fixpoint dcount (t : tree) : Z :=
  match t with
  | TTrue | TLit _ => 1
  | TAnd ts => fold_right Z.mul 1 (map dcount ts)
  | TOr ts => fold_right Z.add 0 (map (fun u => dcount u * 2 ^ (Z.of_nat (length (nodup string_dec (flat_map occList ts))) - nvars u)) ts)
  | _ => 0
  end%Z.
