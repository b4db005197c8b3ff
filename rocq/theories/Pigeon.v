(** * Model of the generator of pigeonhole problems: sat/pigeon_hole.go *)
From Coq Require Import String List Bool Arith NArith DecimalString.
From Verif Require Import Factory Assign.
Import ListNotations.

(** pigeon_hole.go:24, 38-39: the variable of pigeon [i] in hole [j], both counted from 1 *)
Definition holeVar (n i j : nat) : string := ("v" ++ NilEmpty.string_of_uint (N.to_uint (N.of_nat (n * (i - 1) + j))))%string.
(** pigeon_hole.go:16-29 placeInSomeHole *)
Definition placeInSomeHole (n : nat) : M formula :=
  if n =? 1 then a <- up (Var "v1") ;; b <- up (Var "v2") ;; up (And [a; b])
  else
    ors <- mapM (fun i => vs <- mapM (fun j => up (Var (holeVar n i j))) (seq 1 n) ;; up (Or vs)) (seq 1 (n + 1)) ;;
    up (And ors).
(** pigeon_hole.go:36-42: the hole and the two pigeons of the clauses, in the order of the loops *)
Definition conflicts (n : nat) : list (nat * (nat * nat)) :=
  flat_map (fun j => flat_map (fun i => map (fun k => (j, (i, k))) (seq (i + 1) (n + 1 - i))) (seq 1 n)) (seq 1 n).
(** pigeon_hole.go:31-45 onlyOnePigeonInHole *)
Definition onlyOnePigeonInHole (n : nat) : M formula :=
  if n =? 1 then a <- up (Lit "v1" false) ;; b <- up (Lit "v2" false) ;; up (Or [a; b])
  else
    ors <- mapM (fun c => a <- up (Lit (holeVar n (fst (snd c)) (fst c)) false) ;; b <- up (Lit (holeVar n (snd (snd c)) (fst c)) false) ;; up (Or [a; b])) (conflicts n) ;;
    up (And ors).
(** pigeon_hole.go:11-14 GeneratePigeonHole *)
Definition generatePigeonHole (n : nat) : M formula :=
  a <- placeInSomeHole n ;; b <- onlyOnePigeonInHole n ;; up (And [a; b]).
