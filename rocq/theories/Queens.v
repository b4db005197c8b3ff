(** * Model of the generator of n-queens problems: sat/queen.go *)
From Coq Require Import String List Bool Arith ZArith NArith DecimalString.
From Verif Require Import Spec Factory Assign EncSpec EncAmo EncApi EncPbc NormalForm.
Import ListNotations.

(** queen.go:13: the configuration has the pure encoder and the zero values of the other fields.
    The fields for pseudo-Boolean constraints are not read for cardinality constraints. *)
Definition queensCf : encConfig :=
  let cc := {| c_base := {| c_amo := AMOPure; c_bimander := BimanderHalf; c_fixed := 0; c_nesting := 0; c_product := 0; c_commander := 0; c_bits := Nat.log2_up |};
               c_amk := AMKTotalizer; c_alk := ALKTotalizer; c_exk := EXKTotalizer |} in
  EncCfg {| c_cc := cc; c_pbc := PBCSWC; c_gac := false; c_nosupport := false; c_watchdog := false;
            c_log := fun w => Z.to_nat (Z.log2 w); c_single := fun w => (w =? 2 ^ Z.log2 w)%Z |} cc (fun l => l).

(** queen.go:14-21: the variable of row [i] and column [j]; kk is i * n + j + 1 *)
Definition square (n i j : nat) : string := ("v" ++ NilEmpty.string_of_uint (N.to_uint (N.of_nat (i * n + j + 1))))%string.
Definition board (n : nat) : M (list (list formula)) :=
  mapM (fun i => mapM (fun j => up (Var (square n i j))) (seq 0 n)) (seq 0 n).

(** queen.go:25-77: the fields of the rows, columns and diagonals in the order of the constraints; true stands for
    exactly one, false for at most one *)
Definition lines (n : nat) : list (bool * list (nat * nat)) :=
  map (fun i => (true, map (fun j => (i, j)) (seq 0 n))) (seq 0 n) ++
  map (fun i => (true, map (fun j => (j, i)) (seq 0 n))) (seq 0 n) ++
  map (fun i => (false, map (fun j => (j, i + j)) (seq 0 (n - i)))) (seq 0 (n - 1)) ++
  map (fun i => (false, map (fun j => (j + i, j)) (seq 0 (n - i)))) (seq 1 (n - 2)) ++
  map (fun i => (false, map (fun j => (j, n - 1 - (i + j))) (seq 0 (n - i)))) (seq 0 (n - 1)) ++
  map (fun i => (false, map (fun j => (j + i, n - 1 - j)) (seq 0 (n - i)))) (seq 1 (n - 2)).
(** queen.go:26-29 etc.: EncodeCC returns no formulas and an error, which is dropped, for a formula that is no cardinality constraint *)
Definition lineForm (vs : list (list formula)) (l : bool * list (nat * nat)) : M formula :=
  let xs := map (fun p => nth (snd p) (nth (fst p) vs []) ffalse) (snd l) in
  c <- up (if fst l then EXO xs else AMO xs) ;;
  cs <- (match srt c with SCC => encodePBCM queensCf c | _ => ret [] end) ;; up (And cs).
(** queen.go:12-79 GenerateNQueens *)
Definition generateNQueens (n : nat) : M formula :=
  vs <- board n ;; fs <- mapM (lineForm vs) (lines n) ;; up (And fs).
