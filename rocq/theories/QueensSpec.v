(** * The n-queens problem *)
From Coq Require Import String Arith NArith DecimalString.

(** [q i j]: a queen stands in row [i] and column [j] of a board with [n] rows and columns, counted from 0.
    Every row and every column has exactly one queen and no two queens stand on the same diagonal. *)
Definition queens (n : nat) (q : nat -> nat -> bool) : Prop :=
  (forall i, i < n -> exists j, j < n /\ q i j = true /\ forall k, k < n -> q i k = true -> k = j) /\
  (forall j, j < n -> exists i, i < n /\ q i j = true /\ forall k, k < n -> q k j = true -> k = i) /\
  (forall i j k l, i < n -> j < n -> k < n -> l < n -> q i j = true -> q k l = true -> i <> k -> i + j <> k + l /\ i + l <> k + j).

(** The variables v1, v2, ... of the squares, row by row *)
Definition squareVar (n i j : nat) : string := String.append "v" (NilEmpty.string_of_uint (N.to_uint (N.of_nat (1 + j + n * i)))).
