(** * Model of the model count of DNNFs (dnnf/dnnf.go)

    Conventions as in NormalForm.v; numbers of type big.Int are integers. *)
From Coq Require Import String List Bool ZArith NArith.
From Verif Require Import Spec Factory Assign NormalForm.
Import ListNotations.
Local Open Scope Z_scope.

(** formula/set.go: the size of a set *)
Definition sizeOf (l : list formula) : Z := Z.of_nat (List.length l).

(** dnnf.go:37-66 [count].  For other sorts the count is nil, and copying it into the cache
    panics. *)
Fixpoint dnnfCount (n : nat) (f : formula) : M Z :=
  match n with
  | O => fail
  | S n' =>
    c <- get (lookupFunc FuncDNNFCount f) ;;
    match c with
    | Some (VNum z) => ret z
    | Some (VSet _) => fail
    | None =>
      z <- match srt f with
           | SLit | STrue => ret 1
           | SAnd => ops <- get (Operands f) ;; zs <- mapM (dnnfCount n') ops ;; ret (fold_right Z.mul 1 zs)
           | SOr =>
             vs <- variables n' f ;;
             ops <- get (Operands f) ;;
             zs <- mapM (fun op => c <- dnnfCount n' op ;; ws <- variables n' op ;;
                                   ret (c * 2 ^ (sizeOf vs - sizeOf ws))) ops ;;
             ret (fold_right Z.add 0 zs)
           | SFalse => ret 0
           | _ => fail
           end ;;
      _ <- put (setFunc FuncDNNFCount f (VNum z)) ;; ret z
    end
  end.

(** dnnf.go:19-35 [ModelCount]; [orig] are the original variables. *)
Definition modelCount (n : nat) (f : formula) (orig : list formula) : M Z :=
  c <- get (lookupFunc FuncDNNFCount f) ;;
  r <- match c with
       | Some (VNum z) => ret z
       | Some (VSet _) => fail
       | None => dnnfCount n f
       end ;;
  vs <- variables n f ;;
  ret (r * 2 ^ sizeOf (filter (fun v => negb (memF v vs)) orig)).
