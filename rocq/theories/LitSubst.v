(** * Model of the substitution of literals: transformation/literal_substitution.go *)
From Coq Require Import List.
From Verif Require Import Factory Assign NormalForm.
Import ListNotations.

(** the Go map from literals to literals *)
Definition litSubstitution := formula -> option formula.
(** literal_substitution.go:19-31: the case of a literal *)
Definition substLit (sb : litSubstitution) (l : formula) : M formula :=
  match sb l with
  | Some m => ret m
  | None =>
    if isPos l then ret l
    else match sb (litVariable l) with Some m => up (negateLit m) | None => ret l end
  end.
(** literal_substitution.go:15-61 SubstituteLiterals *)
Fixpoint substituteLiterals (n : nat) (sb : litSubstitution) (f : formula) : M formula :=
  match n with
  | O => fail
  | S n' =>
    match srt f with
    | STrue | SFalse => ret f
    | SLit => substLit sb f
    | SNot => op <- get (opNot f) ;; x <- substituteLiterals n' sb op ;; up (Not x)
    | SEquiv | SImpl =>
      q <- get (opBin f) ;; l <- substituteLiterals n' sb (fst q) ;; r <- substituteLiterals n' sb (snd q) ;; binOp (srt f) l r
    | SOr | SAnd => ops <- get (opNary f) ;; nops <- mapM (substituteLiterals n' sb) ops ;; naryOp (srt f) nops
    | SCC | SPBC => p <- get (opPbc f) ;; ls <- mapM (substLit sb) (p_lits p) ;; up (PBC (p_cmp p) (p_rhs p) ls (p_coeffs p))
    end
  end.
