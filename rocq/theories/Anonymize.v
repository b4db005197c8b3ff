(** * Model of the anonymizer: transformation/anonymizer.go *)
From Coq Require Import String List Bool NArith DecimalString.
From Verif Require Import Factory Assign NormalForm.
Import ListNotations.

(** anonymizer.go:13-18 Anonymizer; the substitution is the Go map from variables to variables as a list without repeated keys *)
Record anonymizer := Anon { an_prefix : string; an_counter : nat; an_subst : list (formula * formula) }.
(** anonymizer.go:22-32 NewAnonymizer; the default prefix is "v" *)
Definition newAnonymizer (prefix : string) : anonymizer := Anon prefix 0 [].
(** substitution.go: the lookup in the map *)
Definition mapped (l : list (formula * formula)) : substitution := fun v => option_map snd (find (fun e => feqb (fst e) v) l).
(** anonymizer.go:51 *)
Definition anonName (prefix : string) (i : nat) : string := (prefix ++ NilEmpty.string_of_uint (N.to_uint (N.of_nat i)))%string.
(** anonymizer.go:48-54: the loop over the variables *)
Fixpoint addVars (a : anonymizer) (vs : list formula) : M anonymizer :=
  match vs with
  | [] => ret a
  | v :: r =>
    match mapped (an_subst a) v with
    | Some _ => addVars a r
    | None => w <- up (Var (anonName (an_prefix a) (an_counter a))) ;; addVars (Anon (an_prefix a) (an_counter a + 1) ((v, w) :: an_subst a)) r
    end
  end.
(** anonymizer.go:43-57 Anonymize; the error of Substitute is ignored, the formula is then the zero value *)
Definition anonymize (n : nat) (a : anonymizer) (f : formula) : M (formula * anonymizer) :=
  vs <- variables n f ;;
  match vs with
  | [] => ret (f, a)
  | _ => a' <- addVars a vs ;; x <- substitute n (mapped (an_subst a')) f ;; ret (match x with Some g => g | None => ffalse end, a')
  end.
