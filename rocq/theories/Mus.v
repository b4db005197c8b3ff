(** * Minimal unsatisfiable sets (explanation/mus/mus.go) *)
From Coq Require Import String List Bool Arith Lia.
From Verif Require Import Spec Solver.
Import ListNotations.

(** formula/proposition.go:5-22: a proposition is compared by its identity
    (it is a pointer); [p_form] is its formula. *)
Record prop := mkProp { p_id : nat; p_form : tree }.

(** Result of the two functions: a core, the error "formula set is
    satisfiable", cancellation by the handler; [MPanic] is a run-time panic,
    [MFuel] marks an exhausted recursion bound of the model. *)
Inductive musRes := MCore (l : list prop) | MSatisfiable | MCanceled | MPanic | MFuel.

Inductive insRes := IBreak (s : solver) (subset : list prop) (trans : option prop) | ISat | ICanceled.

(** explanation/mus/mus.go:43-59: the inner loop.  [rest] holds
    [currentFormula[count-1], ..., currentFormula[0]]. *)
Fixpoint insLoop (E : env) (s : solver) (subset : list prop) (trans : option prop) (rest : list prop) : insRes :=
  match call E s [] with
  | (Canceled, _) => ICanceled
  | (Unsat, s') => IBreak s' subset trans
  | (Sat _, s') =>
      match rest with
      | [] => ISat
      | p :: rest' => insLoop E (add E s' (p_form p)) (subset ++ [p]) (Some p) rest'
      end
  end.

(** explanation/mus/mus.go:63-67: the range loop that removes the transition
    proposition.  [arr] is the array behind the slice, [n] the current length
    of the slice; the loop runs over the indices [i], ..., [i+k-1] of the array
    and reads it at each step, while [append] shifts it in place.  [None] is
    the panic of a slice expression out of range. *)
Fixpoint removeLoop (k i : nat) (arr : list prop) (n : nat) (t : prop) : option (list prop) :=
  match k with
  | O => Some (firstn n arr)
  | S k' =>
      match nth_error arr i with
      | None => None
      | Some p =>
          if Nat.eqb (p_id p) (p_id t) then
            if Nat.leb (S i) n then
              removeLoop k' (S i) (firstn i arr ++ firstn (n - S i) (skipn (S i) arr) ++ skipn (n - 1) arr) (n - 1) t
            else None
          else removeLoop k' (S i) arr n t
      end
  end.

(** explanation/mus/mus.go:37-71: the outer loop. *)
Fixpoint insOuter (fuel : nat) (E : env) (time : nat) (current mus : list prop) : musRes :=
  match current with
  | [] => MCore mus
  | _ :: _ =>
      match fuel with
      | O => MFuel
      | S fuel' =>
          match insLoop E (addAll E (newSolver time) (map p_form mus)) [] None (rev current) with
          | ICanceled => MCanceled
          | ISat => MSatisfiable
          | IBreak s subset None => insOuter fuel' E (s_time s) subset mus
          | IBreak s subset (Some t) =>
              match removeLoop (length subset) 0 subset (length subset) t with
              | None => MPanic
              | Some current' => insOuter fuel' E (s_time s) current' (mus ++ [t])
              end
          end
      end
  end.

(** explanation/mus/mus.go:27-72 (ComputeInsertionBasedWithHandler). *)
Definition insertionBased (E : env) (props : list prop) : musRes :=
  if e_resume E 0 then insOuter (S (length props)) E 1 props [] else MCanceled.

(** explanation/mus/mus.go:99-102: a state is saved before each addition. *)
Fixpoint delAdd (E : env) (s : solver) (ps : list prop) : list nat * solver :=
  match ps with
  | [] => ([], s)
  | p :: r =>
      let '(id, s1) := saveState s in
      let '(ids, s2) := delAdd E (add E s1 (p_form p)) r in
      (id :: ids, s2)
  end.

(** explanation/mus/mus.go:110-125: [todo] holds the propositions with their
    states, the last one first.  An error of LoadState is [MPanic] here: the
    theorems show that it does not occur. *)
Fixpoint delLoop (E : env) (s : solver) (mus : list prop) (todo : list (prop * nat)) : musRes :=
  match todo with
  | [] => MCore mus
  | (p, id) :: r =>
      match loadState s id with
      | None => MPanic
      | Some s1 =>
          match call E (addAll E s1 (map p_form mus)) [] with
          | (Canceled, _) => MCanceled
          | (Sat _, s2) => delLoop E s2 (mus ++ [p]) r
          | (Unsat, s2) => delLoop E s2 mus r
          end
      end
  end.

(** explanation/mus/mus.go:90-127 (ComputeDeletionBasedWithHandler). *)
Definition deletionBased (E : env) (props : list prop) : musRes :=
  if e_resume E 0 then
    let '(ids, s) := delAdd E (newSolver 1) props in
    match call E s [] with
    | (Canceled, _) => MCanceled
    | (Sat _, _) => MSatisfiable
    | (Unsat, s') => delLoop E s' [] (rev (combine props ids))
    end
  else MCanceled.
