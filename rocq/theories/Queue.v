(* The bounded queue of the SAT solver (sat/queue.go). *)
From Coq Require Import List ZArith Lia Bool.
Import ListNotations.
Open Scope Z_scope.

(* sat/queue.go:3-10 boundedQueue.  Go ints are modelled as mathematical
   integers (values pushed are trail lengths and literal block distances). *)
Record queue := mkQueue {
  qElems : list Z;
  qFirst : nat;
  qLast : nat;
  qSum : Z;
  qMax : nat;
  qSize : nat
}.

(* a slice write; None is Go's index-out-of-range panic *)
Fixpoint setAt {A} (l : list A) (i : nat) (x : A) : option (list A) :=
  match l, i with
  | [], _ => None
  | _ :: r, O => Some (x :: r)
  | a :: r, S j => match setAt r j x with Some r' => Some (a :: r') | None => None end
  end.

(* sat/queue.go:12-14 newBoundedQueue *)
Definition newQueue : queue := mkQueue [] 0 0 0 0 0.

(* sat/queue.go:16-36 initSize, growTo.  The elements beyond the old length are
   zero in both branches for a queue whose slice was never shortened. *)
Definition growTo (q : queue) (size : nat) : queue :=
  if (size <=? length (qElems q))%nat then q
  else mkQueue (qElems q ++ repeat 0 (size - length (qElems q))) 0 0 (qSum q) size 0.

(* sat/queue.go:38-55 push *)
Definition push (q : queue) (x : Z) : option queue :=
  let step :=
    if (qSize q =? qMax q)%nat then
      match nth_error (qElems q) (qLast q) with
      | None => None
      | Some old =>
        let l := S (qLast q) in
        Some (qSum q - old, if (l =? qMax q)%nat then O else l, qSize q)
      end
    else Some (qSum q, qLast q, S (qSize q)) in
  match step with
  | None => None
  | Some (sum, last, size) =>
    match setAt (qElems q) (qFirst q) x with
    | None => None
    | Some elems =>
      let f := S (qFirst q) in
      let wrap := (f =? qMax q)%nat in
      Some (mkQueue elems (if wrap then O else f) (if wrap then O else last)
                    (sum + x) (qMax q) size)
    end
  end.

(* sat/queue.go:57-59 avg: Go's integer division truncates towards zero and
   panics for a zero divisor *)
Definition avg (q : queue) : option Z :=
  if (qSize q =? 0)%nat then None else Some (Z.quot (qSum q) (Z.of_nat (qSize q))).

(* sat/queue.go:61-63 valid *)
Definition valid (q : queue) : bool := (qSize q =? qMax q)%nat.

(* sat/queue.go:65-70 fastClear *)
Definition fastClear (q : queue) : queue :=
  mkQueue (qElems q) 0 0 0 (qMax q) 0.

(* The calls the solver makes on its queues (sat/core.go:450-490): pushes and
   clears, after one initSize (sat/core.go:188-191). *)
Inductive qop := QPush (x : Z) | QClear.

Definition qstep (q : queue) (o : qop) : option queue :=
  match o with
  | QPush x => push q x
  | QClear => Some (fastClear q)
  end.

Fixpoint qrun (q : queue) (os : list qop) : option queue :=
  match os with
  | [] => Some q
  | o :: r => match qstep q o with Some q' => qrun q' r | None => None end
  end.
