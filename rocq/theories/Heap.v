(* The variable heap of the SAT solver (sat/heap.go). *)
From Coq Require Import List ZArith Lia Bool.
From Verif Require Import Queue.
Import ListNotations.
Open Scope nat_scope.

(* sat/heap.go:9-13 lngheap: the heap array and, for each variable, its
   position in the heap or -1.  Variables (int32) are modelled as naturals.
   The solver the heap refers to is passed as the comparison `lt`
   (sat/core.go:232-234: x comes before y iff its activity is larger). *)
Record heap := mkHeap { hp : list nat; ix : list Z }.

(* sat/heap.go:15-21 newLngHeap *)
Definition newHeap : heap := mkHeap [] [].

(* sat/heap.go:23-33 left, right, parent *)
Definition left (p : nat) := p * 2 + 1.
Definition right (p : nat) := (p + 1) * 2.
Definition parent (p : nat) := Nat.div2 (p - 1).

(* sat/heap.go:43-45 inHeap *)
Definition inHeap (h : heap) (n : nat) : bool :=
  match nth_error (ix h) n with Some i => (0 <=? i)%Z | None => false end.

(* sat/heap.go:39-41 isEmpty *)
Definition isEmpty (h : heap) : bool := match hp h with [] => true | _ => false end.

(* a write to an index position, heap position *)
Definition setIx (h : heap) (v : nat) (i : Z) : option heap :=
  match setAt (ix h) v i with Some l => Some (mkHeap (hp h) l) | None => None end.
Definition setHp (h : heap) (i : nat) (v : nat) : option heap :=
  match setAt (hp h) i v with Some l => Some (mkHeap l (ix h)) | None => None end.

(* the two writes "h.heap[i] = v; h.indices[v] = i" *)
Definition place (h : heap) (i v : nat) : option heap :=
  match setHp h i v with Some h1 => setIx h1 v (Z.of_nat i) | None => None end.

(* sat/heap.go:114-128 percolateUp: the loop with x = heap[pos] and j the current
   position; `fuel` bounds the iterations (None when it runs out). *)
Fixpoint upLoop (fuel : nat) (lt : nat -> nat -> bool) (x j : nat) (h : heap) : option heap :=
  match fuel with
  | O => None
  | S f =>
    if j =? 0 then place h j x
    else match nth_error (hp h) (parent j) with
         | None => None
         | Some y =>
           if lt x y then
             match place h j y with Some h' => upLoop f lt x (parent j) h' | None => None end
           else place h j x
         end
  end.

Definition percolateUp (lt : nat -> nat -> bool) (pos : nat) (h : heap) : option heap :=
  match nth_error (hp h) pos with
  | None => None
  | Some x => upLoop (S pos) lt x pos h
  end.

(* sat/heap.go:130-150 percolateDown: the loop with y = heap[pos] *)
Fixpoint downLoop (fuel : nat) (lt : nat -> nat -> bool) (y p : nat) (h : heap) : option heap :=
  match fuel with
  | O => None
  | S f =>
    if left p <? length (hp h) then
      match nth_error (hp h) (left p) with
      | None => None
      | Some l =>
        let cv := match nth_error (hp h) (right p) with
                  | Some r => if lt r l then (right p, r) else (left p, l)
                  | None => (left p, l)
                  end in
        if lt (snd cv) y then
          match place h p (snd cv) with Some h' => downLoop f lt y (fst cv) h' | None => None end
        else place h p y
      end
    else place h p y
  end.

Definition percolateDown (lt : nat -> nat -> bool) (pos : nat) (h : heap) : option heap :=
  match nth_error (hp h) pos with
  | None => None
  | Some y => downLoop (S (length (hp h))) lt y pos h
  end.

(* sat/heap.go:51-53 decrease *)
Definition decrease (lt : nat -> nat -> bool) (n : nat) (h : heap) : option heap :=
  match nth_error (ix h) n with
  | Some i => if (0 <=? i)%Z then percolateUp lt (Z.to_nat i) h else None
  | None => None
  end.

(* sat/heap.go:165-175 growTo *)
Definition growIx (h : heap) (size : nat) : heap :=
  mkHeap (hp h) (ix h ++ repeat (-1)%Z (size - length (ix h))).

(* sat/heap.go:55-60 insert *)
Definition insert (lt : nat -> nat -> bool) (n : nat) (h : heap) : option heap :=
  let h1 := growIx h (n + 1) in
  match setIx h1 n (Z.of_nat (length (hp h1))) with
  | None => None
  | Some h2 =>
    let h3 := mkHeap (hp h2 ++ [n]) (ix h2) in
    decrease lt n h3
  end.

(* sat/heap.go:62-72 removeMin *)
Definition removeMin (lt : nat -> nat -> bool) (h : heap) : option (nat * heap) :=
  match hp h with
  | [] => None
  | x :: _ =>
    let lst := last (hp h) 0 in
    match place h 0 lst with
    | None => None
    | Some h1 =>
      match setIx h1 x (-1) with
      | None => None
      | Some h2 =>
        let h3 := mkHeap (removelast (hp h2)) (ix h2) in
        if 1 <? length (hp h3)
        then match percolateDown lt 0 h3 with Some h4 => Some (x, h4) | None => None end
        else Some (x, h3)
      end
    end
  end.

(* sat/heap.go:74-85 remove; a position -1 is Go's index-out-of-range panic
   (or the silent loss of the last element when the heap is empty or has one
   element: modelled as the panic it is in the first case; callers never
   remove a variable that is not in the heap) *)
Definition remove (lt : nat -> nat -> bool) (n : nat) (h : heap) : option heap :=
  match nth_error (ix h) n with
  | None => None
  | Some k =>
    if (k <? 0)%Z then None
    else
      let kPos := Z.to_nat k in
      match setIx h n (-1) with
      | None => None
      | Some h1 =>
        if kPos <? length (hp h1) - 1 then
          match place h1 kPos (last (hp h1) 0) with
          | None => None
          | Some h2 => percolateDown lt kPos (mkHeap (removelast (hp h2)) (ix h2))
          end
        else Some (mkHeap (removelast (hp h1)) (ix h1))
      end
  end.

(* sat/heap.go:107-112 clear; also the first part of build (87-91) *)
Fixpoint unindex (vs : list nat) (h : heap) : option heap :=
  match vs with
  | [] => Some h
  | v :: r => match setIx h v (-1) with Some h' => unindex r h' | None => None end
  end.

Definition clear (h : heap) : option heap :=
  match unindex (hp h) h with Some h' => Some (mkHeap [] (ix h')) | None => None end.

(* sat/heap.go:92-95 the second part of build *)
Fixpoint appendAll (ns : list nat) (h : heap) : option heap :=
  match ns with
  | [] => Some h
  | n :: r =>
    match setIx h n (Z.of_nat (length (hp h))) with
    | Some h' => appendAll r (mkHeap (hp h' ++ [n]) (ix h'))
    | None => None
    end
  end.

(* sat/heap.go:96-98 for i := len/2-1; i >= 0; i-- percolateDown(i) *)
Fixpoint downFrom (lt : nat -> nat -> bool) (k : nat) (h : heap) : option heap :=
  match k with
  | O => Some h
  | S i => match percolateDown lt i h with Some h' => downFrom lt i h' | None => None end
  end.

(* sat/heap.go:87-99 build *)
Definition build (lt : nat -> nat -> bool) (ns : list nat) (h : heap) : option heap :=
  match clear h with
  | None => None
  | Some h1 =>
    match appendAll ns h1 with
    | None => None
    | Some h2 => downFrom lt (Nat.div2 (length (hp h2))) h2
    end
  end.

(* sat/core.go:682-694 varBumpActivityWithInc, the heap part: after the activities
   changed, the bumped variable is moved up if it is in the heap *)
Definition bump (lt : nat -> nat -> bool) (v : nat) (h : heap) : option heap :=
  if inHeap h v then decrease lt v h else Some h.

(* sat/core.go:232-234 lt, over an activity function; activities (float64, never
   NaN) are only compared, so they are modelled by integers in the same order *)
Definition actLt (act : nat -> Z) (x y : nat) : bool := (act y <? act x)%Z.
