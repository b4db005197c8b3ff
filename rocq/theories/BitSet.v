(* The bit set of the DNNF compiler (dnnf/bitset.go). *)
From Coq Require Import List NArith ZArith Lia Bool.
Import ListNotations.
Open Scope nat_scope.

(* dnnf/bitset.go:7-9 bitset: 64-bit words, modelled as binary naturals; every
   operation that could exceed 64 bits is cut with mask64.  Indices (int32,
   never negative) are modelled as naturals. *)
Definition bitset := list N.

Definition mask64 (w : N) : N := (w mod 2 ^ 64)%N.

(* the constant ^uint64(0) *)
Definition allOnes : N := N.ones 64.

(* math/bits.OnesCount64, TrailingZeros64 and Len64 - 1 = 63 - LeadingZeros64,
   given by what they compute on a 64-bit word *)
Definition bit (w : N) (k : nat) : bool := N.testbit w (N.of_nat k).
Definition onesCount (w : N) : nat := length (filter (bit w) (seq 0 64)).
Definition trailingZeros (w : N) : nat :=
  match find (bit w) (seq 0 64) with Some k => k | None => 64 end.
Definition topBit (w : N) : nat :=
  match find (bit w) (rev (seq 0 64)) with Some k => k | None => 0 end.

(* dnnf/bitset.go:11-18 newBitset *)
Definition newBitset (capacity : nat) : bitset := repeat 0%N ((capacity + 63) / 64).

(* dnnf/bitset.go:57-74 ensureSize, ensureWords *)
Definition ensureWords (b : bitset) (n : nat) : bitset := b ++ repeat 0%N (n - length b).
Definition ensureSize (b : bitset) (bits : nat) : bitset := ensureWords b ((bits + 63) / 64).

(* writing one word; None is Go's index-out-of-range panic *)
Fixpoint mapAt (f : N -> N) (i : nat) (b : bitset) : option bitset :=
  match b, i with
  | [], _ => None
  | w :: r, O => Some (f w :: r)
  | w :: r, S j => match mapAt f j r with Some r' => Some (w :: r') | None => None end
  end.

(* dnnf/bitset.go:20-27 set *)
Definition set (b : bitset) (index : nat) : option bitset :=
  let wordIndex := index / 64 in
  let bitIndex := index mod 64 in
  let b1 := if length b <=? wordIndex then ensureSize b (index + 1) else b in
  mapAt (fun w => N.lor w (mask64 (N.shiftl 1 (N.of_nat bitIndex)))) wordIndex b1.

(* dnnf/bitset.go:29-33 get *)
Definition get (b : bitset) (index : nat) : bool :=
  let wordIndex := index / 64 in
  let bitIndex := index mod 64 in
  match nth_error b wordIndex with
  | Some w => negb (N.eqb (N.land w (mask64 (N.shiftl 1 (N.of_nat bitIndex)))) 0)
  | None => false
  end.

(* dnnf/bitset.go:35-40 or: the words beyond the other's length are kept *)
Fixpoint orWords (b other : bitset) : bitset :=
  match b, other with
  | w :: r, v :: s => N.lor w v :: orWords r s
  | _, [] => b
  | [], _ :: _ => []
  end.
Definition or (b other : bitset) : bitset := orWords (ensureWords b (length other)) other.

(* dnnf/bitset.go:42-50 and: the words beyond the other's length are zeroed *)
Fixpoint and (b other : bitset) : bitset :=
  match b, other with
  | w :: r, v :: s => N.land w v :: and r s
  | _, [] => map (fun _ => 0%N) b
  | [], _ => []
  end.

(* dnnf/bitset.go:76-82 cardinality *)
Definition cardinality (b : bitset) : nat := fold_left (fun c w => c + onesCount w) b 0.

(* dnnf/bitset.go:98-103 the loop over the later words *)
Fixpoint nextWord (i : nat) (ws : bitset) : option nat :=
  match ws with
  | [] => None
  | w :: r => if N.eqb w 0 then nextWord (S i) r else Some (i * 64 + trailingZeros w)
  end.

(* dnnf/bitset.go:84-106 nextSetBit; None is -1 *)
Definition nextSetBit (b : bitset) (from : nat) : option nat :=
  let wordIndex := from / 64 in
  match nth_error b wordIndex with
  | None => None
  | Some w0 =>
    let bitIndex := from mod 64 in
    let word := N.land w0 (mask64 (N.shiftl allOnes (N.of_nat bitIndex))) in
    if negb (N.eqb word 0) then Some (wordIndex * 64 + trailingZeros word)
    else nextWord (wordIndex + 1) (skipn (wordIndex + 1) b)
  end.

(* dnnf/bitset.go:112-117 the search for the highest non-zero word; i counts down *)
Fixpoint maxBit (i : nat) (b : bitset) : nat :=
  match i with
  | O => 0
  | S j => let w := nth j b 0%N in
           if N.eqb w 0 then maxBit j b else j * 64 + topBit w
  end.

(* dnnf/bitset.go:108-123 toBoolSlice *)
Definition toBoolSlice (b : bitset) : list bool :=
  match b with
  | [] => []
  | _ => map (get b) (seq 0 (S (maxBit (length b) b)))
  end.

(* dnnf/bitset.go:125-129 clear *)
Definition clear (b : bitset) : bitset := map (fun _ => 0%N) b.

(* dnnf/bitset.go:131-135 clone: an equal, independent set (values have no
   identity in the model) *)
Definition clone (b : bitset) : bitset := b.
