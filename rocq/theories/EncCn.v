(** * Model of the cardinality network encoders

    encoding/cc_cardinality_network.go.  Conventions as in EncAmo.v.  All
    [output] slices are empty when they are passed down, so [clear] on them
    has no effect and is left out; where [clear] does matter, in
    [directSorter], it is modelled. *)

From Coq Require Import String List Bool Arith ZArith Lia.
From Verif Require Import EncSpec EncAmo EncCc.
Import ListNotations.

(** cc_cardinality_network.go:98-104. *)
Inductive dir := InOut | OutIn | BothDir.

Definition fwd (d : dir) : bool := match d with OutIn => false | _ => true end.
Definition bwd (d : dir) : bool := match d with InOut => false | _ => true end.

(** cc_cardinality_network.go:160-168 [comparator3]. *)
Definition comparator3 (x1 x2 y : elit) (d : dir) : list clause :=
  (if fwd d then [[neg x1; y]; [neg x2; y]] else []) ++
  (if bwd d then [[neg y; x1; x2]] else []).

(** cc_cardinality_network.go:170-181 [comparator4]. *)
Definition comparator4 (x1 x2 y1 y2 : elit) (d : dir) : list clause :=
  (if fwd d then [[neg x1; y1]; [neg x2; y1]; [neg x1; neg x2; y2]] else []) ++
  (if bwd d then [[neg y1; x1; x2]; [neg y2; x1]; [neg y2; x2]] else []).

(** cc_cardinality_network.go:316-327: elements at even and at odd indices
    (0-based), called odd and even in the code. *)
Fixpoint odds (l : list elit) : list elit :=
  match l with [] => [] | x :: r => x :: evens r end
with evens (l : list elit) : list elit :=
  match l with [] => [] | _ :: r => odds r end.

(** cc_cardinality_network.go:333-366: the loop of [recursiveMerger].  [od] is
    [oddMerge[i:]], [ev] is [evenMerge[j:]], [len] is the length of the output; returns
    the clauses and the literals appended to the output. *)
Fixpoint mergeLoop (d : dir) (c len : nat) (od ev : list elit) (n : ctr)
  : list clause * list elit * ctr :=
  match od, ev with
  | x :: od', y :: ev' =>
    if len + 2 <=? c then
      let z := auxs ACC 2 n in
      let n' := bump ACC 2 n in
      if len + 2 =? c then (comparator4 x y (at_ z 0) (at_ z 1) d, z, n')
      else
        let '(cs, out, n'') := mergeLoop d c (len + 2) od' ev' n' in
        (comparator4 x y (at_ z 0) (at_ z 1) d ++ cs, z ++ out, n'')
    else if len + 1 =? c then
      let z := auxs ACC 1 n in
      (comparator3 x y (at_ z 0) d, z, bump ACC 1 n)
    else mergeLoop d c len od' ev' n
  | [], [] => ([], [], n)
  | [], _ => ([], [at_ ev (length ev - 1)], n)
  | _, [] => ([], [at_ od (length od - 1)], n)
  end.

(** cc_cardinality_network.go:265-287 [merge] and 289-368 [recursiveMerger].
    From [recursiveSorter] it is called with a direction other than
    [inputToOutput] (117-158), so the branch to [directMerger] (286) is not taken;
    the calls with [inputToOutput] from the binary merge encoding are modelled
    by [mergeFwd] in EncPbc.v. *)
Fixpoint merge (fuel m : nat) (A B : list elit) (d : dir) (n : ctr)
  : list clause * list elit * ctr :=
  match fuel with
  | 0 => (diverges, [], n)
  | S fuel' =>
    if m =? 0 then ([], [], n)
    else
      let c := Nat.min m (length A + length B) in
      if (length A =? 0) || (length B =? 0) then
        ([], (if length A =? 0 then B else A), n)
      else
        let a2 := Nat.min (length A) c in
        let b2 := Nat.min (length B) c in
        if c =? 1 then
          let y := auxs ACC 1 n in
          (comparator3 (at_ A 0) (at_ B 0) (at_ y 0) d, y, bump ACC 1 n)
        else if (a2 =? 1) && (b2 =? 1) then
          let y := auxs ACC 2 n in
          (comparator4 (at_ A 0) (at_ B 0) (at_ y 0) (at_ y 1) d, y, bump ACC 2 n)
        else
          let '(c1, od, n1) :=
            merge fuel' (c / 2 + 1) (odds (firstn a2 A)) (odds (firstn b2 B)) d n in
          let '(c2, ev, n2) :=
            merge fuel' (c / 2) (evens (firstn a2 A)) (evens (firstn b2 B)) d n1 in
          let '(c3, out, n3) := mergeLoop d c 1 (tl od) ev n2 in
          (c1 ++ c2 ++ c3, at_ od 0 :: out, n3)
  end.

(** cc_cardinality_network.go:204-213: the variables of [counterSorter], row by
    row; row [j] has entries for the inputs [j], ..., [nn - 1]. *)
Fixpoint counterRows (nn j k : nat) (n : ctr) : list (list elit) * ctr :=
  match k with
  | 0 => ([], n)
  | S k' =>
    let (rows, n') := counterRows nn (S j) k' (bump ACC (nn - j) n) in
    (auxs ACC (nn - j) n :: rows, n')
  end.

(** [auxVars[i][j]]; below the diagonal the matrix holds Go's zero value. *)
Definition cell (rows : list (list elit)) (i j : nat) : elit :=
  if i <? j then (Zero, true) else at_ (nth j rows []) (i - j).

(** cc_cardinality_network.go:202-235 [counterSorter]. *)
Definition counterSorter (k : nat) (x : list elit) (d : dir) (n : ctr)
  : list clause * list elit * ctr :=
  let nn := length x in
  let (rows, n') := counterRows nn 0 k n in
  ((if fwd d then
      flat_map (fun i =>
        [neg (at_ x i); cell rows i 0] ::
        (if 0 <? i then [[neg (cell rows (i - 1) 0); cell rows i 0]] else [])) (seq 0 nn) ++
      flat_map (fun j => flat_map (fun i =>
        [neg (at_ x i); neg (cell rows (i - 1) (j - 1)); cell rows i j] ::
        (if j <? i then [[neg (cell rows (i - 1) j); cell rows i j]] else [])) (seq j (nn - j)))
        (seq 1 (k - 1))
    else []),
   map (fun i => cell rows (nn - 1) i) (seq 0 k), n').

(** cc_cardinality_network.go:248-258: the input literals selected by a bit mask, negated;
    the inner loop stops at the literal number [m + 1]. *)
Definition selected (mask : nat) (input : list elit) : list elit :=
  map neg (map (at_ input) (filter (Nat.testbit mask) (seq 0 (length input)))).

(** cc_cardinality_network.go:246-262: the loop over the masks.  [clear] sets
    the literals of the clause to the zero value but keeps the length of the
    slice, so each clause starts with the [z] zero literals left over. *)
Fixpoint directLoop (m : nat) (input out : list elit) (masks : list nat) (z : nat) : list clause :=
  match masks with
  | [] => []
  | mask :: rest =>
    let sel := selected mask input in
    if length sel <=? m then
      let cl := repeat (Zero, true) z ++ sel ++ [at_ out (length sel - 1)] in
      cl :: directLoop m input out rest (length cl)
    else directLoop m input out rest (z + m)
  end.

(** cc_cardinality_network.go:237-263 [directSorter]. *)
Definition directSorter (m : nat) (input : list elit) (n : ctr) : list clause * list elit * ctr :=
  let out := auxs ACC m n in
  (directLoop m input out (seq 1 (2 ^ length input - 1)) 0, out, bump ACC m n).

(** cc_cardinality_network.go:106-115: is the counter smaller?  The products are
    machine integers in Go and do not overflow for slices that fit in memory. *)
Definition counterValue (m n : Z) : Z :=
  (2 * n + (m - 1) * (2 * (n - 1) - 1) - (m - 2) - 2 * ((m - 1) * (m - 2) / 2))%Z.
Definition useCounter (m n : nat) : bool :=
  (30 <? n) || (counterValue (Z.of_nat m) (Z.of_nat n) <? 2 ^ Z.of_nat n - 1)%Z.

(** cc_cardinality_network.go:117-158 [sort] and 183-200 [recursiveSorter]. *)
Fixpoint sorter (fuel m : nat) (input : list elit) (d : dir) (n : ctr)
  : list clause * list elit * ctr :=
  match fuel with
  | 0 => (diverges, [], n)
  | S fuel' =>
    let nn := length input in
    let m2 := Nat.min m nn in
    if m =? 0 then ([], [], n)
    else if nn =? 0 then ([], [], n)
    else if nn =? 1 then ([], [at_ input 0], n)
    else if nn =? 2 then
      if m2 =? 2 then
        let o := auxs ACC 2 n in
        (comparator4 (at_ input 0) (at_ input 1) (at_ o 0) (at_ o 1) d, o, bump ACC 2 n)
      else
        let o := auxs ACC 1 n in
        (comparator3 (at_ input 0) (at_ input 1) (at_ o 0) d, o, bump ACC 1 n)
    else if bwd d then
      let l := nn / 2 in
      let '(c1, o1, n1) := sorter fuel' m2 (firstn l input) d n in
      let '(c2, o2, n2) := sorter fuel' m2 (skipn l input) d n1 in
      let '(c3, out, n3) := merge (length o1 + length o2) m2 o1 o2 d n2 in
      (c1 ++ c2 ++ c3, out, n3)
    else if useCounter m2 nn then counterSorter m2 input d n
    else directSorter m2 input n
  end.

Definition sort (m : nat) (input : list elit) (d : dir) (n : ctr) : list clause * list elit * ctr :=
  sorter (S (length input)) m input d n.
