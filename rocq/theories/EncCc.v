(** * Model of the at-most-k, at-least-k and exactly-k encoders

    encoding/cc_totalizer.go, cc_modular_totalizer.go,
    cc_cardinality_network.go, cc_encoding.go, cc_incremental_data.go.
    Conventions as in EncAmo.v. *)

From Coq Require Import String List Bool Arith ZArith Lia.
From Verif Require Import EncSpec EncAmo.
Import ListNotations.

(** ** The totalizer: cc_totalizer.go *)

(** cc_totalizer.go:5-11. *)
Inductive bound := BLower | BUpper | BBoth.

Definition isUpper (b : bound) : bool := match b with BLower => false | _ => true end.
Definition isLower (b : bound) : bool := match b with BUpper => false | _ => true end.

(** cc_totalizer.go:71-87, one half of the loop: a half of size one takes the
    last of the remaining input literals, a larger one gets auxiliary
    variables.  Returns the half, the remaining inputs and the counters. *)
Definition half (k : nat) (inv : list elit) (n : ctr) : list elit * list elit * ctr :=
  if k =? 1 then ([at_ inv (length inv - 1)], removelast inv, n)
  else (auxs ACC k n, inv, bump ACC k n).

(** cc_totalizer.go:102-121 [adderAMK]. *)
Definition adderAMK (lft rgt out : list elit) (rhs : nat) : list clause :=
  flat_map (fun i => flat_map (fun j =>
    if (i =? 0) && (j =? 0) then []
    else if rhs + 1 <? i + j then []
    else if i =? 0 then [[neg (at_ rgt (j - 1)); at_ out (j - 1)]]
    else if j =? 0 then [[neg (at_ lft (i - 1)); at_ out (i - 1)]]
    else [[neg (at_ lft (i - 1)); neg (at_ rgt (j - 1)); at_ out (i + j - 1)]])
   (seq 0 (S (length rgt)))) (seq 0 (S (length lft))).

(** cc_totalizer.go:123-139 [adderALK]. *)
Definition adderALK (lft rgt out : list elit) : list clause :=
  flat_map (fun i => flat_map (fun j =>
    if (i =? 0) && (j =? 0) then []
    else if i =? 0 then [[at_ rgt (j - 1); neg (at_ out (length lft + j - 1))]]
    else if j =? 0 then [[at_ lft (i - 1); neg (at_ out (length rgt + i - 1))]]
    else [[at_ lft (i - 1); at_ rgt (j - 1); neg (at_ out (i + j - 2))]])
   (seq 0 (S (length rgt)))) (seq 0 (S (length lft))).

(** cc_totalizer.go:67-100 [toCNF]: returns the clauses, the remaining inputs
    ([*tv.invars], shared by the recursive calls) and the counters. *)
Fixpoint toCNF (fuel : nat) (out inv : list elit) (rhs : nat) (b : bound) (n : ctr)
  : list clause * list elit * ctr :=
  match fuel with
  | 0 => (diverges, inv, n)
  | S fuel' =>
    let split := length out / 2 in
    let '(lft, inv1, n1) := half split inv n in
    let '(rgt, inv2, n2) := half (length out - split) inv1 n1 in
    let adders := (if isUpper b then adderAMK lft rgt out rhs else []) ++
                  (if isLower b then adderALK lft rgt out else []) in
    let '(c1, inv3, n3) :=
      if 1 <? length lft then toCNF fuel' lft inv2 rhs b n2 else ([], inv2, n2) in
    let '(c2, inv4, n4) :=
      if 1 <? length rgt then toCNF fuel' rgt inv3 rhs b n3 else ([], inv3, n3) in
    (adders ++ c1 ++ c2, inv4, n4)
  end.

(** cc_totalizer.go:57-65 [initializeConstraint] followed by [toCNF]: clauses,
    output literals, counters. *)
Definition totalizer (ls : list elit) (rhs : nat) (b : bound) (n : ctr) : list clause * list elit * ctr :=
  let out := auxs ACC (length ls) n in
  let '(cs, _, n') := toCNF (length ls) out ls rhs b (bump ACC (length ls) n) in
  (cs, out, n').

(** cc_totalizer.go:16-18 (and cc_incremental_data.go:71-74): the bound on the
    outputs; 32-34 (and 111-114) from below. *)
Definition totUpper (out : list elit) (r : nat) : list clause :=
  map (fun i => [neg (at_ out i)]) (seq r (length out - r)).
Definition totLower (out : list elit) (r : nat) : list clause :=
  map (fun i => [at_ out i]) (seq 0 r).

(** ** The modular totalizer: cc_modular_totalizer.go *)

Definition h0 : elit := (Undef, true).
Definition errL : elit := (Err, true).

Definition isH0 (l : elit) : bool := match fst l with Undef => true | _ => false end.
(** [x != varUndef && x != varError]. *)
Definition real (l : elit) : bool := match fst l with Undef | Err => false | _ => true end.

(** cc_modular_totalizer.go:170-226 [finalAdder]; [R] is
    [state.currentCardinalityRhs]. *)
Definition finalAdder (md R : nat) (upper lupper rupper : list elit) (carry : elit) : list clause :=
  flat_map (fun i => flat_map (fun j =>
    let closeMod := R / md + (if R mod md =? 0 then 0 else 1) in
    if closeMod * md <? md * (i + j) then []
    else
      let a := if i =? 0 then errL else at_ lupper (i - 1) in
      let b := if j =? 0 then errL else at_ rupper (j - 1) in
      let c := if negb (i + j =? 0) && (i + j - 1 <? length upper) then at_ upper (i + j - 1) else errL in
      let d := if i + j <? length upper then at_ upper (i + j) else errL in
      let na := if real a then [neg a] else [] in
      let nb := if real b then [neg b] else [] in
      (if real c then
         (if 1 <? length (na ++ nb ++ [c]) then [na ++ nb ++ [c]] else []) else []) ++
      (let cl := [neg carry] ++ na ++ nb ++ (if real d then [d] else []) in
       if 1 <? length cl then [cl] else []))
   (seq 0 (S (length rupper)))) (seq 0 (S (length lupper))).

(** cc_modular_totalizer.go:127-168 [adder].  In the recursion the caller passes
    its right half as [l*] and its left half as [r*]. *)
Definition mtAdder (md R : nat) (upper lower lupper llower rupper rlower : list elit) (n : ctr)
  : list clause * ctr :=
  let isReal := negb (isH0 (at_ upper 0)) in
  let carry := if isReal then at_ (auxs ACC 1 n) 0 else h0 in
  let n' := if isReal then bump ACC 1 n else n in
  let tail := if isReal then [carry] else [] in
  (flat_map (fun i => flat_map (fun j =>
     if (R + 1 <? i + j) && (R + 1 <? md) then []
     else if i + j <? md then
       if (i =? 0) && negb (j =? 0) then [[neg (at_ rlower (j - 1)); at_ lower (i + j - 1)] ++ tail]
       else if (j =? 0) && negb (i =? 0) then [[neg (at_ llower (i - 1)); at_ lower (i + j - 1)] ++ tail]
       else if negb (i =? 0) then
         [[neg (at_ llower (i - 1)); neg (at_ rlower (j - 1)); at_ lower (i + j - 1)] ++ tail]
       else []
     else if md <? i + j then
       [[neg (at_ llower (i - 1)); neg (at_ rlower (j - 1)); at_ lower ((i + j) mod md - 1)]]
     else [[neg (at_ llower (i - 1)); neg (at_ rlower (j - 1)); carry]])
    (seq 0 (S (length rlower)))) (seq 0 (S (length llower)))
   ++ (if isReal then finalAdder md R upper lupper rupper carry else []), n').

(** cc_modular_totalizer.go:75-91 and 92-106: the variables of one half with
    [k] inputs; [leaf] is the upper part of a half with one input. *)
Definition mtHalf (md k : nat) (leaf inl : list elit) (n : ctr)
  : list elit * list elit * list elit * ctr :=
  if k =? 1 then (leaf, [at_ inl (length inl - 1)], removelast inl, n)
  else
    let u := k / md in
    let limit := if (u mod md =? 0) && (k <? md - 1) then k else md - 1 in
    (auxs ACC u n, auxs ACC limit (bump ACC u n), inl, bump ACC limit (bump ACC u n)).

(** cc_modular_totalizer.go:108-113. *)
Definition orH0 (u : list elit) : list elit := match u with [] => [h0] | _ => u end.

(** cc_modular_totalizer.go:67-125 [mtToCNF]; [m] is its parameter [rhs], the
    number of inputs of the node. *)
Fixpoint mtToCNF (fuel md R : nat) (ub lw : list elit) (m : nat) (inl : list elit) (n : ctr)
  : list clause * list elit * ctr :=
  match fuel with
  | 0 => (diverges, inl, n)
  | S fuel' =>
    let split := m / 2 in
    let '(lupper, llower, inl1, n1) := mtHalf md split [h0; h0] inl n in
    let '(rupper, rlower, inl2, n2) := mtHalf md (m - split) [h0] inl1 n1 in
    let lupper := orH0 lupper in
    let rupper := orH0 rupper in
    let (ca, n3) := mtAdder md R ub lw rupper rlower lupper llower n2 in
    let '(c1, inl3, n4) :=
      if 1 <? split then mtToCNF fuel' md R lupper llower split inl2 n3 else ([], inl2, n3) in
    let '(c2, inl4, n5) :=
      if 1 <? m - split then mtToCNF fuel' md R rupper rlower (m - split) inl3 n4 else ([], inl3, n4) in
    (ca ++ c1 ++ c2, inl4, n5)
  end.

(** cc_modular_totalizer.go:49-65 [initialize] followed by [mtToCNF]: clauses,
    the two output vectors, the modulus and the counters.  [rhs >= 1] here; for
    [rhs = -1] the Go code divides by zero, see [amk] below. *)
Definition modTotalizer (ls : list elit) (rhs : nat) (n : ctr)
  : list clause * list elit * list elit * nat * ctr :=
  let md := csqrt (rhs + 1) in
  let up := auxs ACC (length ls / md) n in
  let n1 := bump ACC (length ls / md) n in
  let lw := auxs ACC (md - 1) n1 in
  let n2 := bump ACC (md - 1) n1 in
  let up := orH0 up in
  let '(cs, _, n3) := mtToCNF (length ls) md (rhs + 1) up lw (length ls) ls n2 in
  (cs, up, lw, md, n3).

(** cc_modular_totalizer.go:228-250 [encodeOutput], cc_incremental_data.go:51-70
    and 117-138. *)
Definition modUpper (up lw : list elit) (md r : nat) : list clause :=
  let ulimit := (r + 1) / md in
  let llimit := (r + 1) - ulimit * md in
  map (fun i => [neg (at_ up i)]) (seq ulimit (length up - ulimit)) ++
  (if negb (ulimit =? 0) && negb (llimit =? 0) then
     map (fun i => [neg (at_ up (ulimit - 1)); neg (at_ lw i)]) (seq (llimit - 1) (length lw - (llimit - 1)))
   else if ulimit =? 0 then
     map (fun i => [neg (at_ lw i)]) (seq (llimit - 1) (length lw - (llimit - 1)))
   else [[neg (at_ up (ulimit - 1))]]).
