(** * Model of the at-most-one encoders: encoding/amo.go

    An encoder takes the literals of the constraint and the auxiliary-variable
    counters, and returns the clauses it adds (in order) and the new counters.
    [result.AddClause] is list concatenation; [result.NewAuxVar(s)] takes the
    next number of sort [s] (encoding/result.go:36-44).  Variables are passed as
    positive literals ([f.VariablesAsLiterals], [AsLiteral]).  Indexing a slice
    out of range, which panics in Go, reads the literal [Bad]. *)

From Coq Require Import String List Bool Arith ZArith Lia.
From Verif Require Import EncSpec.
Import ListNotations.

(** formula/formula.go: [Literal.Negate]. *)
Definition neg (l : elit) : elit := (fst l, negb (snd l)).

(** Slice indexing. *)
Definition at_ (ls : list elit) (i : nat) : elit := nth i ls (Bad, true).

(** [k] calls of [result.NewAuxVar(s)]: the literals ... *)
Definition auxs (s : asort) (k : nat) (n : ctr) : list elit :=
  map (fun i => (Aux s (fresh s n + i), true)) (seq 0 k).

(** ... and the counters afterwards. *)
Definition bump (s : asort) (k : nat) (n : ctr) : ctr :=
  match s with
  | ACC => (fst n + k, snd n)
  | APB => (fst n, snd n + k)
  end.

(** Non-termination is reported by a clause with the literal [Loop], a panic by
    one with the literal [Bad]. *)
Definition diverges : list clause := [[(Loop, true)]].
Definition panics : list clause := [[(Bad, true)]].

(** encoding/amo.go:10-17 [amoPure], 75-82 [buildPure], 84-91 [buildPureLit]:
    the same double loop [i < j]. *)
Fixpoint pure (ls : list elit) : list clause :=
  match ls with
  | [] => []
  | x :: r => map (fun y => [neg x; neg y]) r ++ pure r
  end.

(** encoding/amo.go:19-36 [amoLadder]. *)
Definition ladderStep (ls us : list elit) (i : nat) : list clause :=
  if i =? 0 then [[neg (at_ ls 0); at_ us 0]]
  else if i =? length ls - 1 then [[neg (at_ ls i); neg (at_ us (i - 1))]]
  else [[neg (at_ ls i); at_ us i];
        [neg (at_ us (i - 1)); at_ us i];
        [neg (at_ ls i); neg (at_ us (i - 1))]].

Definition ladder (ls : list elit) (n : ctr) : list clause * ctr :=
  let us := auxs ACC (length ls - 1) n in
  (flat_map (ladderStep ls us) (seq 0 (length ls)), bump ACC (length ls - 1) n).

(** ceil(a / b), and ceil(sqrt n): amo.go:44-45 compute them with float64, which
    is exact for the sizes a slice can have (below 2^53). *)
Definition cdiv (a b : nat) : nat := (a + (b - 1)) / b.
Definition csqrt (n : nat) : nat := let r := Nat.sqrt n in if r * r =? n then r else S r.

(** encoding/amo.go:64-72, the loops over [i] and [j]. *)
Definition productLinks (ls us vs : list elit) (p q : nat) : list clause :=
  flat_map (fun i => flat_map (fun j =>
     let k := i * q + j in
     if k <? length ls then [[neg (at_ ls k); at_ us i]; [neg (at_ ls k); at_ vs j]] else [])
   (seq 0 q)) (seq 0 p).

(** encoding/amo.go:38-73 [amoProduct]. *)
Fixpoint product (fuel bound : nat) (ls : list elit) (n : ctr) : list clause * ctr :=
  match fuel with
  | 0 => (diverges, n)
  | S fuel' =>
    let bound := if bound =? 0 then 20 else bound in
    let m := length ls in
    let p := csqrt m in
    let q := cdiv m p in
    let us := auxs ACC p n in
    let n1 := bump ACC p n in
    let vs := auxs ACC q n1 in
    let n2 := bump ACC q n1 in
    let (c1, n3) := if p <=? bound then (pure us, n2) else product fuel' bound us n2 in
    let (c2, n4) := if q <=? bound then (pure vs, n3) else product fuel' bound vs n3 in
    (c1 ++ c2 ++ productLinks ls us vs p q, n4)
  end.

(** encoding/amo.go:93-120 [amoNested]. *)
Fixpoint nested (fuel gs : nat) (ls : list elit) (n : ctr) : list clause * ctr :=
  match fuel with
  | 0 => (diverges, n)
  | S fuel' =>
    let gs := if gs =? 0 then 4 else gs in
    if length ls <=? gs then (pure ls, n)
    else
      let h := length ls / 2 in
      let x := at_ (auxs ACC 1 n) 0 in
      let n1 := bump ACC 1 n in
      let (c1, n2) := nested fuel' gs (firstn h ls ++ [x]) n1 in
      let (c2, n3) := nested fuel' gs (skipn h ls ++ [neg x]) n2 in
      (c1 ++ c2, n3)
  end.

(** encoding/amo.go:130-146: one group of the commander encoding, closed by the
    commander variable [c]. *)
Definition commanderGroup (exact : bool) (g : list elit) (c : elit) : list clause :=
  pure g ++
  (if exact then [g ++ [c]] else []) ++
  map (fun l => [neg c; neg l]) g.

(** encoding/amo.go:131-146, the loop over [i]: [g] is [literals] (in order),
    [k] the number of literals still missing in the current group; returns the
    clauses and [nextLiterals]. *)
Fixpoint commanderPass (exact : bool) (gs : nat) (g : list elit) (ls : list elit) (n : ctr)
  : list clause * list elit * ctr :=
  match ls with
  | [] => ([], [], n)
  | x :: r =>
    let g' := g ++ [x] in
    if (length g' =? gs) || (length r =? 0) then
      let c := at_ (auxs ACC 1 n) 0 in
      let '(cs, nx, n') := commanderPass exact gs [] r (bump ACC 1 n) in
      (commanderGroup exact g' c ++ cs, neg c :: nx, n')
    else commanderPass exact gs g' r n
  end.

(** encoding/amo.go:128-152, the outer loop and the clauses after it. *)
Fixpoint commanderLoop (fuel : nat) (exact : bool) (gs : nat) (ls : list elit) (n : ctr)
  : list clause * ctr :=
  match fuel with
  | 0 => (diverges, n)
  | S fuel' =>
    if length ls <=? gs then
      (pure ls ++ (if exact && (0 <? length ls) then [ls] else []), n)
    else
      let '(cs, nx, n1) := commanderPass exact gs [] ls n in
      let (cs', n2) := commanderLoop fuel' true gs nx n1 in
      (cs ++ cs', n2)
  end.

(** encoding/amo.go:122-126 [amoCommander]. *)
Definition commander (gs : nat) (ls : list elit) (n : ctr) : list clause * ctr :=
  commanderLoop (S (length ls)) false (if gs =? 0 then 3 else gs) ls n.

(** i ^ (i >> 1) (amo.go:169,171,185,210,212,222). *)
Definition gray (i : nat) : nat := Nat.lxor i (Nat.div2 i).

(** encoding/amo.go:155-195 [amoBinary] and 202-272 [bimanderIntern],
    [initializeBits], [handleGrayCode]: both assign a gray code to each group of
    literals (amoBinary: groups of one).  The clauses of one group [g] at code
    number [i]; for a pair only the bits on which the two codes agree. *)
Definition codeLit (code : nat) (bits : list elit) (j : nat) : elit :=
  if Nat.testbit code j then at_ bits j else neg (at_ bits j).

Definition codeClauses (code : nat) (bits g : list elit) (j : nat) : list clause :=
  map (fun l => [neg l; codeLit code bits j]) g.

Definition pairCode (i nb : nat) (bits g : list elit) : list clause :=
  flat_map (fun j =>
    if Bool.eqb (Nat.testbit (gray i) j) (Nat.testbit (gray (S i)) j)
    then codeClauses (gray i) bits g j else []) (seq 0 nb).

Definition singleCode (i nb : nat) (bits g : list elit) : list clause :=
  flat_map (codeClauses (gray i) bits g) (seq 0 nb).

(** Indexing the slice of groups; out of range is a panic. *)
Definition gat (gs : list (list elit)) (i : nat) : list elit := nth i gs [(Bad, true)].

(** amo.go:165-194, 205-225: the two loops over [i]; [k = (2^nb - |groups|) * 2],
    so the first loop visits [i = 0, 2, .., k-2] with [index = i/2], the second
    [i = k, .., 2^nb - 1] with [index = k/2 + (i - k)]. *)
Definition grayCodes (groups : list (list elit)) (nb : nat) (bits : list elit) : list clause :=
  let h := 2 ^ nb - length groups in
  flat_map (fun m => pairCode (2 * m) nb bits (gat groups m)) (seq 0 h) ++
  flat_map (fun d => singleCode (2 * h + d) nb bits (gat groups (h + d))) (seq 0 (2 ^ nb - 2 * h)).

(** amo.go:157, 253: [int(math.Ceil(math.Log(n) / math.Log(2)))].  The exact
    value is [Nat.log2_up]; when [n] is a power of two float64 rounding may give
    one more.  The encoders below take the number of bits as an argument, and
    the theorems hold for every number with [n <= 2^nb <= 2 * n]. *)
Definition binary (nb : nat) (ls : list elit) (n : ctr) : list clause * ctr :=
  (grayCodes (map (fun l => [l]) ls) nb (auxs ACC nb n), bump ACC nb n).

(** amo.go:228-249 [initializeGroups]: the first group takes ceil(n/k) literals,
    the next ceil of the rest over k-1, and so on. *)
Fixpoint groups (k : nat) (ls : list elit) : list (list elit) :=
  match k with
  | 0 => []
  | S k' => let g := cdiv (length ls) k in firstn g ls :: groups k' (skipn g ls)
  end.

Definition bimanderIntern (k nb : nat) (ls : list elit) (n : ctr) : list clause * ctr :=
  let gs := groups k ls in
  (flat_map pure gs ++ grayCodes gs nb (auxs ACC nb n), bump ACC nb n).

(** encoding/config.go:59-65 [BimanderGroupSize] and amo.go:274-289
    [computeGroupSize]. *)
Inductive bimanderSize := BimanderHalf | BimanderSqrt | BimanderFixed.

Definition computeGroupSize (b : bimanderSize) (fixed m : nat) : nat :=
  match b with
  | BimanderFixed => if fixed =? 0 then 3 else fixed
  | BimanderHalf => m / 2
  | BimanderSqrt => Nat.sqrt m
  end.

(** amo.go:197-200 [amoBimander]. *)
Definition bimander (b : bimanderSize) (fixed : nat) (bitsOf : nat -> nat) (ls : list elit) (n : ctr)
  : list clause * ctr :=
  let k := computeGroupSize b fixed (length ls) in
  bimanderIntern k (bitsOf k) ls n.

(** encoding/config.go:19-30 [AMOEncoder]. *)
Inductive amoEncoder := AMOPure | AMOLadder | AMOProduct | AMONested | AMOCommander
                      | AMOBinary | AMOBimander | AMOBest.

(** The fields of encoding/config.go:80-97 [Config] the at-most-one encoders
    read.  [c_bits] is the number-of-bits computation discussed above.
    Simplification: the integer parameters are naturals; a negative one makes
    the Go code loop or panic. *)
Record amoConfig := {
  c_amo : amoEncoder;
  c_bimander : bimanderSize;
  c_fixed : nat;
  c_nesting : nat;
  c_product : nat;
  c_commander : nat;
  c_bits : nat -> nat
}.

(** encoding/cc_encoding.go:130-162 [amo], [bestAMO]. *)
Definition amo (cf : amoConfig) (ls : list elit) (n : ctr) : list clause * ctr :=
  if length ls <=? 1 then ([], n)
  else match c_amo cf with
  | AMOPure => (pure ls, n)
  | AMOLadder => ladder ls n
  | AMOProduct => product (length ls) (c_product cf) ls n
  | AMONested => nested (length ls) (c_nesting cf) ls n
  | AMOCommander => commander (c_commander cf) ls n
  | AMOBinary => binary (c_bits cf (length ls)) ls n
  | AMOBimander => bimander (c_bimander cf) (c_fixed cf) (c_bits cf) ls n
  | AMOBest => if length ls <=? 10 then (pure ls, n) else product (length ls) (c_product cf) ls n
  end.

(** encoding/cc_encoding.go:164-175 [exo]. *)
Definition exo (cf : amoConfig) (ls : list elit) (n : ctr) : list clause * ctr :=
  match ls with
  | [] => ([[]], n)
  | [l] => ([[l]], n)
  | _ => let (cs, n') := amo cf ls n in (cs ++ [ls], n')
  end.
