(** * Model of the pseudo-Boolean encoders

    encoding/normalize.go, pbc_encoding.go, pbc_swc.go, pbc_adder.go,
    pbc_binary_merge.go.  Conventions as in EncAmo.v.  Integers are unbounded:
    no sum of coefficients is assumed to overflow a Go int. *)

From Coq Require Import String List Bool Arith ZArith Lia.
From Verif Require Import Spec EncSpec EncAmo EncCc EncCn EncApi.
Import ListNotations.

(** encoding/config.go:60-68. *)
Inductive pbcEncoder := PBCSWC | PBCBinaryMerge | PBCAdderNetworks | PBCBest.

(** encoding/config.go:80-97.  [c_log] is the function
    [math.Floor(math.Log(w) / math.Log(2))] of pbc_binary_merge.go:80, [c_single]
    the test of pbc_binary_merge.go:26-28 for a single bit; both are computed
    with floats and left open here. *)
Record pbcConfig := {
  c_cc : ccConfig;
  c_pbc : pbcEncoder;
  c_gac : bool;
  c_nosupport : bool;
  c_watchdog : bool;
  c_log : Z -> nat;
  c_single : Z -> bool
}.

(** ** Sequential weight counter *)

(** pbc_swc.go:7-36 [encodePBCSWC].  [v i j] is [seqAuxiliary[i][j]]. *)
Definition encodePBCSWC (ls : list elit) (cs : list Z) (rhs : Z) (n : ctr) : list clause * ctr :=
  let k := length ls in
  let r := Z.to_nat rhs in
  let xs := auxs APB (k * r) n in
  let v i j := at_ xs ((i - 1) * r + (j - 1)) in
  (flat_map (fun i =>
     let w := Z.to_nat (nth (i - 1) cs 0%Z) in
     let l := at_ ls (i - 1) in
     flat_map (fun j =>
       (if 2 <=? i then [[neg (v (i - 1) j); v i j]] else []) ++
       (if j <=? w then [[neg l; v i j]] else []) ++
       (if (2 <=? i) && (j + w <=? r) then [[neg (v (i - 1) j); neg l; v i (j + w)]] else []))
       (seq 1 r) ++
     (if 2 <=? i then [[neg (v (i - 1) (r + 1 - w)); neg l]] else []))
     (seq 1 k), bump APB (k * r) n).

(** ** Adder networks *)

(** pbc_adder.go:31-39 [ldInt]. *)
Definition ldInt (x : Z) : nat :=
  fold_left (fun acc i => if Z.testbit x (Z.of_nat i) then i + 1 else acc) (seq 0 31) 0.

(** pbc_adder.go:73-86 [faSum]. *)
Definition faSum (a b c x : elit) : list clause :=
  [[a; b; c; neg x]; [a; neg b; neg c; neg x]; [neg a; b; neg c; neg x]; [neg a; neg b; c; neg x];
   [neg a; neg b; neg c; x]; [neg a; b; c; x]; [a; neg b; c; x]; [a; b; neg c; x]].

(** pbc_adder.go:88-98 [faCarry]. *)
Definition faCarry (a b c x : elit) : list clause :=
  [[b; c; neg x]; [a; c; neg x]; [a; b; neg x]; [neg b; neg c; x]; [neg a; neg c; x]; [neg a; neg b; x]].

(** pbc_adder.go:100-108 [faExtra]. *)
Definition faExtra (xc xs a b c : elit) : list clause :=
  [[neg xc; neg xs; a]; [neg xc; neg xs; b]; [neg xc; neg xs; c];
   [xc; xs; neg a]; [xc; xs; neg b]; [xc; xs; neg c]].

(** pbc_adder.go:110-118 [haSum]. *)
Definition haSum (a b x : elit) : list clause :=
  [[neg a; neg b; neg x]; [a; b; neg x]; [neg a; b; x]; [a; neg b; x]].

(** pbc_adder.go:120-127 [haCarry]. *)
Definition haCarry (a b x : elit) : list clause :=
  [[a; neg x]; [b; neg x]; [neg a; neg b; x]].

(** pbc_adder.go:51-69: reduce one bucket to a single literal; the carries go to
    the next bucket.  Returns clauses, the literal, the carries. *)
Fixpoint reduceBucket (fuel : nat) (b : list elit) (n : ctr) : list clause * elit * list elit * ctr :=
  match fuel with
  | 0 => (diverges, (Bad, true), [], n)
  | S fuel' =>
    match b with
    | [] => (panics, (Bad, true), [], n)
    | [x] => ([], x, [], n)
    | [x; y] =>
      let s := at_ (auxs APB 1 n) 0 in
      let n1 := bump APB 1 n in
      let c := at_ (auxs APB 1 n1) 0 in
      (haSum x y s ++ haCarry x y c, s, [c], bump APB 1 n1)
    | x :: y :: z :: r =>
      let s := at_ (auxs APB 1 n) 0 in
      let n1 := bump APB 1 n in
      let c := at_ (auxs APB 1 n1) 0 in
      let '(cs, o, carries, n2) := reduceBucket fuel' (r ++ [s]) (bump APB 1 n1) in
      (faSum x y z s ++ faCarry x y z c ++ faExtra c s x y z ++ cs, o, c :: carries, n2)
    end
  end.

(** Append to the first bucket. *)
Definition addToFirst (carries : list elit) (bs : list (list elit)) : list (list elit) :=
  match bs with [] => [] | b :: r => (b ++ carries) :: r end.

(** pbc_adder.go:41-71 [adderTree]; [None] is [nullLit]. *)
Fixpoint adderTree (fuel : nat) (bs : list (list elit)) (n : ctr)
  : list clause * list (option elit) * ctr :=
  match fuel with
  | 0 => (diverges, [], n)
  | S fuel' =>
    match bs with
    | [] => ([], [], n)
    | [] :: r =>
      let '(cs, out, n') := adderTree fuel' r n in (cs, None :: out, n')
    | b :: r =>
      let r1 := match r with [] => if 2 <=? length b then [[]] else [] | _ => r end in
      let '(c1, x, carries, n1) := reduceBucket (length b) b n in
      let '(c2, out, n2) := adderTree fuel' (addToFirst carries r1) n1 in
      (c1 ++ c2, Some x :: out, n2)
    end
  end.

(** pbc_adder.go:129-142 [numToBits], least significant bit first. *)
Fixpoint numToBits (n : nat) (num : Z) : list bool :=
  match n with
  | 0 => []
  | S i =>
    let tmp := (2 ^ Z.of_nat i)%Z in
    if (num <? tmp)%Z then numToBits i num ++ [false] else numToBits i (num - tmp)%Z ++ [true]
  end.

(** pbc_adder.go:152-170: the part of a clause for the higher bits; [None] is [skip]. *)
Fixpoint higherBits (xs : list (option elit)) (ys : list bool) : option clause :=
  match xs, ys with
  | x :: xs', y :: ys' =>
    match y, x with
    | true, None => None
    | true, Some l => option_map (cons (neg l)) (higherBits xs' ys')
    | false, None => higherBits xs' ys'
    | false, Some l => option_map (cons l) (higherBits xs' ys')
    end
  | _, _ => Some []
  end.

(** pbc_adder.go:144-174 [lessThanOrEqual]. *)
Fixpoint lessThanOrEqual (xs : list (option elit)) (ys : list bool) : list clause :=
  match xs, ys with
  | x :: xs', y :: ys' =>
    match y, x with
    | false, Some l =>
      match higherBits xs' ys' with Some c => [c ++ [neg l]] | None => [] end
    | _, _ => []
    end ++ lessThanOrEqual xs' ys'
  | _, _ => []
  end.

(** The literals whose coefficient has bit [i]. *)
Definition bitBucket (i : nat) (ls : list elit) (cs : list Z) : list elit :=
  map fst (filter (fun p => Z.testbit (snd p) (Z.of_nat i)) (combine ls cs)).

(** pbc_adder.go:11-29 [encodePBCAdder]. *)
Definition encodePBCAdder (ls : list elit) (cs : list Z) (rhs : Z) (n : ctr) : list clause * ctr :=
  let nb := ldInt rhs in
  let buckets := map (fun i => bitBucket i ls cs) (seq 0 nb) in
  let '(c1, out, n') := adderTree (length (concat buckets) + nb + 1) buckets n in
  (c1 ++ lessThanOrEqual out (numToBits (length out) rhs), n').

(** ** Binary merge *)

(** pbc_binary_merge.go:190-217 [unaryAdder]. *)
Definition unaryAdder (u v : list elit) (n : ctr) : list clause * list elit * ctr :=
  if length u =? 0 then ([], v, n)
  else if length v =? 0 then ([], u, n)
  else
    let k := length u + length v in
    let w := auxs APB k n in
    (flat_map (fun a => map (fun b => [neg (at_ u a); neg (at_ v b); at_ w (a + b + 1)]) (seq 0 (length v)))
       (seq 0 (length u)) ++
     map (fun i => [neg (at_ v i); at_ w i]) (seq 0 (length v)) ++
     map (fun i => [neg (at_ u i); at_ w i]) (seq 0 (length u)), w, bump APB k n).

(** pbc_binary_merge.go:158-188 [totalizer].  The first block of variables is
    never used: [unaryAdder] replaces the output slice. *)
Fixpoint unaryTotalizer (fuel : nat) (x : list elit) (n : ctr) : list clause * list elit * ctr :=
  match fuel with
  | 0 => (diverges, [], n)
  | S fuel' =>
    if length x =? 0 then ([], [], n)
    else if length x =? 1 then ([], [at_ x 0], n)
    else
      let h := length x / 2 in
      let n0 := bump APB (length x) n in
      let '(c1, u1, n1) := unaryTotalizer fuel' (firstn h x) n0 in
      let '(c2, u2, n2) := unaryTotalizer fuel' (skipn h x) n1 in
      let '(c3, w, n3) := unaryAdder u1 u2 n2 in
      (c1 ++ c2 ++ c3, w, n3)
  end.

(** cc_cardinality_network.go:265-287 [merge] with [inputToOutput], that is
    370-393 [directMerger]. *)
Definition mergeFwd (m : nat) (A B : list elit) (n : ctr) : list clause * list elit * ctr :=
  if m =? 0 then ([], [], n)
  else if length A =? 0 then ([], B, n)
  else if length B =? 0 then ([], A, n)
  else
    let m2 := Nat.min m (length A + length B) in
    let o := auxs ACC m2 n in
    (map (fun i => [neg (at_ A i); at_ o i]) (seq 0 (Nat.min m2 (length A))) ++
     map (fun i => [neg (at_ B i); at_ o i]) (seq 0 (Nat.min m2 (length B))) ++
     flat_map (fun i => flat_map (fun k =>
       if i + k + 1 <? m2 then [[neg (at_ A i); neg (at_ B k); at_ o (i + k + 1)]] else [])
       (seq 0 (length B))) (seq 0 (length A)), o, bump ACC m2 n).

(** [math.Ceil(a / 2^i)]. *)
Definition ceilShift (a : Z) (i : nat) : Z := ((a + 2 ^ Z.of_nat i - 1) / 2 ^ Z.of_nat i)%Z.

(** A clause guarded by [gacLit]; [None] is [nullLit]. *)
Definition guarded (gac : option elit) (l : elit) : clause :=
  match gac with Some g => [g; l] | None => [l] end.

(** pbc_binary_merge.go:113-155: the loop over the buckets. *)
Fixpoint mergeLevels (wd : bool) (gac : option elit) (newLessThen : Z) (i : nat)
                     (buckets : list (list elit)) (carries : list elit) (n : ctr) : list clause * ctr :=
  match buckets with
  | [] => ([], n)
  | b :: rest =>
    let k := Z.to_nat (ceilShift newLessThen i) in
    let '(c1, card, n1) := if wd then unaryTotalizer (length b + 1) b n else sort k b InOut n in
    let c2 := if k <=? length b then [guarded gac (neg (at_ card (k - 1)))] else [] in
    let '(c3, merged, n2) :=
      if length carries =? 0 then ([], card, n1)
      else if length card =? 0 then ([], carries, n1)
      else
        let '(c4, mg, n2) := if wd then unaryAdder card carries n1 else mergeFwd k card carries n1 in
        (c4 ++ (if (k =? length mg) || (wd && (k <=? length mg))
                then [guarded gac (neg (at_ mg (k - 1)))] else []), mg, n2) in
    let '(c5, n3) := mergeLevels wd gac newLessThen (S i) rest (evens merged) n2 in
    (c1 ++ c2 ++ c3 ++ c5, n3)
  end.

(** pbc_binary_merge.go:69-156 [binaryMerge], on the first [n] literals. *)
Definition binaryMerge (cf : pbcConfig) (ls : list elit) (cs : list Z) (leq maxWeight : Z)
                       (gac : option elit) (n : ctr) : list clause * ctr :=
  let lessThen := (leq + 1)%Z in
  let p := c_log cf maxWeight in
  let m := ceilShift lessThen p in
  let newLessThen := (m * 2 ^ Z.of_nat p)%Z in
  let t := (newLessThen - lessThen)%Z in
  let trueLit := at_ (auxs APB 1 n) 0 in
  let large c := match gac with Some _ => (lessThen <=? c)%Z | None => false end in
  let dropped := filter (fun q => large (snd q)) (combine ls cs) in
  let kept := filter (fun q => negb (large (snd q))) (combine ls cs) in
  let c1 := flat_map (fun i =>
              map (fun q => guarded gac (neg (fst q)))
                  (filter (fun q => Z.testbit (snd q) (Z.of_nat i)) dropped)) (seq 0 (p + 1)) in
  let buckets := map (fun i =>
              (if Z.testbit t (Z.of_nat i) then [trueLit] else []) ++
              bitBucket i (map fst kept) (map snd kept)) (seq 0 (p + 1)) in
  let '(c2, n') := mergeLevels (c_watchdog cf) gac newLessThen 0 buckets [] (bump APB 1 n) in
  ([trueLit] :: c1 ++ c2, n').

(** pbc_binary_merge.go:33-36: replace the element at [i] by the last one and
    drop the last one. *)
Definition swapRemove {A} (d : A) (i : nat) (l : list A) : list A :=
  if i + 1 =? length l then removelast l
  else firstn i l ++ [List.last l d] ++ removelast (skipn (S i) l).

Definition maxZ (l : list Z) : Z := fold_left Z.max l 0%Z.

(** pbc_binary_merge.go:24-62: the loop with GAC, from index [i], for [k] more
    indices.  [lits] and [coeffs] are restored after every round except the last
    (57-62). *)
Fixpoint gacLoop (cf : pbcConfig) (ls : list elit) (cs : list Z) (rhs : Z) (i k : nat) (n : ctr)
  : list clause * ctr :=
  match k with
  | 0 => ([], n)
  | S k' =>
    let x := at_ ls i in
    let c := nth i cs 0%Z in
    let '(c1, n1) :=
      if c_nosupport cf && c_single cf c then ([], n)
      else
        let rl := swapRemove ((Bad, true) : elit) i ls in
        let rc := swapRemove 0%Z i cs in
        let excl := map (fun l => [neg x; neg l]) rl in
        if (maxZ cs =? c)%Z then
          if (rhs - c <=? 0)%Z then (excl, n)
          else binaryMerge cf rl rc (rhs - c)%Z (maxZ rc) (Some (neg x)) n
        else
          let '(c2, n2) := binaryMerge cf rl rc (rhs - c)%Z (maxZ cs) (Some (neg x)) n in
          ((if (rhs - c <=? 0)%Z then excl else []) ++ c2, n2) in
    let '(c3, n3) := gacLoop cf ls cs rhs (S i) k' n1 in
    (c1 ++ c3, n3)
  end.

(** pbc_binary_merge.go:10-67 [encodePBCBinaryMerge].  If the last literal was
    removed by the loop, [len(lits)] at the end is one less (65). *)
Definition encodePBCBinaryMerge (cf : pbcConfig) (ls : list elit) (cs : list Z) (rhs : Z) (n : ctr)
  : list clause * ctr :=
  if c_gac cf then
    let '(c1, n1) := gacLoop cf ls cs rhs 0 (length ls) n in
    if c_nosupport cf && existsb (c_single cf) cs then
      let k := if c_nosupport cf && c_single cf (List.last cs 0%Z) then length ls else length ls - 1 in
      let '(c2, n2) := binaryMerge cf (firstn k ls) (firstn k cs) rhs (maxZ cs) None n1 in
      (c1 ++ c2, n2)
    else (c1, n1)
  else binaryMerge cf ls cs rhs (maxZ cs) None n.

(** ** A normalized constraint *)

(** pbc_encoding.go:59-96 [encodePBC]. *)
Definition encodeNormalized (cf : pbcConfig) (ls : list elit) (cs : list Z) (rhs : Z) (n : ctr)
  : list clause * ctr :=
  let c0 := if (rhs <? 0)%Z then [[]] else [] in
  if (rhs =? 0)%Z then (map (fun l => [neg l]) ls, n)
  else
    let small := filter (fun p => (snd p <=? rhs)%Z) (combine ls cs) in
    let c1 := map (fun p => [neg (fst p)]) (filter (fun p => negb (snd p <=? rhs)%Z) (combine ls cs)) in
    if length small <=? 1 then (c0 ++ c1, n)
    else
      let sl := map fst small in
      let sc := map snd small in
      let '(c2, n') := match c_pbc cf with
                       | PBCSWC | PBCBest => encodePBCSWC sl sc rhs n
                       | PBCBinaryMerge => encodePBCBinaryMerge cf sl sc rhs n
                       | PBCAdderNetworks => encodePBCAdder sl sc rhs n
                       end in
      (c0 ++ c1 ++ c2, n').

(** ** Normalization *)

Definition asort_eqb (a b : asort) : bool := match a, b with ACC, ACC | APB, APB => true | _, _ => false end.
Definition var_eqb (a b : var) : bool :=
  match a, b with
  | Usr x, Usr y => String.eqb x y
  | Aux s i, Aux t j => asort_eqb s t && (i =? j)
  | Zero, Zero | Bad, Bad | Loop, Loop | Undef, Undef | Err, Err => true
  | _, _ => false
  end.

(** What [normalizeLE] returns: a constant or a constraint [sum <= rhs]. *)
Inductive normal := NFalse | NTrue | NLE (ls : list elit) (cs : list Z) (rhs : Z).

(** normalize.go:99-111: the map from variables to the two coefficients, for the
    negative and for the positive literal. *)
Fixpoint addConst (x : var) (neg pos : Z) (m : list (var * (Z * Z))) : list (var * (Z * Z)) :=
  match m with
  | [] => [(x, (neg, pos))]
  | (y, (a, b)) :: r =>
    if var_eqb x y then (y, ((a + neg)%Z, (b + pos)%Z)) :: r else (y, (a, b)) :: addConst x neg pos r
  end.

Definition var2consts (ps : list (elit * Z)) : list (var * (Z * Z)) :=
  fold_left (fun (m : list (var * (Z * Z))) (q : elit * Z) => if snd (fst q) then addConst (fst (fst q)) 0 (snd q) m
                        else addConst (fst (fst q)) (snd q) 0 m) ps [].

(** normalize.go:114-123: one pair, and what it takes from the right-hand side. *)
Definition toPair (e : var * (Z * Z)) : Z * elit :=
  let '(x, (a, b)) := e in if (a <? b)%Z then ((b - a)%Z, (x, true)) else ((a - b)%Z, (x, false)).
Definition toShift (e : var * (Z * Z)) : Z :=
  let '(_, (a, b)) := e in if (a <? b)%Z then a else b.

Definition sumZ (l : list Z) : Z := fold_right Z.add 0%Z l.

(** normalize.go:140-161: the loop that divides by the greatest common divisor.
    [Z.gcd] stands for the Euclidean algorithm in 165-170.  [sum] is not updated. *)
Fixpoint divideLoop (fuel : nat) (ls : list elit) (cs : list Z) (c sum : Z) : option normal :=
  match fuel with
  | 0 => None
  | S fuel' =>
    if (c <? 0)%Z then Some NFalse
    else if (sum <=? c)%Z then Some NTrue
    else
      let d := fold_left Z.gcd cs c in
      if negb (d =? 0)%Z && negb (d =? 1)%Z
      then divideLoop fuel' ls (map (fun x => (x / d)%Z) cs) (c / d)%Z sum
      else Some (NLE ls cs c)
  end.

(** normalize.go:86-163 [normalizeLE], with the two nested lists of literals:
    the result and what the slice [ps] of the caller holds afterwards (89-96
    compact it in place).  [ord] is the order in which [slices.SortFunc]
    arranges the pairs; the ids it sorts by are not visible here, so it is left open. *)
Definition normalizeLE (ord : list (Z * elit) -> list (Z * elit)) (ps : list elit) (cs : list Z) (rhs : Z)
  : option normal * list elit :=
  let nz := filter (fun q => negb (snd q =? 0)%Z) (combine ps cs) in
  let m := var2consts nz in
  let c := (rhs - sumZ (map toShift m))%Z in
  let csps := filter (fun q => negb (fst q =? 0)%Z) (ord (map toPair m)) in
  (divideLoop 3 (map snd csps) (map fst csps) c (sumZ (map fst csps)),
   map fst nz ++ skipn (length nz) ps).

(** normalize.go:13-56 [Normalize]; for [EQ] the conjunction of two constraints. *)
Definition normalize (ord : list (Z * elit) -> list (Z * elit)) (c : cmp) (rhs : Z) (ls : list elit) (cs : list Z)
  : list (option normal) :=
  match c with
  | EQ =>
    let (f1, ls') := normalizeLE ord ls cs rhs in
    let (f2, _) := normalizeLE ord ls' (map Z.opp cs) (- rhs) in
    [f1; f2]
  | LE => [fst (normalizeLE ord ls cs rhs)]
  | LT => [fst (normalizeLE ord ls cs (rhs - 1))]
  | GE => [fst (normalizeLE ord ls (map Z.opp cs) (- rhs))]
  | GT => [fst (normalizeLE ord ls (map Z.opp cs) (- rhs - 1))]
  end.

(** ** Any pseudo-Boolean constraint *)

(** formula/factory.go:680-698 [isCC]. *)
Definition isCCshape (c : cmp) (rhs : Z) (ls : list elit) (cs : list Z) : bool :=
  forallb snd ls && forallb (Z.eqb 1) cs &&
  match c with LT => (1 <=? rhs)%Z | _ => (0 <=? rhs)%Z end.

(** pbc_encoding.go:42-47: the cases of a single result of [Normalize]. *)
Definition encodeSingle (cf : pbcConfig) (r : option normal) (n : ctr) : list clause * ctr :=
  match r with
  | Some (NLE ls cs rhs) => encodeNormalized cf ls cs rhs n
  | Some NFalse => ([[]], n)
  | Some NTrue => ([], n)
  | None => (diverges, n)
  end.

(** Seen from [EncodePBCInResult], a constraint [sum <= rhs] in a conjunction
    is either a cardinality constraint, encoded with the configuration [fcf] of
    the factory (pbc_encoding.go:33-35 drops the given one), or normalized
    again and encoded. *)
Definition encodeOperand (ord : list (Z * elit) -> list (Z * elit)) (cf : pbcConfig) (fcf : ccConfig)
                         (ls : list elit) (cs : list Z) (rhs : Z) (n : ctr) : list clause * ctr :=
  if isCCshape LE rhs ls cs then encodeCC fcf LE rhs ls n
  else encodeSingle cf (fst (normalizeLE ord ls cs rhs)) n.

Definition lit_eqb (a b : elit) : bool := var_eqb (fst a) (fst b) && Bool.eqb (snd a) (snd b).
Fixpoint list_eqb {A} (f : A -> A -> bool) (l m : list A) : bool :=
  match l, m with
  | [], [] => true
  | x :: r, y :: s => f x y && list_eqb f r s
  | _, _ => false
  end.

(** pbc_encoding.go:32-57 [EncodePBCInResult], on the comparator, right-hand
    side, literals and coefficients of the constraint.  A conjunction of
    constants and constraints is simplified by the factory as usual. *)
Definition encodePBC (ord : list (Z * elit) -> list (Z * elit)) (cf : pbcConfig) (fcf : ccConfig)
                     (c : cmp) (rhs : Z) (ls : list elit) (cs : list Z) (n : ctr) : list clause * ctr :=
  if isCCshape c rhs ls cs then encodeCC fcf c rhs ls n
  else match normalize ord c rhs ls cs with
       | [r] => encodeSingle cf r n
       | [r1; r2] =>
         match r1, r2 with
         | Some NTrue, _ => encodeSingle cf r2 n
         | _, Some NTrue => encodeSingle cf r1 n
         | Some NFalse, Some _ | Some _, Some NFalse => ([[]], n)
         | Some (NLE l1 c1 b1), Some (NLE l2 c2 b2) =>
           if list_eqb lit_eqb l1 l2 && list_eqb Z.eqb c1 c2 && (b1 =? b2)%Z then encodeSingle cf r1 n
           else
             let '(d1, n1) := encodeOperand ord cf fcf l1 c1 b1 n in
             let '(d2, n2) := encodeOperand ord cf fcf l2 c2 b2 n1 in
             (d1 ++ d2, n2)
         | _, _ => (diverges, n)
         end
       | _ => (diverges, n)
       end.
