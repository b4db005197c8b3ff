(** * Model of the entry points for cardinality constraints

    encoding/cc_encoding.go, cc_incremental_data.go. *)

From Coq Require Import String List Bool Arith ZArith Lia.
From Verif Require Import Spec EncSpec EncAmo EncCc EncCn.
Import ListNotations.

(** encoding/config.go:36-58. *)
Inductive amkEncoder := AMKTotalizer | AMKModularTotalizer | AMKCardinalityNetwork | AMKBest.
Inductive alkEncoder := ALKTotalizer | ALKModularTotalizer | ALKCardinalityNetwork | ALKBest.
Inductive exkEncoder := EXKTotalizer | EXKCardinalityNetwork | EXKBest.

(** encoding/config.go:80-97, without the pseudo-Boolean fields. *)
Record ccConfig := {
  c_base : amoConfig;
  c_amk : amkEncoder;
  c_alk : alkEncoder;
  c_exk : exkEncoder
}.

(** ** At most k *)

(** cc_totalizer.go:13-27 [totalizerAMK]. *)
Definition totalizerAMK (ls : list elit) (r : nat) (n : ctr) : list clause * ctr :=
  let '(cs, out, n') := totalizer ls r BUpper n in (cs ++ totUpper out r, n').

(** cc_modular_totalizer.go:9-26 [modtotalizerAMK]. *)
Definition modtotalizerAMK (ls : list elit) (r : nat) (n : ctr) : list clause * ctr :=
  let '(cs, up, lw, md, n') := modTotalizer ls r n in (cs ++ modUpper up lw md r, n').

(** cc_cardinality_network.go:9-28 [cnAmk]. *)
Definition cnAmk (ls : list elit) (r : nat) (n : ctr) : list clause * ctr :=
  if length ls / 2 <? r then
    let geq := length ls - r in
    let '(cs, out, n') := sort geq (map neg ls) OutIn n in
    (cs ++ map (fun i => [at_ out i]) (seq 0 geq), n')
  else
    let '(cs, out, n') := sort (r + 1) ls InOut n in (cs ++ [[neg (at_ out r)]], n').

(** cc_encoding.go:177-199 [amk].  With [rhs < 0] all encoders index a slice with
    a negative number or divide by zero. *)
Definition amk (cf : ccConfig) (rhs : Z) (ls : list elit) (n : ctr) : list clause * ctr :=
  if (Z.of_nat (length ls) <=? rhs)%Z then ([], n)
  else if (rhs =? 0)%Z then (map (fun l => [neg l]) ls, n)
  else if (rhs <? 0)%Z then (panics, n)
  else match c_amk cf with
  | AMKTotalizer => totalizerAMK ls (Z.to_nat rhs) n
  | AMKModularTotalizer | AMKBest => modtotalizerAMK ls (Z.to_nat rhs) n
  | AMKCardinalityNetwork => cnAmk ls (Z.to_nat rhs) n
  end.

(** ** At least k *)

(** cc_totalizer.go:29-44 [totalizerALK]. *)
Definition totalizerALK (ls : list elit) (r : nat) (n : ctr) : list clause * ctr :=
  let '(cs, out, n') := totalizer ls r BLower n in (cs ++ totLower out r, n').

(** cc_modular_totalizer.go:28-47 [modtotalizerALK]. *)
Definition modtotalizerALK (ls : list elit) (r : nat) (n : ctr) : list clause * ctr :=
  let '(cs, up, lw, md, n') := modTotalizer (map neg ls) (length ls - r) n in
  (cs ++ modUpper up lw md (length ls - r), n').

(** cc_cardinality_network.go:46-66 [cnAlk]. *)
Definition cnAlk (ls : list elit) (r : nat) (n : ctr) : list clause * ctr :=
  let newRhs := length ls - r in
  if length ls / 2 <? newRhs then
    let geq := length ls - newRhs in
    let '(cs, out, n') := sort geq ls OutIn n in
    (cs ++ map (fun i => [at_ out i]) (seq 0 geq), n')
  else
    let '(cs, out, n') := sort (newRhs + 1) (map neg ls) InOut n in
    (cs ++ [[neg (at_ out newRhs)]], n').

(** cc_encoding.go:201-231 [alk].  [rhs >= 0] in all calls: it comes from an
    unsigned integer. *)
Definition alk (cf : ccConfig) (rhs : Z) (ls : list elit) (n : ctr) : list clause * ctr :=
  if (Z.of_nat (length ls) <? rhs)%Z then ([[]], n)
  else if (rhs =? 0)%Z then ([], n)
  else if (rhs =? 1)%Z then ([ls], n)
  else if (rhs =? Z.of_nat (length ls))%Z then (map (fun l => [l]) ls, n)
  else match c_alk cf with
  | ALKTotalizer => totalizerALK ls (Z.to_nat rhs) n
  | ALKModularTotalizer | ALKBest => modtotalizerALK ls (Z.to_nat rhs) n
  | ALKCardinalityNetwork => cnAlk ls (Z.to_nat rhs) n
  end.

(** ** Exactly k *)

(** cc_totalizer.go:46-55 [totalizerEXK]. *)
Definition totalizerEXK (ls : list elit) (r : nat) (n : ctr) : list clause * ctr :=
  let '(cs, out, n') := totalizer ls r BBoth n in (cs ++ totLower out r ++ totUpper out r, n').

(** cc_cardinality_network.go:88-96 [cnExk]. *)
Definition cnExk (ls : list elit) (r : nat) (n : ctr) : list clause * ctr :=
  let '(cs, out, n') := sort (r + 1) ls BothDir n in
  (cs ++ [[neg (at_ out r)]; [at_ out (r - 1)]], n').

(** cc_encoding.go:233-260 [exk]. *)
Definition exk (cf : ccConfig) (rhs : Z) (ls : list elit) (n : ctr) : list clause * ctr :=
  if (Z.of_nat (length ls) <? rhs)%Z then ([[]], n)
  else if (rhs =? 0)%Z then (map (fun l => [neg l]) ls, n)
  else if (rhs =? Z.of_nat (length ls))%Z then (map (fun l => [l]) ls, n)
  else match c_exk cf with
  | EXKTotalizer | EXKBest => totalizerEXK ls (Z.to_nat rhs) n
  | EXKCardinalityNetwork => cnExk ls (Z.to_nat rhs) n
  end.

(** ** Any cardinality constraint *)

(** cc_encoding.go:33-74 [EncodeCCInResult], on the comparator, right-hand side
    and operands of the constraint. *)
Definition encodeCC (cf : ccConfig) (c : cmp) (rhs : Z) (ls : list elit) (n : ctr) : list clause * ctr :=
  match c with
  | LE => if (rhs =? 1)%Z then amo (c_base cf) ls n else amk cf rhs ls n
  | LT => if (rhs =? 2)%Z then amo (c_base cf) ls n else amk cf (rhs - 1) ls n
  | GE => alk cf rhs ls n
  | GT => alk cf (rhs + 1) ls n
  | EQ => if (rhs =? 1)%Z then exo (c_base cf) ls n else exk cf rhs ls n
  end.

(** ** Incremental constraints *)

(** cc_incremental_data.go:12-21; the encoder fields always agree, so one field
    [i_kind] stands for both. *)
Inductive ikind := KTotalizer | KModular | KNetwork.

Record incremental := {
  i_kind : ikind;
  i_vector1 : list elit;
  i_vector2 : list elit;
  i_mod : nat;
  i_nVars : nat;
  i_rhs : Z
}.

(** cc_encoding.go:262-287 [amkIncremental]; the data is absent when the Go
    function returns an error.  Includes cc_cardinality_network.go:30-44
    [cnAmkForIncremental]. *)
Definition amkIncremental (cf : ccConfig) (rhs : Z) (ls : list elit) (n : ctr)
  : list clause * option incremental * ctr :=
  if (Z.of_nat (length ls) <=? rhs)%Z then ([], None, n)
  else if (rhs =? 0)%Z then (map (fun l => [neg l]) ls, None, n)
  else if (rhs <? 0)%Z then (panics, None, n)
  else
    let r := Z.to_nat rhs in
    match c_amk cf with
    | AMKTotalizer =>
      let '(cs, out, n') := totalizer ls r BUpper n in
      (cs ++ totUpper out r, Some (Build_incremental KTotalizer out [] 0 0 rhs), n')
    | AMKModularTotalizer | AMKBest =>
      let '(cs, up, lw, md, n') := modTotalizer ls r n in
      (cs ++ modUpper up lw md r, Some (Build_incremental KModular up lw md 0 rhs), n')
    | AMKCardinalityNetwork =>
      let '(cs, out, n') := sort (r + 1) ls InOut n in
      (cs ++ [[neg (at_ out r)]], Some (Build_incremental KNetwork out [] 0 0 rhs), n')
    end.

(** cc_encoding.go:289-322 [alkIncremental], with cc_cardinality_network.go:68-86
    [cnAlkForIncremental]. *)
Definition alkIncremental (cf : ccConfig) (rhs : Z) (ls : list elit) (n : ctr)
  : list clause * option incremental * ctr :=
  if (Z.of_nat (length ls) <? rhs)%Z then ([[]], None, n)
  else if (rhs =? 0)%Z then ([], None, n)
  else if (rhs =? 1)%Z then ([ls], None, n)
  else if (rhs =? Z.of_nat (length ls))%Z then (map (fun l => [l]) ls, None, n)
  else
    let r := Z.to_nat rhs in
    let k := length ls in
    match c_alk cf with
    | ALKTotalizer =>
      let '(cs, out, n') := totalizer ls r BLower n in
      (cs ++ totLower out r, Some (Build_incremental KTotalizer out [] 0 k rhs), n')
    | ALKModularTotalizer | ALKBest =>
      let '(cs, up, lw, md, n') := modTotalizer (map neg ls) (k - r) n in
      (cs ++ modUpper up lw md (k - r), Some (Build_incremental KModular up lw md k rhs), n')
    | ALKCardinalityNetwork =>
      let '(cs, out, n') := sort (k - r + 1) (map neg ls) InOut n in
      (cs ++ [[neg (at_ out (k - r))]], Some (Build_incremental KNetwork out [] 0 k rhs), n')
    end.

(** cc_encoding.go:93-118 [EncodeIncremental]; [None] is the panic for [EQ]. *)
Definition encodeIncremental (cf : ccConfig) (c : cmp) (rhs : Z) (ls : list elit) (n : ctr)
  : option (list clause * option incremental * ctr) :=
  match c with
  | LE => Some (amkIncremental cf rhs ls n)
  | LT => Some (amkIncremental cf (rhs - 1) ls n)
  | GE => Some (alkIncremental cf rhs ls n)
  | GT => Some (alkIncremental cf (rhs + 1) ls n)
  | EQ => None
  end.

(** cc_incremental_data.go:44-82 [computeUbConstraint]; [None] is a panic.  For a
    negative bound every case indexes a slice with a negative number. *)
Definition newUpperBound (d : incremental) (rhs : Z) : option (list clause * incremental) :=
  if (i_rhs d <=? rhs)%Z then None
  else if (rhs <? 0)%Z then None
  else
    let r := Z.to_nat rhs in
    let cs := match i_kind d with
              | KModular => modUpper (i_vector1 d) (i_vector2 d) (i_mod d) r
              | KTotalizer => totUpper (i_vector1 d) r
              | KNetwork => if r <? length (i_vector1 d) then [[neg (at_ (i_vector1 d) r)]] else []
              end in
    Some (cs, Build_incremental (i_kind d) (i_vector1 d) (i_vector2 d) (i_mod d) (i_nVars d) rhs).

(** cc_incremental_data.go:104-145 [computeLbConstraint]; with a bound above the
    number of variables every case indexes a slice out of range. *)
Definition newLowerBound (d : incremental) (rhs : Z) : option (list clause * incremental) :=
  if (rhs <=? i_rhs d)%Z then None
  else if (Z.of_nat (i_nVars d) <? rhs)%Z then None
  else
    let r := Z.to_nat rhs in
    let r' := i_nVars d - r in
    let cs := match i_kind d with
              | KTotalizer => totLower (i_vector1 d) r
              | KModular => modUpper (i_vector1 d) (i_vector2 d) (i_mod d) r'
              | KNetwork => if r' <? length (i_vector1 d) then [[neg (at_ (i_vector1 d) r')]] else []
              end in
    Some (cs, Build_incremental (i_kind d) (i_vector1 d) (i_vector2 d) (i_mod d) (i_nVars d) rhs).

(** Calling one of them repeatedly: the clauses of all calls, in order. *)
Fixpoint tightenAll (f : incremental -> Z -> option (list clause * incremental))
                    (d : incremental) (bounds : list Z) : option (list clause) :=
  match bounds with
  | [] => Some []
  | r :: rest =>
    match f d r with
    | None => None
    | Some (cs, d') =>
      match tightenAll f d' rest with
      | None => None
      | Some cs' => Some (cs ++ cs')
      end
    end
  end.
