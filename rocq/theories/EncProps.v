(** * The properties of the constraint encoders

    C19-C26.  The promise [encodes P n out] of EncSpec.v reads: called when the
    auxiliary-variable counters stand at [n], the encoder terminates without a
    panic and emits the clauses [fst out] over existing variables; every
    assignment that satisfies them satisfies [P]; and every assignment that
    satisfies [P] can be changed on the new auxiliary variables, and only on
    them, so that all the clauses hold.  [encodes0] allows clauses to contain
    the literal with value 0 and reads it as the constant false, which is what
    it is on a formula factory; on a SAT solver it is a fresh variable, so for a
    solver only [encodes] will do.  [scoped n ls] says that the constrained
    literals are over variables that exist when the encoder is called. *)

From Coq Require Import String List Bool Arith ZArith Lia Permutation.
From Verif Require Import Spec EncSpec EncAmo EncLemmas EncAmoProofs EncCc EncTotProofs EncModProofs
  EncCn EncCnProofs EncApi EncApiProofs EncPbc EncPbcProofs EncAdderProofs EncMergeProofs EncBinProofs EncNormProofs.
Import ListNotations.

(** ** C19: at most one, exactly one *)

(** Admissible parameters: zero (the default is taken) or large enough for the
    recursion to make progress; the number of bits of a code is a number [b]
    with [k <= 2^b <= 2k]. *)
Definition admissible (cf : amoConfig) : Prop :=
  (c_product cf = 0 \/ 2 <= c_product cf) /\
  (c_nesting cf = 0 \/ 3 <= c_nesting cf) /\
  (c_commander cf = 0 \/ 2 <= c_commander cf) /\
  (forall k, 1 <= k -> k <= 2 ^ c_bits cf k <= 2 * k).

Theorem C19_at_most_one : forall cf ls n, admissible cf -> scoped n ls ->
  encodes (fun a => count a ls <= 1) n (amo cf ls n).
Proof. exact amo_ok. Qed.

Theorem C19_exactly_one : forall cf ls n, admissible cf -> scoped n ls ->
  encodes (fun a => count a ls = 1) n (exo cf ls n).
Proof. exact exo_ok. Qed.

(** Without progress the recursion never ends: whatever the fuel, the model of
    the product encoder with bound 1 runs out of it. *)
Lemma product_bound1 : forall fuel ls n, length ls = 2 -> In [(Loop, true)] (fst (product fuel 1 ls n)).
Proof.
  induction fuel as [|fuel IH]; intros ls n Hl; [now left|].
  cbn [product]; rewrite Hl; change (csqrt 2) with 2; change (cdiv 2 2) with 1; cbn [Nat.eqb Nat.leb].
  specialize (IH (auxs ACC 2 n) (bump ACC 1 (bump ACC 2 n)) (auxs_length ACC 2 n)).
  destruct (product fuel 1 (auxs ACC 2 n) (bump ACC 1 (bump ACC 2 n))) as [c1 n3].
  cbn [fst] in *; apply in_app_iff; left; exact IH.
Qed.

Theorem C19_product_bound_one_refuted : forall fuel l1 l2 n, ~ encodes (fun a => count a [l1; l2] <= 1) n (product fuel 1 [l1; l2] n).
Proof.
  intros fuel l1 l2 n [_ [H _]].
  exact (H _ (product_bound1 fuel [l1; l2] n eq_refl) (Loop, true) (or_introl eq_refl)).
Qed.

(** ** C20-C22: at most k, at least k, exactly k *)

Theorem C20_at_most_k : forall cf k ls n, scoped n ls ->
  encodes0 (fun a => count a ls <= k) n (amk cf (Z.of_nat k) ls n).
Proof.
  intros cf k ls n Hs; apply encodesZ_true.
  eapply encodesZ_ext; [|apply (amk_ok true cf (Z.of_nat k) ls n); [lia | exact Hs | now left]].
  intros a; unfold cmpZ; cbn [cmp_holds]; rewrite Z.leb_le; lia.
Qed.

(** On a solver, unless the cardinality network meets one of the two sizes for
    which it emits the literal 0. *)
Theorem C20_at_most_k_solver : forall cf k ls n, scoped n ls ->
  (c_amk cf = AMKCardinalityNetwork -> ~ (length ls = 3 /\ k = 1) /\ ~ (length ls = 4 /\ k = 2)) ->
  encodes (fun a => count a ls <= k) n (amk cf (Z.of_nat k) ls n).
Proof.
  intros cf k ls n Hs Hc; apply encodesZ_false.
  eapply encodesZ_ext; [|apply (amk_ok false cf (Z.of_nat k) ls n); [lia | exact Hs | right]].
  - intros a; unfold cmpZ; cbn [cmp_holds]; rewrite Z.leb_le; lia.
  - intros E; destruct (Hc E) as [H1 H2]; split; intros [Q1 Q2]; [apply H1 | apply H2]; lia.
Qed.

Theorem C21_at_least_k : forall cf k ls n, scoped n ls ->
  encodes0 (fun a => k <= count a ls) n (alk cf (Z.of_nat k) ls n).
Proof.
  intros cf k ls n Hs; apply encodesZ_true.
  eapply encodesZ_ext; [|apply (alk_ok true cf (Z.of_nat k) ls n); [lia | exact Hs | now left]].
  intros a; unfold cmpZ; cbn [cmp_holds]; rewrite Z.leb_le; lia.
Qed.

Theorem C21_at_least_k_solver : forall cf k ls n, scoped n ls ->
  (c_alk cf = ALKCardinalityNetwork -> ~ (length ls = 3 /\ k = 2) /\ ~ (length ls = 4 /\ k = 2)) ->
  encodes (fun a => k <= count a ls) n (alk cf (Z.of_nat k) ls n).
Proof.
  intros cf k ls n Hs Hc; apply encodesZ_false.
  eapply encodesZ_ext; [|apply (alk_ok false cf (Z.of_nat k) ls n); [lia | exact Hs | right]].
  - intros a; unfold cmpZ; cbn [cmp_holds]; rewrite Z.leb_le; lia.
  - intros E; destruct (Hc E) as [H1 H2]; split; intros [Q1 Q2]; [apply H1 | apply H2]; lia.
Qed.

Theorem C22_exactly_k : forall cf k ls n, scoped n ls ->
  encodes (fun a => count a ls = k) n (exk cf (Z.of_nat k) ls n).
Proof.
  intros cf k ls n Hs; pose proof (exk_ok cf (Z.of_nat k) ls n ltac:(lia) Hs) as E.
  eapply encodes_ext; [|exact E]; intros a; unfold cmpZ; cbn [cmp_holds]; rewrite Z.eqb_eq; lia.
Qed.

(** The two sizes are real: with the cardinality network the solver is given
    clauses that do not enforce "at most two of four". *)
Definition satb (a : env) (cs : list clause) : bool := forallb (existsb (lval a)) cs.
Lemma satb_sat : forall a cs, satb a cs = true -> sat a cs.
Proof.
  intros a cs H c Hc; unfold satb in H; rewrite forallb_forall in H; specialize (H c Hc).
  apply existsb_exists in H; exact H.
Qed.

Definition vars (k : nat) : list elit :=
  map (fun i => (Usr (String (Ascii.ascii_of_nat (97 + i)) EmptyString), true)) (seq 0 k).
Lemma vars_scope : forall n i b, lscope n (Usr (String (Ascii.ascii_of_nat (97 + i)) EmptyString), b).
Proof.
  intros n i b; unfold lscope, scope, reserved; cbn [fst prefix]; now destruct (Ascii.ascii_dec _ _).
Qed.

Definition baseCf : amoConfig :=
  {| c_amo := AMOBest; c_bimander := BimanderSqrt; c_fixed := 3; c_nesting := 4; c_product := 20; c_commander := 3;
     c_bits := Nat.log2_up |}.
Definition networkCf : ccConfig :=
  {| c_base := baseCf; c_amk := AMKCardinalityNetwork; c_alk := ALKCardinalityNetwork; c_exk := EXKCardinalityNetwork |}.

Theorem C20_solver_network_refuted : exists k ls n a,
  scoped n ls /\ sat a (fst (amk networkCf (Z.of_nat k) ls n)) /\ ~ count a ls <= k.
Proof.
  exists 2, (vars 4), (0, 0), (fun v => match v with Aux _ k => k =? 0 | _ => true end).
  split; [|split].
  - intros l Hl; unfold vars in Hl; apply in_map_iff in Hl as [i [<- _]]; apply vars_scope.
  - apply satb_sat; vm_compute; reflexivity.
  - vm_compute; intros H; repeat apply le_S_n in H; inversion H.
Qed.

Theorem C21_solver_network_refuted : exists k ls n a,
  scoped n ls /\ sat a (fst (alk networkCf (Z.of_nat k) ls n)) /\ ~ k <= count a ls.
Proof.
  exists 2, (vars 4), (0, 0), (fun v => match v with Usr _ => false | Aux _ k => k =? 0 | _ => true end).
  split; [|split].
  - intros l Hl; unfold vars in Hl; apply in_map_iff in Hl as [i [<- _]]; apply vars_scope.
  - apply satb_sat; vm_compute; reflexivity.
  - vm_compute; intros H; inversion H.
Qed.

(** ** C23: every cardinality constraint *)

(** [cmp_holds c] compares the number of true operands with the right-hand side. *)
Definition ccHolds (c : cmp) (rhs : Z) (ls : list elit) (a : env) : Prop :=
  cmp_holds c (Z.of_nat (count a ls)) rhs = true.

(** The factory's right-hand sides are unsigned; one constraint is left out:
    [LT] with right-hand side 0. *)
Theorem C23_every_constraint_partial : forall cf c rhs ls n, admissible (c_base cf) -> (0 <= rhs)%Z ->
  ~ (c = LT /\ rhs = 0%Z) -> scoped n ls ->
  encodes0 (ccHolds c rhs ls) n (encodeCC cf c rhs ls n).
Proof.
  intros cf c rhs ls n G Hr Hlt Hs; apply encodesZ_true, encodeCC_ok; try assumption; now left.
Qed.

Theorem C23_every_constraint_solver_partial : forall cf c rhs ls n, admissible (c_base cf) -> (0 <= rhs)%Z ->
  ~ (c = LT /\ rhs = 0%Z) -> scoped n ls ->
  c_amk cf <> AMKCardinalityNetwork -> c_alk cf <> ALKCardinalityNetwork ->
  encodes (ccHolds c rhs ls) n (encodeCC cf c rhs ls n).
Proof.
  intros cf c rhs ls n G Hr Hlt Hs H1 H2; apply encodesZ_false, encodeCC_ok; try assumption; right.
  destruct c; cbn [ccClean]; try exact I; intros E; contradiction.
Qed.

(** For that constraint the encoder panics. *)
Theorem C23_less_than_zero_refuted : forall cf ls n, In [(Bad, true)] (fst (encodeCC cf LT 0 ls n)).
Proof.
  intros cf ls n; unfold encodeCC; cbn [Z.eqb]; unfold amk.
  destruct (Z.leb_spec (Z.of_nat (length ls)) (0 - 1)); [lia|]; cbn; now left.
Qed.

(** ** C24: incremental bounds *)

(** The bounds passed one after the other: each strictly tighter than the last. *)
Fixpoint tighter (lt : Z -> Z -> Prop) (start : Z) (bounds : list Z) : Prop :=
  match bounds with [] => True | b :: r => lt b start /\ tighter lt b r end.

Lemma tighter_decreasing : forall bounds start, tighter (fun b s => (0 <= b < s)%Z) start bounds -> decreasing start bounds.
Proof. induction bounds as [|b r IH]; intros s H; cbn in *; [exact I | destruct H; split; [assumption | now apply IH]]. Qed.

Lemma tighter_increasing : forall k bounds start, tighter (fun b s => (s < b <= Z.of_nat k)%Z) start bounds -> increasing start k bounds.
Proof. intros k; induction bounds as [|b r IH]; intros s H; cbn in *; [exact I | destruct H; split; [assumption | now apply IH]]. Qed.

(** With a formula factory, any encoder.  [cs ++ cs'] are all clauses emitted:
    those of the first call and those of all the later bounds. *)
Theorem C24_upper_bounds : forall cf rhs ls n cs d n' bounds, scoped n ls ->
  encodeIncremental cf LE rhs ls n = Some (cs, Some d, n') ->
  tighter (fun b s => (0 <= b < s)%Z) rhs bounds ->
  exists cs', tightenAll newUpperBound d bounds = Some cs' /\
  encodes0 (ccHolds LE (List.last bounds rhs) ls) n (cs ++ cs', n').
Proof.
  intros cf rhs ls n cs d n' bounds Hs E Hb; injection E as E.
  destruct (tightenUpper_ok true cf rhs ls n cs d n' bounds Hs ltac:(now left) E (tighter_decreasing _ _ Hb)) as [cs' [H1 H2]].
  exists cs'; split; [exact H1 | now apply encodesZ_true].
Qed.

Theorem C24_lower_bounds : forall cf rhs ls n cs d n' bounds, (0 <= rhs)%Z -> scoped n ls ->
  encodeIncremental cf GE rhs ls n = Some (cs, Some d, n') ->
  tighter (fun b s => (s < b <= Z.of_nat (length ls))%Z) rhs bounds ->
  exists cs', tightenAll newLowerBound d bounds = Some cs' /\
  encodes0 (ccHolds GE (List.last bounds rhs) ls) n (cs ++ cs', n').
Proof.
  intros cf rhs ls n cs d n' bounds Hr Hs E Hb; injection E as E.
  destruct (tightenLower_ok true cf rhs ls n cs d n' bounds Hr Hs ltac:(now left) E (tighter_increasing _ _ _ Hb)) as [cs' [H1 H2]].
  exists cs'; split; [exact H1 | now apply encodesZ_true].
Qed.

(** With a solver, the totalizers. *)
Theorem C24_upper_bounds_solver : forall cf rhs ls n cs d n' bounds, scoped n ls -> c_amk cf <> AMKCardinalityNetwork ->
  encodeIncremental cf LE rhs ls n = Some (cs, Some d, n') ->
  tighter (fun b s => (0 <= b < s)%Z) rhs bounds ->
  exists cs', tightenAll newUpperBound d bounds = Some cs' /\
  encodes (ccHolds LE (List.last bounds rhs) ls) n (cs ++ cs', n').
Proof.
  intros cf rhs ls n cs d n' bounds Hs Hn E Hb; injection E as E.
  destruct (tightenUpper_ok false cf rhs ls n cs d n' bounds Hs ltac:(right; intros Q; contradiction) E (tighter_decreasing _ _ Hb)) as [cs' [H1 H2]].
  exists cs'; split; [exact H1 | now apply encodesZ_false].
Qed.

Theorem C24_lower_bounds_solver : forall cf rhs ls n cs d n' bounds, (0 <= rhs)%Z -> scoped n ls -> c_alk cf <> ALKCardinalityNetwork ->
  encodeIncremental cf GE rhs ls n = Some (cs, Some d, n') ->
  tighter (fun b s => (s < b <= Z.of_nat (length ls))%Z) rhs bounds ->
  exists cs', tightenAll newLowerBound d bounds = Some cs' /\
  encodes (ccHolds GE (List.last bounds rhs) ls) n (cs ++ cs', n').
Proof.
  intros cf rhs ls n cs d n' bounds Hr Hs Hn E Hb; injection E as E.
  destruct (tightenLower_ok false cf rhs ls n cs d n' bounds Hr Hs ltac:(right; intros Q; contradiction) E (tighter_increasing _ _ _ Hb)) as [cs' [H1 H2]].
  exists cs'; split; [exact H1 | now apply encodesZ_false].
Qed.

(** [LT] and [GT] are the same with the bound moved by one. *)
Theorem C24_strict : forall cf rhs ls n,
  encodeIncremental cf LT rhs ls n = encodeIncremental cf LE (rhs - 1) ls n /\
  encodeIncremental cf GT rhs ls n = encodeIncremental cf GE (rhs + 1) ls n.
Proof. intros; split; reflexivity. Qed.

(** A bound no assignment can meet panics instead of giving a contradiction, and
    equalities are refused with a panic. *)
Theorem C24_impossible_bound_refuted : forall cf ls n d rhs,
  newUpperBound d (-1) = None /\ ((Z.of_nat (i_nVars d) < rhs)%Z -> newLowerBound d rhs = None) /\
  encodeIncremental cf EQ rhs ls n = None.
Proof.
  intros cf ls n d rhs; split; [|split; [|reflexivity]].
  - unfold newUpperBound; destruct (i_rhs d <=? -1)%Z; reflexivity.
  - intros H; unfold newLowerBound; destruct (rhs <=? i_rhs d)%Z; [reflexivity|].
    destruct (Z.ltb_spec (Z.of_nat (i_nVars d)) rhs); [reflexivity | lia].
Qed.

(** ** C25: normalization *)

(** The meaning of a result: false, true, or a constraint "sum at most bound". *)
Definition holdsN (r : option normal) (a : env) : Prop :=
  match r with
  | Some NFalse => False
  | Some NTrue => True
  | Some (NLE ls cs b) => (weight a ls cs <= b)%Z
  | None => False
  end.

Definition pbHolds (c : cmp) (rhs : Z) (ls : list elit) (cs : list Z) (a : env) : Prop :=
  cmp_holds c (weight a ls cs) rhs = true.

(** An equality must not have a coefficient 0.  [ord] is how the pairs are
    sorted: any function that permutes its argument. *)
Theorem C25_normalize_partial : forall ord c rhs ls cs, (forall l, Permutation (ord l) l) -> length ls = length cs ->
  (c = EQ -> ~ In 0%Z cs) ->
  (forall a, (forall r, In r (normalize ord c rhs ls cs) -> holdsN r a) <-> pbHolds c rhs ls cs a) /\
  (forall r, In r (normalize ord c rhs ls cs) -> r = Some NFalse \/ r = Some NTrue \/
     exists l d b, r = Some (NLE l d b) /\ length l = length d /\ (forall x, In x d -> 0 < x)%Z /\ (0 <= b)%Z /\
       NoDup (map fst l)).
Proof.
  intros ord c rhs ls cs Ho Hl Hz.
  assert (Hz' : c = EQ -> forall x, In x cs -> x <> 0%Z) by (intros E x Hx ->; exact (Hz E Hx)).
  destruct (normalize_ok ord c rhs ls cs Ho Hl Hz') as [rs [R1 [R2 R3]]].
  split.
  - intros a; unfold pbHolds; fold (pbZ c rhs ls cs a); rewrite <- R2, R1; split.
    + intros H r Hr; specialize (H (Some r) (in_map Some _ _ Hr)); destruct r; exact H.
    + intros H r Hr; apply in_map_iff in Hr as [x [<- Hx]]; specialize (H x Hx); destruct x; exact H.
  - intros r Hr; pose proof Hr as Hr'; rewrite R1 in Hr; apply in_map_iff in Hr as [[| |l d b] [<- Hx]]; [now left | right; now left|].
    right; right; exists l, d, b.
    (* any counters large enough to hold the variables of [ls] will do *)
    assert (Q : length l = length d /\ (0 <= b)%Z /\ forall x, In x d -> (1 <= x)%Z).
    { assert (G : forall ls' cs' rhs', length ls' = length cs' ->
        fst (normalizeLE ord ls' cs' rhs') = Some (NLE l d b) -> length l = length d /\ (0 <= b)%Z /\ forall x, In x d -> (1 <= x)%Z).
      { intros ls' cs' rhs' L E; unfold normalizeLE in E; cbn [fst] in E.
        match type of E with divideLoop 3 ?a1 ?a2 ?a3 _ = _ => destruct (divideLoop_ok a1 a2 a3) as [r [E1 [_ E3]]] end.
        - now rewrite !map_length.
        - intros x Hin; apply in_map_iff in Hin as [[y w] [<- Hin]]; apply filter_In in Hin as [Hin H0]; cbn [fst] in *.
          apply negb_true_iff, Z.eqb_neq in H0.
          apply (Permutation_in _ (Ho _)), in_map_iff in Hin as [[v [p q]] [Ep _]]; cbn [toPair] in Ep.
          destruct (Z.ltb_spec p q); injection Ep as <- <-; lia.
        - rewrite E in E1; injection E1 as <-; cbn [normalForm] in E3; destruct E3 as [E4 [E5 [E6 _]]].
          split; [exact E4|]; split; [lia | exact E6]. }
      unfold normalize in Hr'; destruct c; try (destruct Hr' as [Hr'|[]]; apply G in Hr'; [exact Hr' | now rewrite ?map_length]).
      pose proof (normalizeLE_slice ord ls cs rhs Hl (Hz' eq_refl)) as Es.
      destruct (normalizeLE ord ls cs rhs) as [f1 ls'] eqn:E1; cbn [snd] in Es; subst ls'.
      destruct (normalizeLE ord ls (map Z.opp cs) (- rhs)) as [f2 ls''] eqn:E2.
      destruct Hr' as [Hr'|[Hr'|[]]]; subst.
      - apply (G ls cs rhs Hl); now rewrite E1.
      - apply (G ls (map Z.opp cs) (- rhs)%Z); [now rewrite map_length | now rewrite E2]. }
    destruct Q as [Q1 [Q2 Q3]]; split; [reflexivity|]; split; [exact Q1|]; split; [intros x Hin; specialize (Q3 x Hin); lia|].
    split; [exact Q2 | exact (normalize_distinct ord c rhs ls cs l d b Ho Hr')].
Qed.

(** [NegatePBC] (normalize.go:62-84): the comparators whose disjunction is the
    negation. *)
Definition negatePBC (c : cmp) : list cmp :=
  match c with EQ => [LT; GT] | LE => [GT] | LT => [GE] | GE => [LT] | GT => [LE] end.

Theorem C25_negate : forall c rhs ls cs a,
  (exists c', In c' (negatePBC c) /\ pbHolds c' rhs ls cs a) <-> ~ pbHolds c rhs ls cs a.
Proof.
  intros c rhs ls cs a; unfold pbHolds.
  destruct c; cbn [negatePBC In cmp_holds]; rewrite ?Z.eqb_eq, ?Z.leb_le, ?Z.ltb_lt; split.
  - intros [c' [[<-|[<-|[]]] H]]; cbn in H; apply Z.ltb_lt in H; lia.
  - intros H; destruct (Z.lt_trichotomy (weight a ls cs) rhs) as [Q|[Q|Q]]; [exists LT | contradiction | exists GT];
      (split; [tauto | cbn; apply Z.ltb_lt; exact Q]).
  - intros [c' [[<-|[]] H]]; cbn in H; apply Z.ltb_lt in H; lia.
  - intros H; exists GT; split; [tauto | cbn; apply Z.ltb_lt; lia].
  - intros [c' [[<-|[]] H]]; cbn in H; apply Z.leb_le in H; lia.
  - intros H; exists GE; split; [tauto | cbn; apply Z.leb_le; lia].
  - intros [c' [[<-|[]] H]]; cbn in H; apply Z.ltb_lt in H; lia.
  - intros H; exists LT; split; [tauto | cbn; apply Z.ltb_lt; lia].
  - intros [c' [[<-|[]] H]]; cbn in H; apply Z.leb_le in H; lia.
  - intros H; exists LE; split; [tauto | cbn; apply Z.leb_le; lia].
Qed.

(** 0a + 1b + 2c = 1 has a solution, its normalization has none. *)
Theorem C25_zero_coefficient_refuted : exists rhs ls cs a, length ls = length cs /\ pbHolds EQ rhs ls cs a /\
  forall b, ~ (forall r, In r (normalize (fun l => l) EQ rhs ls cs) -> holdsN r b).
Proof.
  exists 1%Z, (vars 3), [0; 1; 2]%Z, (fun v => var_eqb v (fst (at_ (vars 3) 1))).
  split; [reflexivity|]; split; [vm_compute; reflexivity|].
  intros b H; assert (E : normalize (fun l => l) EQ 1 (vars 3) [0; 1; 2]%Z =
    [Some (NLE [(Usr "b", true); (Usr "c", true)] [1%Z; 2%Z] 1); Some (NLE [(Usr "c", false)] [3%Z] 2)])
    by (vm_compute; reflexivity).
  rewrite E in H; pose proof (H _ (or_introl eq_refl)) as H1; pose proof (H _ (or_intror (or_introl eq_refl))) as H2.
  cbn [holdsN weight] in H1, H2; unfold lval in H1, H2; cbn [fst snd] in H1, H2.
  destruct (b (Usr "c")), (b (Usr "b")); cbn [negb] in *; lia.
Qed.

(** ** C26: pseudo-Boolean encodings *)

(** The three encoders on a constraint "sum at most bound" with positive
    coefficients.  The number of bits the binary merge takes for a weight must
    not be too small. *)
Definition enoughBits (cf : pbcConfig) : Prop := forall w, (1 <= w)%Z -> (w < 2 ^ Z.of_nat (c_log cf w + 1))%Z.

Theorem C26_sequential_weight_counter : forall cf ls cs rhs n, length ls = length cs -> scoped n ls ->
  (forall c, In c cs -> 0 < c)%Z -> (0 <= rhs)%Z -> c_pbc cf = PBCSWC \/ c_pbc cf = PBCBest ->
  encodes (fun a => (weight a ls cs <= rhs)%Z) n (encodeNormalized cf ls cs rhs n).
Proof.
  intros cf ls cs rhs n Hl Hs Hc Hr E; apply encodesZ_false, encodeNormalized_ok; try assumption.
  - intros c H; specialize (Hc c H); lia.
  - unfold pbcFits; destruct E as [-> | ->]; exact I.
Qed.

Theorem C26_adder_network : forall cf ls cs rhs n, length ls = length cs -> scoped n ls ->
  (forall c, In c cs -> 0 < c)%Z -> (0 <= rhs < 2 ^ 31)%Z -> c_pbc cf = PBCAdderNetworks ->
  encodes (fun a => (weight a ls cs <= rhs)%Z) n (encodeNormalized cf ls cs rhs n).
Proof.
  intros cf ls cs rhs n Hl Hs Hc Hr E; apply encodesZ_false, encodeNormalized_ok; try assumption; try lia.
  - intros c H; specialize (Hc c H); lia.
  - unfold pbcFits; rewrite E; lia.
Qed.

Theorem C26_binary_merge : forall cf ls cs rhs n, length ls = length cs -> scoped n ls ->
  (forall c, In c cs -> 0 < c)%Z -> (0 <= rhs)%Z -> c_pbc cf = PBCBinaryMerge -> enoughBits cf ->
  encodes0 (fun a => (weight a ls cs <= rhs)%Z) n (encodeNormalized cf ls cs rhs n).
Proof.
  intros cf ls cs rhs n Hl Hs Hc Hr E G; apply encodesZ_true, encodeNormalized_ok; try assumption.
  - intros c H; specialize (Hc c H); lia.
  - unfold pbcFits; rewrite E; split; [exact G | now left].
Qed.

(** With the watch dog also on a solver. *)
Theorem C26_binary_merge_solver : forall cf ls cs rhs n, length ls = length cs -> scoped n ls ->
  (forall c, In c cs -> 0 < c)%Z -> (0 <= rhs)%Z -> c_pbc cf = PBCBinaryMerge -> enoughBits cf -> c_watchdog cf = true ->
  encodes (fun a => (weight a ls cs <= rhs)%Z) n (encodeNormalized cf ls cs rhs n).
Proof.
  intros cf ls cs rhs n Hl Hs Hc Hr E G W; apply encodesZ_false, encodeNormalized_ok; try assumption.
  - intros c H; specialize (Hc c H); lia.
  - unfold pbcFits; rewrite E; split; [exact G | now right].
Qed.

(** [EncodePBC] on any constraint, literals in any phase and with repetitions,
    any integer coefficients: [cf] is the configuration given, [fcf] that of the
    factory, which is used for cardinality constraints. *)
Definition sumAbs (cs : list Z) : Z := fold_right (fun c s => (Z.abs c + s)%Z) 0%Z cs.

Definition pbcAdmissible (cf : pbcConfig) (cs : list Z) : Prop :=
  match c_pbc cf with
  | PBCSWC | PBCBest => True
  | PBCAdderNetworks => (sumAbs cs <= 2 ^ 31)%Z
  | PBCBinaryMerge => enoughBits cf
  end.

Theorem C26_encode_partial : forall ord cf fcf c rhs ls cs n, (forall l, Permutation (ord l) l) ->
  length ls = length cs -> scoped n ls -> (c = EQ -> ~ In 0%Z cs) ->
  admissible (c_base fcf) -> pbcAdmissible cf cs ->
  encodes0 (pbHolds c rhs ls cs) n (encodePBC ord cf fcf c rhs ls cs n).
Proof.
  intros ord cf fcf c rhs ls cs n Ho Hl Hs Hz Ga Gp; apply encodesZ_true, encodePBC_ok; try assumption.
  - intros E x Hx ->; exact (Hz E Hx).
  - split; [exact Ga|]; split; [now left|]; intros r Hr; unfold pbcFits, pbcAdmissible in *.
    destruct (c_pbc cf); try exact I; [split; [exact Gp | now left]|].
    assert (Q : sumabs cs = sumAbs cs) by (clear; induction cs as [|x cs IH]; cbn; [reflexivity | now rewrite IH]); lia.
Qed.

Theorem C26_encode_solver_partial : forall ord cf fcf c rhs ls cs n, (forall l, Permutation (ord l) l) ->
  length ls = length cs -> scoped n ls -> (c = EQ -> ~ In 0%Z cs) ->
  admissible (c_base fcf) -> pbcAdmissible cf cs -> (c_pbc cf = PBCBinaryMerge -> c_watchdog cf = true) ->
  c_amk fcf <> AMKCardinalityNetwork -> c_alk fcf <> ALKCardinalityNetwork ->
  encodes (pbHolds c rhs ls cs) n (encodePBC ord cf fcf c rhs ls cs n).
Proof.
  intros ord cf fcf c rhs ls cs n Ho Hl Hs Hz Ga Gp Hw Hn1 Hn2; apply encodesZ_false, encodePBC_ok; try assumption.
  - intros E x Hx ->; exact (Hz E Hx).
  - split; [exact Ga|]; split.
    + right; intros c' rhs' k; destruct c'; cbn [ccClean]; try exact I; intros E; contradiction.
    + intros r Hr; unfold pbcFits, pbcAdmissible in *.
      destruct (c_pbc cf); try exact I; [split; [exact Gp | right; now apply Hw]|].
      assert (Q : sumabs cs = sumAbs cs) by (clear; induction cs as [|x cs IH]; cbn; [reflexivity | now rewrite IH]); lia.
Qed.

(** The adder network looks at 31 bits of the right-hand side only: with
    2^31 a + 2^31 b <= 2^31 it emits no clause against both being true. *)
Definition adderCf : pbcConfig :=
  {| c_cc := networkCf; c_pbc := PBCAdderNetworks; c_gac := true; c_nosupport := false; c_watchdog := true;
     c_log := fun w => Z.to_nat (Z.log2 w); c_single := fun _ => false |}.

Theorem C26_adder_large_bound_refuted : exists ls cs rhs n a, length ls = length cs /\ scoped n ls /\
  (forall c, In c cs -> 0 < c)%Z /\ (0 <= rhs)%Z /\ sat a (fst (encodeNormalized adderCf ls cs rhs n)) /\ ~ (weight a ls cs <= rhs)%Z.
Proof.
  exists (vars 2), [2 ^ 31; 2 ^ 31]%Z, (2 ^ 31)%Z, (0, 0), (fun v => match v with Usr _ => true | _ => false end).
  split; [reflexivity|]; split; [|split; [|split; [lia|split]]].
  - intros l Hl; unfold vars in Hl; apply in_map_iff in Hl as [i [<- _]]; apply vars_scope.
  - intros c [<-|[<-|[]]]; lia.
  - apply satb_sat; vm_compute; reflexivity.
  - vm_compute; intros H; apply H; reflexivity.
Qed.

(** ** The hypotheses are met *)

(** config.go:112-132 [DefaultConfig]; with exact number-of-bits functions. *)
Definition defaultCc : ccConfig := {| c_base := baseCf; c_amk := AMKBest; c_alk := ALKBest; c_exk := EXKBest |}.
Definition defaultPbc (e : pbcEncoder) : pbcConfig :=
  {| c_cc := defaultCc; c_pbc := e; c_gac := true; c_nosupport := false; c_watchdog := true;
     c_log := fun w => Z.to_nat (Z.log2 w); c_single := fun w => (w =? 2 ^ Z.log2 w)%Z |}.

Lemma log2_up_bits : forall k, 1 <= k -> k <= 2 ^ Nat.log2_up k <= 2 * k.
Proof.
  intros k Hk; destruct (Nat.eq_dec k 1) as [->|H1]; [cbn; lia|].
  pose proof (Nat.log2_up_spec k ltac:(lia)) as [A B].
  pose proof (Nat.log2_up_pos k ltac:(lia)) as P.
  assert (E : Nat.log2_up k = S (Nat.pred (Nat.log2_up k))) by lia.
  rewrite E in B |- *; rewrite Nat.pow_succ_r' in B |- *; cbn [Nat.pred] in A; rewrite E in A; cbn [Nat.pred] in A; lia.
Qed.

Example default_admissible : admissible baseCf.
Proof.
  split; [right; cbn; lia|]; split; [right; cbn; lia|]; split; [right; cbn; lia|]; exact log2_up_bits.
Qed.

Example default_enoughBits : forall e, enoughBits (defaultPbc e).
Proof.
  intros e w Hw; cbn [c_log defaultPbc]; pose proof (Z.log2_spec w ltac:(lia)) as [_ H].
  pose proof (Z.log2_nonneg w).
  replace (Z.of_nat (Z.to_nat (Z.log2 w) + 1)) with (Z.succ (Z.log2 w)) by lia; exact H.
Qed.

Lemma vars_scoped : forall k n, scoped n (vars k).
Proof. intros k n l Hl; unfold vars in Hl; apply in_map_iff in Hl as [i [<- _]]; apply vars_scope. Qed.

(** Twelve variables, so the recursive encoders recurse. *)
Example C19_example : encodes (fun a => count a (vars 12) <= 1) (0, 0) (amo baseCf (vars 12) (0, 0)) /\ fst (snd (amo baseCf (vars 12) (0, 0))) = 7.
Proof. split; [apply C19_at_most_one; [exact default_admissible | apply vars_scoped] | vm_compute; reflexivity]. Qed.

Example C20_example : encodes0 (fun a => count a (vars 7) <= 3) (0, 0) (amk networkCf (Z.of_nat 3) (vars 7) (0, 0)).
Proof. apply C20_at_most_k, vars_scoped. Qed.

Example C24_example : exists cs d n', encodeIncremental defaultCc LE 5 (vars 8) (0, 0) = Some (cs, Some d, n') /\ tighter (fun b s => (0 <= b < s)%Z) 5 [4; 2; 0]%Z.
Proof.
  destruct (encodeIncremental defaultCc LE 5 (vars 8) (0, 0)) as [[[cs [d|]] n']|] eqn:E; [|discriminate E|discriminate E].
  exists cs, d, n'; split; [reflexivity | cbn; lia].
Qed.

Example C26_example : forall e, pbcAdmissible (defaultPbc e) [3; -2; 7; 1]%Z /\ encodes (pbHolds GE 4 ([neg (at_ (vars 3) 0); at_ (vars 3) 1; at_ (vars 3) 2; at_ (vars 3) 0]) [3; -2; 7; 1]%Z) (0, 0)
    (encodePBC (fun l => l) (defaultPbc e) defaultCc GE 4 ([neg (at_ (vars 3) 0); at_ (vars 3) 1; at_ (vars 3) 2; at_ (vars 3) 0])
       [3; -2; 7; 1]%Z (0, 0)).
Proof.
  intros e.
  assert (A : pbcAdmissible (defaultPbc e) [3; -2; 7; 1]%Z).
  { unfold pbcAdmissible; destruct e; cbn [c_pbc defaultPbc]; try exact I; [apply default_enoughBits | cbn; lia]. }
  split; [exact A|]; apply C26_encode_solver_partial.
  - intros l; apply Permutation_refl.
  - reflexivity.
  - intros l [<-|[<-|[<-|[<-|[]]]]]; apply vars_scope.
  - intros H; discriminate.
  - exact default_admissible.
  - exact A.
  - reflexivity.
  - discriminate.
  - discriminate.
Qed.

Print Assumptions C19_at_most_one.
Print Assumptions C19_exactly_one.
Print Assumptions C20_at_most_k.
Print Assumptions C21_at_least_k.
Print Assumptions C22_exactly_k.
Print Assumptions C23_every_constraint_partial.
Print Assumptions C24_upper_bounds.
Print Assumptions C24_lower_bounds.
Print Assumptions C25_normalize_partial.
Print Assumptions C26_encode_partial.
Print Assumptions C26_encode_solver_partial.
