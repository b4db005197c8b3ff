(* Property C49: the DNNF bit set behaves like a finite set of naturals. *)
From Coq Require Import List NArith ZArith Lia Bool.
From Verif Require Import BitSet.
Import ListNotations.
Open Scope nat_scope.

(* Every set built by the operations has 64-bit words. *)
Definition words64 (b : bitset) : Prop := forall w, In w b -> (w < 2 ^ 64)%N.

(* --- words --- *)
Lemma mask64_bit : forall w k, k < 64 -> N.testbit (mask64 w) (N.of_nat k) = N.testbit w (N.of_nat k).
Proof. intros w k H. unfold mask64. apply N.mod_pow2_bits_low. lia. Qed.

Lemma mask64_high : forall w k, 64 <= k -> N.testbit (mask64 w) (N.of_nat k) = false.
Proof. intros w k H. unfold mask64. apply N.mod_pow2_bits_high. lia. Qed.

Lemma word_high : forall w k, (w < 2 ^ 64)%N -> 64 <= k -> bit w k = false.
Proof.
  intros w k H K. unfold bit. rewrite <- (N.mod_small w (2 ^ 64)) by exact H. apply mask64_high. exact K.
Qed.

Lemma mask64_lt : forall w, (mask64 w < 2 ^ 64)%N.
Proof. intros w. apply N.mod_lt. discriminate. Qed.

Lemma lt64_bits : forall w, (forall k, 64 <= k -> bit w k = false) -> (w < 2 ^ 64)%N.
Proof.
  intros w H. destruct (N.eq_dec w 0) as [->|N0]; [reflexivity|].
  apply N.log2_lt_pow2; [lia|]. destruct (N.le_gt_cases 64 (N.log2 w)) as [L|L]; [|exact L].
  exfalso. assert (B := N.bit_log2 w N0).
  assert (K := H (N.to_nat (N.log2 w)) ltac:(lia)). unfold bit in K. rewrite Nnat.N2Nat.id in K. congruence.
Qed.

Lemma word_zero : forall w, (w < 2 ^ 64)%N -> ((w = 0)%N <-> forall k, k < 64 -> bit w k = false).
Proof.
  intros w H. split.
  - intros -> k _. apply N.bits_0.
  - intros A. apply N.bits_inj_0. intros n. destruct (N.lt_ge_cases n 64) as [L|L].
    + rewrite <- (Nnat.N2Nat.id n). apply A. lia.
    + rewrite <- (Nnat.N2Nat.id n). apply (word_high w); [exact H|lia].
Qed.

Lemma one_bit : forall i k, i < 64 -> N.testbit (mask64 (N.shiftl 1 (N.of_nat i))) (N.of_nat k) = (k =? i).
Proof.
  intros i k H. destruct (Nat.lt_ge_cases k 64) as [L|L].
  - rewrite mask64_bit by exact L. rewrite N.shiftl_1_l.
    destruct (k =? i) eqn:E; [apply Nat.eqb_eq in E|apply Nat.eqb_neq in E].
    + subst. apply N.pow2_bits_true.
    + apply N.pow2_bits_false. lia.
  - rewrite mask64_high by exact L. symmetry. apply Nat.eqb_neq. lia.
Qed.

Lemma get_bit : forall b i, words64 b -> get b i = bit (nth (i / 64) b 0%N) (i mod 64).
Proof.
  intros b i W. unfold get. assert (M := Nat.mod_upper_bound i 64 ltac:(lia)).
  destruct (nth_error b (i / 64)) as [w|] eqn:E.
  - rewrite (nth_error_nth b _ 0%N E).
    destruct (N.eqb (N.land w (mask64 (N.shiftl 1 (N.of_nat (i mod 64))))) 0) eqn:Z; cbn [negb].
    + apply N.eqb_eq in Z. assert (T : N.testbit (N.land w (mask64 (N.shiftl 1 (N.of_nat (i mod 64))))) (N.of_nat (i mod 64)) = false).
      { rewrite Z. apply N.bits_0. }
      rewrite N.land_spec, one_bit, Nat.eqb_refl, andb_true_r in T by exact M. symmetry. exact T.
    + apply N.eqb_neq in Z. destruct (bit w (i mod 64)) eqn:B; [reflexivity|]. exfalso. apply Z.
      apply N.bits_inj_0. intros n. rewrite N.land_spec, <- (Nnat.N2Nat.id n), one_bit by exact M.
      destruct (N.to_nat n =? i mod 64) eqn:Q; [|apply andb_false_r].
      apply Nat.eqb_eq in Q. rewrite Q. unfold bit in B. rewrite B. reflexivity.
  - apply nth_error_None in E. rewrite nth_overflow by exact E. symmetry. apply N.bits_0.
Qed.

Lemma idx : forall q k, k < 64 -> (q * 64 + k) / 64 = q /\ (q * 64 + k) mod 64 = k.
Proof.
  intros q k H. split.
  - rewrite Nat.div_add_l by lia. rewrite Nat.div_small by exact H. lia.
  - rewrite Nat.add_comm, Nat.mod_add by lia. apply Nat.mod_small. exact H.
Qed.

Lemma get_word : forall b q k, words64 b -> k < 64 -> get b (q * 64 + k) = bit (nth q b 0%N) k.
Proof. intros b q k W H. rewrite get_bit by exact W. destruct (idx q k H) as [-> ->]. reflexivity. Qed.

Lemma nth_repeat0 : forall n i, nth i (repeat 0%N n) 0%N = 0%N.
Proof. induction n; intros [|i]; simpl; auto. Qed.

Lemma nth_ensure : forall b n i, nth i (ensureWords b n) 0%N = nth i b 0%N.
Proof.
  intros b n i. unfold ensureWords. destruct (Nat.lt_ge_cases i (length b)) as [L|L].
  - apply app_nth1. exact L.
  - rewrite app_nth2 by exact L. rewrite nth_repeat0. symmetry. apply nth_overflow. exact L.
Qed.

Lemma ensure_64 : forall b n, words64 b -> words64 (ensureWords b n).
Proof.
  intros b n W w H. unfold ensureWords in H. apply in_app_or in H. destruct H as [H|H]; [apply W; exact H|].
  apply repeat_spec in H. subst. reflexivity.
Qed.

Lemma mapAt_ok : forall f b i, i < length b -> exists b', mapAt f i b = Some b' /\
  length b' = length b /\ nth i b' 0%N = f (nth i b 0%N) /\ forall j, j <> i -> nth j b' 0%N = nth j b 0%N.
Proof.
  intros f. induction b as [|w b IH]; intros i H; simpl in H; [lia|]. destruct i as [|i]; simpl.
  - eexists. split; [reflexivity|]. split; [reflexivity|]. split; [reflexivity|]. intros [|j] N; [lia|reflexivity].
  - destruct (IH i ltac:(lia)) as (b' & A & B & C & D). rewrite A. eexists. split; [reflexivity|].
    simpl. split; [lia|]. split; [exact C|]. intros [|j] N; [reflexivity|apply D; lia].
Qed.

Lemma words64_nth : forall b, words64 b <-> forall i, (nth i b 0 < 2 ^ 64)%N.
Proof.
  intros b. split.
  - intros W i. destruct (Nat.lt_ge_cases i (length b)) as [L|L]; [apply W, nth_In; exact L|].
    rewrite nth_overflow by exact L. reflexivity.
  - intros H w Hw. apply In_nth with (d := 0%N) in Hw. destruct Hw as (i & _ & <-). apply H.
Qed.

(* C49, set: setting never fails and adds exactly the index *)
Theorem C49_set : forall b i, words64 b -> exists b', set b i = Some b' /\ words64 b' /\
  forall j, get b' j = (j =? i) || get b j.
Proof.
  intros b i W. unfold set.
  set (b1 := if length b <=? i / 64 then ensureSize b (i + 1) else b).
  assert (W1 : words64 b1) by (subst b1; destruct (length b <=? i / 64); [apply ensure_64|]; exact W).
  assert (N1 : forall k, nth k b1 0%N = nth k b 0%N).
  { intros k. subst b1. destruct (length b <=? i / 64); [apply nth_ensure|reflexivity]. }
  assert (L1 : i / 64 < length b1).
  { subst b1. destruct (Nat.leb_spec (length b) (i / 64)); [|assumption].
    unfold ensureSize, ensureWords. rewrite app_length, repeat_length.
    replace (i + 1 + 63) with (i + 1 * 64) by lia. rewrite Nat.div_add by lia. lia. }
  clearbody b1.
  destruct (mapAt_ok (fun w => N.lor w (mask64 (N.shiftl 1 (N.of_nat (i mod 64))))) b1 (i / 64) L1)
    as (b' & E & L & A & O).
  exists b'. split; [exact E|].
  assert (Mi := Nat.mod_upper_bound i 64 ltac:(lia)).
  assert (BT : forall q k, bit (nth q b' 0%N) k = ((q =? i / 64) && (k =? i mod 64)) || bit (nth q b 0%N) k).
  { intros q k. destruct (q =? i / 64) eqn:Q; [apply Nat.eqb_eq in Q|apply Nat.eqb_neq in Q].
    - subst q. rewrite A, N1. unfold bit. rewrite N.lor_spec, one_bit by exact Mi. rewrite orb_comm. reflexivity.
    - rewrite O by exact Q. rewrite N1. reflexivity. }
  assert (W' : words64 b').
  { apply words64_nth. intros q. apply lt64_bits. intros k K. rewrite BT.
    rewrite (word_high _ k (proj1 (words64_nth b) W q) K).
    replace (k =? i mod 64) with false by (symmetry; apply Nat.eqb_neq; lia).
    rewrite andb_false_r. reflexivity. }
  split; [exact W'|]. intros j. rewrite !get_bit by assumption. rewrite BT. f_equal.
  destruct (j =? i) eqn:J; [apply Nat.eqb_eq in J|apply Nat.eqb_neq in J].
  - subst. rewrite !Nat.eqb_refl. reflexivity.
  - destruct (j / 64 =? i / 64) eqn:Q; [|reflexivity]. apply Nat.eqb_eq in Q.
    apply Nat.eqb_neq. intros R. apply J.
    rewrite (Nat.div_mod j 64), (Nat.div_mod i 64) by lia. rewrite Q, R. reflexivity.
Qed.

Theorem C49_new : forall c, words64 (newBitset c) /\ forall j, get (newBitset c) j = false.
Proof.
  intros c. assert (W : words64 (newBitset c)).
  { intros w H. apply repeat_spec in H. subst. reflexivity. }
  split; [exact W|]. intros j. rewrite get_bit by exact W. unfold newBitset. rewrite nth_repeat0. apply N.bits_0.
Qed.

Lemma orWords_nth : forall o b i, length o <= length b ->
  nth i (orWords b o) 0%N = N.lor (nth i b 0%N) (nth i o 0%N).
Proof.
  induction o as [|v o IH]; intros b i H.
  - replace (orWords b []) with b by (destruct b; reflexivity).
    rewrite (nth_overflow []) by (simpl; lia). rewrite N.lor_0_r. reflexivity.
  - destruct b as [|w b]; [simpl in H; lia|]. destruct i as [|i]; [reflexivity|]. simpl. apply IH. simpl in H. lia.
Qed.

Lemma and_nth : forall b o i, nth i (and b o) 0%N = N.land (nth i b 0%N) (nth i o 0%N).
Proof.
  assert (Z : forall (b : bitset) i, nth i (map (fun _ => 0%N) b) 0%N = 0%N).
  { induction b as [|w b IH]; intros [|i]; simpl; auto. }
  induction b as [|w b IH]; intros o i.
  - destruct o as [|v o]; simpl; destruct i; rewrite ?N.land_0_l; reflexivity.
  - destruct o as [|v o].
    + change (and (w :: b) []) with (map (fun _ : N => 0%N) (w :: b)). rewrite Z.
      rewrite (nth_overflow []) by (simpl; lia). rewrite N.land_0_r. reflexivity.
    + destruct i as [|i]; [reflexivity|]. simpl. apply IH.
Qed.

(* C49, or: the union *)
Theorem C49_or : forall b o, words64 b -> words64 o ->
  words64 (or b o) /\ forall j, get (or b o) j = get b j || get o j.
Proof.
  intros b o W V.
  assert (NN : forall i, nth i (or b o) 0%N = N.lor (nth i b 0%N) (nth i o 0%N)).
  { intros i. unfold or. rewrite orWords_nth, nth_ensure; [reflexivity|].
    unfold ensureWords. rewrite app_length, repeat_length. lia. }
  assert (W' : words64 (or b o)).
  { apply words64_nth. intros i. rewrite NN. apply lt64_bits. intros k K. unfold bit. rewrite N.lor_spec.
    change (bit (nth i b 0%N) k || bit (nth i o 0%N) k = false).
    rewrite !word_high; auto; apply words64_nth; assumption. }
  split; [exact W'|]. intros j. rewrite !get_bit by assumption. rewrite NN. unfold bit. apply N.lor_spec.
Qed.

(* C49, and: the intersection *)
Theorem C49_and : forall b o, words64 b -> words64 o ->
  words64 (and b o) /\ forall j, get (and b o) j = get b j && get o j.
Proof.
  intros b o W V.
  assert (W' : words64 (and b o)).
  { apply words64_nth. intros i. rewrite and_nth. apply lt64_bits. intros k K. unfold bit. rewrite N.land_spec.
    change (bit (nth i b 0%N) k && bit (nth i o 0%N) k = false).
    rewrite word_high; auto; apply words64_nth; assumption. }
  split; [exact W'|]. intros j. rewrite !get_bit by assumption. rewrite and_nth. unfold bit. apply N.land_spec.
Qed.

(* C49, clear and clone *)
Theorem C49_clear_clone : forall b, words64 b ->
  words64 (clear b) /\ (forall j, get (clear b) j = false) /\ (forall j, get (clone b) j = get b j).
Proof.
  intros b W.
  assert (Z : forall i, nth i (clear b) 0%N = 0%N).
  { intros i. unfold clear. clear W. revert i. induction b as [|w b IH]; intros [|i]; simpl; auto. }
  assert (W' : words64 (clear b)) by (apply words64_nth; intros i; rewrite Z; reflexivity).
  split; [exact W'|]. split; [|reflexivity]. intros j. rewrite get_bit by exact W'. rewrite Z. apply N.bits_0.
Qed.

(* --- counting --- *)
Lemma filter_map_len : forall {A B} (f : A -> B) p l,
  length (filter p (map f l)) = length (filter (fun x => p (f x)) l).
Proof. intros A B f p. induction l as [|a l IH]; simpl; [reflexivity|]. destruct (p (f a)); simpl; auto. Qed.

Lemma filter_ext_len : forall {A} (p q : A -> bool) l, (forall x, In x l -> p x = q x) ->
  length (filter p l) = length (filter q l).
Proof.
  intros A p q. induction l as [|a l IH]; intros H; simpl; [reflexivity|].
  rewrite <- (H a) by (left; reflexivity). destruct (p a); simpl; rewrite IH by (intros; apply H; right; assumption); reflexivity.
Qed.

Lemma seq_shift_add : forall n a k, seq (a + k) n = map (fun i => a + i) (seq k n).
Proof.
  induction n as [|n IH]; intros a k; simpl; [reflexivity|]. f_equal.
  rewrite <- IH. f_equal. lia.
Qed.

(* the members below n *)
Definition members (b : bitset) (n : nat) : list nat := filter (get b) (seq 0 n).

Lemma get_app : forall b c i, words64 (b ++ c) -> words64 c -> get (b ++ c) (length b * 64 + i) = get c i.
Proof.
  intros b c i W V. rewrite (Nat.div_mod i 64) by lia.
  assert (M := Nat.mod_upper_bound i 64 ltac:(lia)).
  replace (length b * 64 + (64 * (i / 64) + i mod 64)) with ((length b + i / 64) * 64 + i mod 64) by lia.
  replace (64 * (i / 64) + i mod 64) with ((i / 64) * 64 + i mod 64) by lia.
  rewrite !get_word by assumption. rewrite app_nth2_plus. reflexivity.
Qed.

Lemma fold_acc : forall (f : N -> nat) b a,
  fold_left (fun c w => c + f w) b a = a + fold_left (fun c w => c + f w) b 0.
Proof.
  intros f. induction b as [|w b IH]; intros a; simpl; [lia|]. rewrite IH, (IH (f w)). lia.
Qed.

Lemma card_cons : forall w b, cardinality (w :: b) = onesCount w + cardinality b.
Proof. intros w b. unfold cardinality. generalize onesCount. intros f. cbn [fold_left]. rewrite fold_acc. reflexivity. Qed.

Lemma card_members : forall b, words64 b -> cardinality b = length (members b (length b * 64)).
Proof.
  induction b as [|w b IH]; intros W; [reflexivity|].
  assert (Wb : words64 b) by (intros v Hv; apply W; right; exact Hv).
  rewrite card_cons, IH by exact Wb.
  unfold members. cbn [length]. replace (S (length b) * 64) with (64 + length b * 64) by lia.
  rewrite seq_app, filter_app, app_length. f_equal.
  - unfold onesCount. apply filter_ext_len. intros k Hk. apply in_seq in Hk.
    assert (G := get_word (w :: b) 0 k W ltac:(lia)). cbn [nth] in G. rewrite <- G. f_equal.
  - rewrite Nat.add_comm, seq_shift_add, filter_map_len. apply filter_ext_len. intros i _.
    symmetry. assert (G := get_app [w] b i W Wb). exact G.
Qed.

Lemma get_beyond : forall b i, words64 b -> length b * 64 <= i -> get b i = false.
Proof.
  intros b i W H. unfold get. destruct (nth_error b (i / 64)) eqn:E; [|reflexivity].
  assert (L : i / 64 < length b) by (apply nth_error_Some; congruence).
  assert (D := Nat.div_mod i 64 ltac:(lia)). assert (M := Nat.mod_upper_bound i 64 ltac:(lia)). lia.
Qed.

(* C49, cardinality: the number of members, i.e. the length of the list of all
   members below any bound that exceeds all of them *)
Theorem C49_cardinality : forall b n, words64 b -> (forall j, get b j = true -> j < n) ->
  cardinality b = length (filter (get b) (seq 0 n)).
Proof.
  intros b n W H. rewrite card_members by exact W. unfold members.
  destruct (Nat.le_ge_cases n (length b * 64)) as [L|L].
  - replace (length b * 64) with (n + (length b * 64 - n)) by lia.
    rewrite seq_app, filter_app, app_length.
    replace (length (filter (get b) (seq (0 + n) (length b * 64 - n)))) with 0; [lia|].
    symmetry. rewrite (filter_ext_len _ (fun _ => false)).
    + clear. generalize (seq (0 + n) (length b * 64 - n)). induction l; simpl; auto.
    + intros x Hx. apply in_seq in Hx. destruct (get b x) eqn:G; [|reflexivity]. apply H in G. lia.
  - replace n with (length b * 64 + (n - length b * 64)) by lia.
    rewrite seq_app, filter_app, app_length.
    replace (length (filter (get b) (seq (0 + length b * 64) (n - length b * 64)))) with 0; [lia|].
    symmetry. rewrite (filter_ext_len _ (fun _ => false)).
    + clear. generalize (seq (0 + length b * 64) (n - length b * 64)). induction l; simpl; auto.
    + intros x Hx. apply in_seq in Hx. apply get_beyond; [exact W|lia].
Qed.

(* --- search --- *)
Lemma find_seq : forall p n a k, find p (seq a n) = Some k ->
  a <= k < a + n /\ p k = true /\ forall j, a <= j < k -> p j = false.
Proof.
  intros p. induction n as [|n IH]; intros a k H; simpl in H; [discriminate|].
  destruct (p a) eqn:P.
  - inversion H; subst. split; [lia|]. split; [exact P|]. intros; lia.
  - apply IH in H. destruct H as (A & B & C). split; [lia|]. split; [exact B|].
    intros j J. destruct (Nat.eq_dec j a) as [->|]; [exact P|apply C; lia].
Qed.

Lemma find_seq_none : forall p n a, find p (seq a n) = None -> forall j, a <= j < a + n -> p j = false.
Proof.
  intros p n a H j J. apply (find_none _ _ H). apply in_seq. lia.
Qed.

Lemma tz_ok : forall w, (w < 2 ^ 64)%N -> w <> 0%N ->
  trailingZeros w < 64 /\ bit w (trailingZeros w) = true /\ forall j, j < trailingZeros w -> bit w j = false.
Proof.
  intros w H N. unfold trailingZeros. destruct (find (bit w) (seq 0 64)) as [k|] eqn:F.
  - apply find_seq in F. destruct F as (A & B & C). split; [lia|]. split; [exact B|]. intros j J. apply C. lia.
  - exfalso. apply N. apply (word_zero w H). intros k K. apply (find_seq_none _ _ _ F). lia.
Qed.

Lemma nextWord_ok : forall ws i, words64 ws ->
  match nextWord i ws with
  | Some r => i * 64 <= r /\ get ws (r - i * 64) = true /\ forall j, j < r - i * 64 -> get ws j = false
  | None => forall j, get ws j = false
  end.
Proof.
  induction ws as [|w ws IH]; intros i W; simpl.
  - intros j. unfold get. destruct (j / 64); reflexivity.
  - assert (Ww : (w < 2 ^ 64)%N) by (apply W; left; reflexivity).
    assert (Wr : words64 ws) by (intros v Hv; apply W; right; exact Hv).
    assert (LO : forall k, k < 64 -> get (w :: ws) k = bit w k).
    { intros k K. change k with (0 * 64 + k) at 1. rewrite get_word by auto. reflexivity. }
    assert (HI : forall k, get (w :: ws) (64 + k) = get ws k) by (intros k; apply (get_app [w] ws k W Wr)).
    destruct (N.eqb w 0) eqn:Z.
    + apply N.eqb_eq in Z. assert (IHs := IH (S i) Wr).
      assert (L0 : forall k, k < 64 -> get (w :: ws) k = false).
      { intros k K. rewrite LO by exact K. rewrite Z. apply N.bits_0. }
      destruct (nextWord (S i) ws) as [r|].
      * destruct IHs as (A & B & C). split; [lia|]. split.
        -- replace (r - i * 64) with (64 + (r - S i * 64)) by lia. rewrite HI. exact B.
        -- intros j J. destruct (Nat.lt_ge_cases j 64) as [L|L]; [apply L0; exact L|].
           replace j with (64 + (j - 64)) by lia. rewrite HI. apply C. lia.
      * intros j. destruct (Nat.lt_ge_cases j 64) as [L|L]; [apply L0; exact L|].
        replace j with (64 + (j - 64)) by lia. rewrite HI. apply IHs.
    + apply N.eqb_neq in Z. destruct (tz_ok w Ww Z) as (A & B & C).
      replace (i * 64 + trailingZeros w - i * 64) with (trailingZeros w) by lia.
      split; [lia|]. split; [rewrite LO by exact A; exact B|].
      intros j J. rewrite LO by lia. apply C. exact J.
Qed.

(* C49, nextSetBit: the least member from the given index on, or -1 (None) if
   there is none *)
Theorem C49_nextSetBit : forall b from, words64 b ->
  match nextSetBit b from with
  | Some r => from <= r /\ get b r = true /\ forall j, from <= j < r -> get b j = false
  | None => forall j, from <= j -> get b j = false
  end.
Proof.
  intros b from W. unfold nextSetBit.
  assert (D := Nat.div_mod from 64 ltac:(lia)). assert (M := Nat.mod_upper_bound from 64 ltac:(lia)).
  set (q := from / 64) in *. set (m := from mod 64) in *.
  destruct (nth_error b q) as [w0|] eqn:E.
  2:{ intros j J. apply get_beyond; [exact W|]. apply nth_error_None in E. lia. }
  assert (W0 : (w0 < 2 ^ 64)%N) by (apply W; apply nth_error_In with q; exact E).
  assert (G0 : forall k, k < 64 -> get b (q * 64 + k) = bit w0 k).
  { intros k K. rewrite get_word by auto. rewrite (nth_error_nth b q 0%N E). reflexivity. }
  set (word := N.land w0 (mask64 (N.shiftl allOnes (N.of_nat m)))).
  assert (BW : forall k, k < 64 -> bit word k = bit w0 k && (m <=? k)).
  { intros k K. unfold word, bit. rewrite N.land_spec, mask64_bit by exact K. f_equal.
    destruct (Nat.leb_spec m k) as [L|L].
    - rewrite N.shiftl_spec_high' by lia. unfold allOnes. apply N.ones_spec_low. lia.
    - apply N.shiftl_spec_low. lia. }
  assert (WW : (word < 2 ^ 64)%N).
  { apply lt64_bits. intros k K. unfold word, bit. rewrite N.land_spec, mask64_high by exact K. apply andb_false_r. }
  clearbody word.
  destruct (N.eqb word 0) eqn:Z; cbn [negb].
  - apply N.eqb_eq in Z.
    assert (Z0 : forall j, from <= j -> j < (q + 1) * 64 -> get b j = false).
    { intros j A B. replace j with (q * 64 + (j - q * 64)) by lia. rewrite G0 by lia.
      assert (T := proj1 (word_zero word WW) Z (j - q * 64) ltac:(lia)). rewrite BW in T by lia.
      replace (m <=? j - q * 64) with true in T by (symmetry; apply Nat.leb_le; lia).
      rewrite andb_true_r in T. exact T. }
    assert (Lq : q < length b) by (apply nth_error_Some; congruence).
    assert (Wr : words64 (skipn (q + 1) b)).
    { intros v Hv. apply W. rewrite <- (firstn_skipn (q + 1) b). apply in_or_app. right. exact Hv. }
    assert (SK : forall i, get (skipn (q + 1) b) i = get b ((q + 1) * 64 + i)).
    { intros i.
      assert (LF : length (firstn (q + 1) b) = q + 1) by (rewrite firstn_length; lia).
      assert (G := get_app (firstn (q + 1) b) (skipn (q + 1) b) i).
      rewrite firstn_skipn, LF in G. symmetry. apply G; assumption. }
    assert (NW := nextWord_ok (skipn (q + 1) b) (q + 1) Wr).
    destruct (nextWord (q + 1) (skipn (q + 1) b)) as [r|].
    + destruct NW as (A & B & C). split; [lia|]. split.
      * rewrite SK in B. replace ((q + 1) * 64 + (r - (q + 1) * 64)) with r in B by lia. exact B.
      * intros j J. destruct (Nat.lt_ge_cases j ((q + 1) * 64)) as [L|L]; [apply Z0; lia|].
        assert (X := C (j - (q + 1) * 64) ltac:(lia)). rewrite SK in X.
        replace ((q + 1) * 64 + (j - (q + 1) * 64)) with j in X by lia. exact X.
    + intros j J. destruct (Nat.lt_ge_cases j ((q + 1) * 64)) as [L|L]; [apply Z0; lia|].
      assert (X := NW (j - (q + 1) * 64)). rewrite SK in X.
      replace ((q + 1) * 64 + (j - (q + 1) * 64)) with j in X by lia. exact X.
  - apply N.eqb_neq in Z. destruct (tz_ok word WW Z) as (A & B & C).
    rewrite BW in B by exact A. apply andb_true_iff in B. destruct B as [B1 B2]. apply Nat.leb_le in B2.
    split; [lia|]. split; [rewrite G0 by exact A; exact B1|].
    intros j J. replace j with (q * 64 + (j - q * 64)) by lia. rewrite G0 by lia.
    assert (X := C (j - q * 64) ltac:(lia)). rewrite BW in X by lia.
    replace (m <=? j - q * 64) with true in X by (symmetry; apply Nat.leb_le; lia).
    rewrite andb_true_r in X. exact X.
Qed.

Lemma topBit_ok : forall w, (w < 2 ^ 64)%N -> w <> 0%N ->
  topBit w < 64 /\ bit w (topBit w) = true /\ forall j, topBit w < j -> j < 64 -> bit w j = false.
Proof.
  intros w H N. unfold topBit.
  assert (G : forall n, match find (bit w) (rev (seq 0 n)) with
    | Some k => k < n /\ bit w k = true /\ forall j, k < j -> j < n -> bit w j = false
    | None => forall j, j < n -> bit w j = false end).
  { induction n as [|n IH]; [simpl; intros; lia|].
    rewrite seq_S, rev_app_distr. simpl. destruct (bit w n) eqn:B.
    - split; [lia|]. split; [exact B|]. intros; lia.
    - destruct (find (bit w) (rev (seq 0 n))) as [k|].
      + destruct IH as (I1 & I2 & I3). split; [lia|]. split; [exact I2|]. intros j J1 J2.
        destruct (Nat.eq_dec j n) as [->|]; [exact B|apply I3; lia].
      + intros j J. destruct (Nat.eq_dec j n) as [->|]; [exact B|apply IH; lia]. }
  assert (G64 := G 64). destruct (find (bit w) (rev (seq 0 64))) as [k|]; [exact G64|].
  exfalso. apply N. apply (word_zero w H). exact G64.
Qed.

Lemma maxBit_ok : forall b, words64 b -> forall n,
  (maxBit n b = 0 /\ (forall j, j < n * 64 -> get b j = false)) \/
  (maxBit n b < n * 64 /\ get b (maxBit n b) = true /\
   forall j, maxBit n b < j -> j < n * 64 -> get b j = false).
Proof.
  intros b W. induction n as [|n IH]; [left; split; [reflexivity|intros; lia]|].
  cbn [maxBit]. assert (Wn := proj1 (words64_nth b) W n).
  destruct (N.eqb (nth n b 0%N) 0) eqn:Z.
  - apply N.eqb_eq in Z.
    assert (Z0 : forall j, n * 64 <= j -> j < S n * 64 -> get b j = false).
    { intros j A B. replace j with (n * 64 + (j - n * 64)) by lia. rewrite get_word by (auto; lia).
      rewrite Z. apply N.bits_0. }
    destruct IH as [(A & B)|(A & B & C)]; [left|right].
    + split; [exact A|]. intros j J. destruct (Nat.lt_ge_cases j (n * 64)); [apply B|apply Z0]; lia.
    + split; [lia|]. split; [exact B|]. intros j J1 J2.
      destruct (Nat.lt_ge_cases j (n * 64)); [apply C|apply Z0]; lia.
  - apply N.eqb_neq in Z. destruct (topBit_ok _ Wn Z) as (A & B & C). right.
    split; [lia|]. split; [rewrite get_word by auto; exact B|].
    intros j J1 J2. replace j with (n * 64 + (j - n * 64)) by lia. rewrite get_word by (auto; lia).
    apply C; lia.
Qed.

(* C49, toBoolSlice: entry j of the slice tells whether j is a member, and no
   member lies beyond its end; for a set with members the slice ends with the
   largest one *)
Theorem C49_toBoolSlice : forall b, words64 b ->
  (forall j, j < length (toBoolSlice b) -> nth j (toBoolSlice b) false = get b j) /\
  (forall j, length (toBoolSlice b) <= j -> get b j = false) /\
  (forall j, get b j = true -> last (toBoolSlice b) false = true).
Proof.
  intros b W. unfold toBoolSlice. destruct b as [|w0 b0].
  - assert (G : forall j, get [] j = false) by (intros j; unfold get; destruct (j / 64); reflexivity).
    split; [simpl; intros; lia|]. split; [auto|]. intros j H. rewrite G in H. discriminate.
  - set (b := w0 :: b0) in *. set (m := maxBit (length b) b).
    assert (LS : length (map (get b) (seq 0 (S m))) = S m) by (rewrite map_length, seq_length; reflexivity).
    assert (MB := maxBit_ok b W (length b)). fold m in MB.
    split; [|split].
    + intros j J. rewrite LS in J.
      rewrite (nth_indep _ false (get b 0)) by (rewrite LS; exact J).
      rewrite map_nth. rewrite seq_nth by exact J. reflexivity.
    + intros j J. rewrite LS in J. destruct (Nat.lt_ge_cases j (length b * 64)) as [L|L].
      * destruct MB as [(A & B)|(A & B & C)]; [apply B; exact L|apply C; lia].
      * apply get_beyond; assumption.
    + intros j G. rewrite seq_S, map_app. simpl map. rewrite last_last. simpl.
      destruct MB as [(A & B)|(A & B & C)]; [|exact B].
      destruct (Nat.lt_ge_cases j (length b * 64)) as [L|L]; [rewrite (B j L) in G; discriminate|].
      rewrite (get_beyond b j W L) in G. discriminate.
Qed.

(* C49, histories: whatever sequence of operations produced a bit set, it holds
   exactly the members that the same operations on mathematical sets give *)
Inductive built : bitset -> (nat -> bool) -> Prop :=
| B_new : forall c, built (newBitset c) (fun _ => false)
| B_set : forall b m i b', built b m -> set b i = Some b' -> built b' (fun j => (j =? i) || m j)
| B_or : forall b m o k, built b m -> built o k -> built (or b o) (fun j => m j || k j)
| B_and : forall b m o k, built b m -> built o k -> built (and b o) (fun j => m j && k j)
| B_clear : forall b m, built b m -> built (clear b) (fun _ => false)
| B_clone : forall b m, built b m -> built (clone b) m.

Theorem C49_history : forall b m, built b m -> words64 b /\ forall j, get b j = m j.
Proof.
  intros b m H. induction H.
  - apply C49_new.
  - destruct IHbuilt as [W G]. destruct (C49_set b i W) as (c & E & W2 & G2).
    rewrite E in H0. inversion H0; subst c. split; [exact W2|]. intros j. rewrite G2, G. reflexivity.
  - destruct IHbuilt1 as [W1 G1], IHbuilt2 as [W2 G2]. destruct (C49_or b o W1 W2) as [W G].
    split; [exact W|]. intros j. rewrite G, G1, G2. reflexivity.
  - destruct IHbuilt1 as [W1 G1], IHbuilt2 as [W2 G2]. destruct (C49_and b o W1 W2) as [W G].
    split; [exact W|]. intros j. rewrite G, G1, G2. reflexivity.
  - destruct IHbuilt as [W G]. destruct (C49_clear_clone b W) as (W2 & G2 & _). auto.
  - exact IHbuilt.
Qed.

(* the hypotheses are met by a set with members on both sides of a word boundary *)
Definition exBits : bitset :=
  match set (newBitset 10) 63 with
  | Some b => match set b 64 with Some c => match set c 200 with Some d => d | None => [] end | None => [] end
  | None => []
  end.

Example bitset_example : words64 exBits /\ cardinality exBits = 3 /\
  nextSetBit exBits 0 = Some 63 /\ nextSetBit exBits 64 = Some 64 /\ nextSetBit exBits 65 = Some 200 /\
  nextSetBit exBits 201 = None /\ length (toBoolSlice exBits) = 201.
Proof.
  split.
  - unfold exBits.
    destruct (C49_set (newBitset 10) 63 (proj1 (C49_new 10))) as (b & E & W & _). rewrite E.
    destruct (C49_set b 64 W) as (c & E2 & W2 & _). rewrite E2.
    destruct (C49_set c 200 W2) as (d & E3 & W3 & _). rewrite E3. exact W3.
  - vm_compute. repeat split.
Qed.

Print Assumptions C49_history.
Print Assumptions C49_set.
Print Assumptions C49_or.
Print Assumptions C49_and.
Print Assumptions C49_cardinality.
Print Assumptions C49_nextSetBit.
Print Assumptions C49_toBoolSlice.
