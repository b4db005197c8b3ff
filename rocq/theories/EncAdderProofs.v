(** * Correctness of the adder network encoding *)

From Coq Require Import String List Bool Arith ZArith Lia Permutation.
From Verif Require Import Spec EncSpec EncAmo EncLemmas EncAmoProofs EncCc EncTotProofs
  EncCn EncCnProofs EncApi EncApiProofs EncPbc EncPbcProofs.
Import ListNotations.

Lemma csat_b : forall a c, csat a c <-> existsb (lval a) c = true.
Proof. intros a c; rewrite existsb_exists; reflexivity. Qed.

(** ** Numbers in binary, least significant digit first *)

Definition b2z (b : bool) : Z := if b then 1 else 0.

Fixpoint bitsval (l : list bool) : Z :=
  match l with [] => 0 | b :: r => b2z b + 2 * bitsval r end%Z.

Definition oval (a : env) (x : option elit) : bool := match x with Some l => lval a l | None => false end.

Fixpoint bval (a : env) (bs : list (list elit)) : Z :=
  match bs with [] => 0 | b :: r => Z.of_nat (count a b) + 2 * bval a r end%Z.

Fixpoint horner (f : nat -> Z) (s k : nat) : Z :=
  match k with O => 0%Z | S k' => (f s + 2 * horner f (S s) k')%Z end.

Lemma bval_horner : forall a g k s, bval a (map g (seq s k)) = horner (fun i => Z.of_nat (count a (g i))) s k.
Proof. intros a g k; induction k as [|k IH]; intros s; cbn; [reflexivity | now rewrite IH]. Qed.

Lemma horner_ext : forall f g k s, (forall i, f i = g i) -> horner f s k = horner g s k.
Proof. intros f g k; induction k as [|k IH]; intros s H; cbn; [reflexivity | now rewrite H, (IH (S s) H)]. Qed.

Lemma horner_add : forall f g k s, horner (fun i => (f i + g i)%Z) s k = (horner f s k + horner g s k)%Z.
Proof. intros f g k; induction k as [|k IH]; intros s; cbn [horner]; [reflexivity | rewrite IH; lia]. Qed.

Lemma horner_zero : forall k s, horner (fun _ => 0%Z) s k = 0%Z.
Proof. intros k; induction k as [|k IH]; intros s; cbn [horner]; [reflexivity | rewrite IH; lia]. Qed.

Lemma horner_bits : forall c k s, (0 <= c)%Z ->
  horner (fun i => b2z (Z.testbit c (Z.of_nat i))) s k = ((c / 2 ^ Z.of_nat s) mod 2 ^ Z.of_nat k)%Z.
Proof.
  intros c k; induction k as [|k IH]; intros s Hc; cbn [horner].
  - cbn; now rewrite Z.mod_1_r.
  - rewrite IH by exact Hc.
    rewrite !Nat2Z.inj_succ, !Z.pow_succ_r by lia.
    rewrite Z.mul_comm with (n := 2%Z) (m := (2 ^ Z.of_nat s)%Z), <- Z.div_div by lia.
    set (q := (c / 2 ^ Z.of_nat s)%Z).
    assert (T : b2z (Z.testbit c (Z.of_nat s)) = (q mod 2)%Z).
    { unfold q; rewrite <- Z.shiftr_div_pow2 by lia.
      replace (Z.testbit c (Z.of_nat s)) with (Z.testbit (Z.shiftr c (Z.of_nat s)) 0)
        by (rewrite Z.shiftr_spec by lia; f_equal; lia).
      rewrite Z.bit0_mod; unfold b2z; pose proof (Z.mod_pos_bound (Z.shiftr c (Z.of_nat s)) 2 ltac:(lia)).
      now destruct (Z.testbit (Z.shiftr c (Z.of_nat s)) 0) eqn:E; rewrite Z.bit0_odd in E;
        rewrite Zmod_odd, E. }
    rewrite T, Z.rem_mul_r; [reflexivity | lia | apply Z.pow_pos_nonneg; lia].
Qed.

(** ** The buckets hold the weight *)

Lemma bitBucket_cons : forall a i l ls c cs,
  count a (bitBucket i (l :: ls) (c :: cs)) =
  (if Z.testbit c (Z.of_nat i) then (if lval a l then 1 else 0) else 0) + count a (bitBucket i ls cs).
Proof.
  intros a i l ls c cs; unfold bitBucket; cbn [combine filter snd].
  destruct (Z.testbit c (Z.of_nat i)); reflexivity.
Qed.

Lemma buckets_weight : forall a k ls cs, length ls = length cs ->
  (forall c, In c cs -> 0 <= c < 2 ^ Z.of_nat k)%Z ->
  horner (fun i => Z.of_nat (count a (bitBucket i ls cs))) 0 k = weight a ls cs.
Proof.
  intros a k ls; induction ls as [|l ls IH]; intros [|c cs] Hl Hc; try discriminate Hl.
  - unfold bitBucket; cbn [combine filter map count weight]; apply horner_zero.
  - cbn [weight].
    rewrite horner_ext with (g := fun i =>
      (b2z (Z.testbit (if lval a l then c else 0) (Z.of_nat i)) + Z.of_nat (count a (bitBucket i ls cs)))%Z).
    + rewrite horner_add, (IH cs ltac:(cbn in Hl; lia) (fun x Hx => Hc x (or_intror Hx))).
      rewrite horner_bits; [|pose proof (Hc c (or_introl eq_refl)); destruct (lval a l); lia].
      rewrite Z.pow_0_r, Z.div_1_r, Z.mod_small; [reflexivity|].
      pose proof (Hc c (or_introl eq_refl)); destruct (lval a l); lia.
    + intros i; rewrite bitBucket_cons; destruct (lval a l); cbn [b2z];
        [destruct (Z.testbit c (Z.of_nat i)); unfold b2z; lia|].
      rewrite Z.testbit_0_l; unfold b2z; destruct (Z.testbit c (Z.of_nat i)); lia.
Qed.

Lemma bitBucket_scoped : forall n i ls cs, scoped n ls -> scoped n (bitBucket i ls cs).
Proof.
  intros n i ls cs H l Hl; unfold bitBucket in Hl; apply in_map_iff in Hl as [q [<- Hq]].
  apply filter_In in Hq as [Hq _]; apply H; exact (combine_fst_in ls cs q Hq).
Qed.

(** ** Adders *)

Lemma fa_sat : forall a x y z s c,
  sat a (faSum x y z s ++ faCarry x y z c ++ faExtra c s x y z) <->
  (b2z (lval a x) + b2z (lval a y) + b2z (lval a z) = b2z (lval a s) + 2 * b2z (lval a c))%Z.
Proof.
  intros a x y z s c; unfold faSum, faCarry, faExtra; rewrite !sat_app, !sat_cons, !csat_b.
  cbn [existsb]; rewrite !lval_neg.
  destruct (lval a x), (lval a y), (lval a z), (lval a s), (lval a c); cbn;
    split; (intros; intuition (congruence || lia || apply sat_nil)).
Qed.

Lemma ha_sat : forall a x y s c,
  sat a (haSum x y s ++ haCarry x y c) <->
  (b2z (lval a x) + b2z (lval a y) = b2z (lval a s) + 2 * b2z (lval a c))%Z.
Proof.
  intros a x y s c; unfold haSum, haCarry; rewrite !sat_app, !sat_cons, !csat_b.
  cbn [existsb]; rewrite !lval_neg.
  destruct (lval a x), (lval a y), (lval a s), (lval a c); cbn;
    split; (intros; intuition (congruence || lia || apply sat_nil)).
Qed.

Lemma count_b2z : forall a l r, Z.of_nat (count a (l :: r)) = (b2z (lval a l) + Z.of_nat (count a r))%Z.
Proof. intros a l r; cbn [count]; unfold b2z; destruct (lval a l); lia. Qed.

Lemma count_app_z : forall a l r, Z.of_nat (count a (l ++ r)) = (Z.of_nat (count a l) + Z.of_nat (count a r))%Z.
Proof. intros a l r; induction l as [|x l IH]; [reflexivity|]; cbn [app]; rewrite !count_b2z, IH; lia. Qed.

(** Two fresh variables for the sum and the carry. *)
Lemma two_aux : forall n (F G : bool) a, exists b, agree n a b /\
  lval b (at_ (auxs APB 1 n) 0) = F /\ lval b (at_ (auxs APB 1 (bump APB 1 n)) 0) = G.
Proof.
  intros n F G a; exists (upd APB (fresh APB n) (fun i => match i with 0 => F | _ => G end) a).
  split; [apply upd_agree|]; split.
  - apply (upd_at APB 1 n); lia.
  - rewrite auxs_at by lia; rewrite fresh_bump.
    replace (fresh APB n + 1 + 0) with (fresh APB n + 1) by lia; now rewrite upd_aux.
Qed.

Lemma xor3 : forall x y z, exists s c, (b2z x + b2z y + b2z z = b2z s + 2 * b2z c)%Z.
Proof.
  intros x y z; exists (xorb x (xorb y z)), (x && y || x && z || y && z).
  destruct x, y, z; reflexivity.
Qed.

Lemma reduceBucket_ok : forall fuel b n cs o carries n',
  1 <= length b <= fuel -> scoped n b -> reduceBucket fuel b n = (cs, o, carries, n') ->
  cle n n' /\ cscoped n' cs /\ lscope n' o /\ scoped n' carries /\ length carries = length b / 2 /\
  (forall a, sat a cs -> Z.of_nat (count a b) = b2z (lval a o) + 2 * Z.of_nat (count a carries))%Z /\
  (forall a, exists a', agree n a a' /\ sat a' cs).
Proof.
  induction fuel as [|fuel IH]; intros b n cs o carries n' Hb Hs E; [lia|].
  assert (S1 : lscope (bump APB 1 n) (at_ (auxs APB 1 n) 0)) by (apply scoped_at; [apply auxs_scoped | rewrite auxs_length; lia]).
  set (n1 := bump APB 1 n) in *; set (n2 := bump APB 1 n1) in *.
  assert (S2 : lscope n2 (at_ (auxs APB 1 n1) 0)) by (apply scoped_at; [apply auxs_scoped | rewrite auxs_length; lia]).
  assert (L12 : cle n1 n2) by apply cle_bump.
  assert (L01 : cle n n1) by apply cle_bump.
  assert (L02 : cle n n2) by (apply cle_trans with n1; assumption).
  destruct b as [|x [|y [|z r]]]; cbn [length] in Hb; [lia| | |]; cbn [reduceBucket] in E.
  - injection E as <- <- <- <-; split; [apply cle_refl|]; split; [apply cscoped_nil|].
    split; [apply Hs; now left|]; split; [apply scoped_nil|]; split; [reflexivity|]; split.
    + intros a _; cbn [count]; unfold b2z; destruct (lval a x); reflexivity.
    + intros a; exists a; split; [apply agree_refl | apply sat_nil].
  - fold n1 in E; fold n2 in E.
    injection E as <- <- <- <-; split; [exact L02|].
    apply scoped_cons in Hs as [Sx Hs]; apply scoped_cons in Hs as [Sy _].
    pose proof (lscope_le _ _ _ L02 Sx) as Sx'; pose proof (lscope_le _ _ _ L02 Sy) as Sy'.
    pose proof (lscope_le _ _ _ L12 S1) as Ss.
    split; [|split; [|split; [|split; [|split]]]].
    + unfold haSum, haCarry; cbn [app]; intros c Hc l Hl; cbn [In] in Hc.
      repeat destruct Hc as [<-|Hc]; try destruct Hc; cbn [In] in Hl; intuition (subst l; assumption || (apply lscope_neg; assumption)).
    + exact Ss.
    + intros l [<-|[]]; exact S2.
    + reflexivity.
    + intros a Ha; apply ha_sat in Ha; rewrite !count_b2z; change (count a []) with 0; lia.
    + intros a; destruct (two_aux n (xorb (lval a x) (lval a y)) (lval a x && lval a y) a) as [b [B1 [B2 B3]]].
      exists b; split; [exact B1|]; apply ha_sat; fold n1 in B3; rewrite B2, B3.
      rewrite (agree_lval n a b x B1 Sx), (agree_lval n a b y B1 Sy).
      destruct (lval a x), (lval a y); reflexivity.
  - fold n1 in E; fold n2 in E.
    set (s := at_ (auxs APB 1 n) 0) in *; set (c := at_ (auxs APB 1 n1) 0) in *.
    destruct (reduceBucket fuel (r ++ [s]) n2) as [[[cs0 o0] carries0] n3] eqn:R.
    apply scoped_cons in Hs as [Sx Hs]; apply scoped_cons in Hs as [Sy Hs]; apply scoped_cons in Hs as [Sz Sr].
    pose proof (lscope_le _ _ _ L12 S1) as Ss.
    assert (Sr2 : scoped n2 (r ++ [s])).
    { apply scoped_app; split; [now apply scoped_le with n | intros l [<-|[]]; exact Ss]. }
    assert (Lr : length (r ++ [s]) = length r + 1) by (rewrite app_length; reflexivity).
    destruct (IH (r ++ [s]) n2 cs0 o0 carries0 n3 ltac:(lia) Sr2 R) as [I1 [I2 [I3 [I4 [I5 [I6 I7]]]]]].
    assert (L03 : cle n n3) by (apply cle_trans with n2; assumption).
    assert (Up : forall l, lscope n l -> lscope n3 l) by (intros l; apply lscope_le; exact L03).
    assert (Up2 : forall l, lscope n2 l -> lscope n3 l) by (intros l; apply lscope_le; exact I1).
    apply (f_equal (fun q => q)) in E.
    assert (E' : faSum x y z s ++ faCarry x y z c ++ faExtra c s x y z ++ cs0 = cs /\ o0 = o /\ c :: carries0 = carries /\ n3 = n')
      by (injection E; auto).
    destruct E' as [<- [<- [<- <-]]].
    split; [exact L03|]; split; [|split; [exact I3|split; [|split; [|split]]]].
    + rewrite !app_assoc; apply cscoped_app; split; [|exact I2].
      unfold faSum, faCarry, faExtra; cbn [app]; intros d Hd l Hl; cbn [In] in Hd.
      pose proof (Up _ Sx); pose proof (Up _ Sy); pose proof (Up _ Sz); pose proof (Up2 _ Ss); pose proof (Up2 _ S2).
      repeat destruct Hd as [<-|Hd]; try destruct Hd; cbn [In] in Hl; intuition (subst l; assumption || (apply lscope_neg; assumption)).
    + intros l [<-|Hl]; [now apply Up2 | now apply I4].
    + cbn [length]; rewrite I5, Lr.
      replace (S (S (S (length r)))) with (length r + 1 + 1 * 2) by lia; rewrite Nat.div_add by lia; lia.
    + intros a Ha; rewrite !app_assoc in Ha; apply sat_app in Ha as [H1 H2].
      rewrite <- app_assoc in H1; apply fa_sat in H1; specialize (I6 a H2).
      rewrite count_app_z in I6; rewrite !count_b2z in *; change (count a []) with 0 in I6; lia.
    + intros a; destruct (xor3 (lval a x) (lval a y) (lval a z)) as [F [G FG]].
      destruct (two_aux n F G a) as [b [B1 [B2 B3]]]; destruct (I7 b) as [b' [B4 B5]].
      exists b'; split; [exact (agree_trans n n2 a b b' L02 B1 B4)|].
      rewrite !app_assoc; apply sat_app; split; [|exact B5]; rewrite <- app_assoc; apply fa_sat.
      fold n1 in B3; fold s in B2; fold c in B3.
      rewrite (agree_lval n2 b b' s B4 Ss), (agree_lval n2 b b' c B4 S2), B2, B3.
      rewrite !(agree_lval n2 b b' _ B4) by (now apply lscope_le with n).
      rewrite (agree_lval n a b x B1 Sx), (agree_lval n a b y B1 Sy), (agree_lval n a b z B1 Sz); exact FG.
Qed.

Definition oscoped (n : ctr) (out : list (option elit)) : Prop := forall l, In (Some l) out -> lscope n l.

Lemma adderTree_ok : forall fuel bs n cs out n',
  length (concat bs) + length bs < fuel -> (forall b, In b bs -> scoped n b) ->
  adderTree fuel bs n = (cs, out, n') ->
  cle n n' /\ cscoped n' cs /\ oscoped n' out /\ length bs <= length out /\
  (forall a, sat a cs -> bitsval (map (oval a) out) = bval a bs) /\
  (forall a, exists a', agree n a a' /\ sat a' cs).
Proof.
  induction fuel as [|fuel IH]; intros bs n cs out n' Hf Hs E; [lia|]; cbn [adderTree] in E.
  destruct bs as [|b r].
  { apply pair3 in E as [<- [<- <-]]; split; [apply cle_refl|]; split; [apply cscoped_nil|].
    split; [intros l []|]; split; [cbn; lia|]; split; [reflexivity|].
    intros a; exists a; split; [apply agree_refl | apply sat_nil]. }
  destruct b as [|x b].
  { destruct (adderTree fuel r n) as [[c0 o0] n0] eqn:R; apply pair3 in E as [<- [<- <-]].
    cbn [concat app length] in Hf.
    destruct (IH r n c0 o0 n0 ltac:(lia) (fun b Hb => Hs b (or_intror Hb)) R) as [I1 [I2 [I3 [I4 [I5 I6]]]]].
    split; [exact I1|]; split; [exact I2|]; split; [intros l [Hl|Hl]; [discriminate | auto]|].
    split; [cbn [length]; lia|]; split; [|exact I6].
    intros a Ha; cbn [map bitsval oval bval count]; rewrite (I5 a Ha); reflexivity. }
  set (b0 := x :: b) in *.
  set (r1 := match r with [] => if 2 <=? length b0 then [[]] else [] | _ => r end) in *.
  destruct (reduceBucket (length b0) b0 n) as [[[c1 o] carries] n1] eqn:R.
  destruct (adderTree fuel (addToFirst carries r1) n1) as [[c2 o2] n2] eqn:T.
  apply pair3 in E as [<- [<- <-]].
  assert (Lb : 1 <= length b0) by (unfold b0; cbn; lia).
  destruct (reduceBucket_ok (length b0) b0 n c1 o carries n1 ltac:(lia) (Hs b0 (or_introl eq_refl)) R)
    as [A1 [A2 [A3 [A4 [A5 [A6 A7]]]]]].
  assert (Hdiv : length b0 / 2 < length b0) by (apply Nat.div_lt; lia).
  (* the carries are kept *)
  assert (K : length (concat (addToFirst carries r1)) + length (addToFirst carries r1) < length (concat (b0 :: r)) + length (b0 :: r) /\
              length r <= length (addToFirst carries r1) /\
              (forall d, In d (addToFirst carries r1) -> scoped n1 d) /\
              (forall a, bval a (addToFirst carries r1) = Z.of_nat (count a carries) + bval a r)%Z).
  { unfold r1; destruct r as [|d r].
    - destruct (Nat.leb_spec 2 (length b0)) as [L2|L2]; cbn [addToFirst concat app length].
      + rewrite !app_nil_r; split; [lia|]; split; [lia|]; split; [intros e [<-|[]]; exact A4|].
        intros a; cbn [bval]; lia.
      + split; [rewrite app_nil_r; lia|]; split; [lia|]; split; [intros e []|].
        assert (length carries = 0) by (rewrite A5; apply Nat.div_small; lia).
        destruct carries; [|discriminate]; reflexivity.
    - cbn [addToFirst concat length]; split; [rewrite !app_length; lia|]; split; [lia|]; split.
      + intros e [<-|He].
        * apply scoped_app; split; [|exact A4]; apply scoped_le with n; [exact A1|]; apply Hs; right; now left.
        * apply scoped_le with n; [exact A1|]; apply Hs; right; now right.
      + intros a; cbn [bval]; rewrite count_app_z; lia. }
  destruct K as [K1 [K2 [K3 K4]]].
  destruct (IH (addToFirst carries r1) n1 c2 o2 n2 ltac:(lia) K3 T) as [I1 [I2 [I3 [I4 [I5 I6]]]]].
  split; [exact (cle_trans _ _ _ A1 I1)|]; split; [|split; [|split; [|split]]].
  - apply cscoped_app; split; [now apply cscoped_le with n1 | exact I2].
  - intros l [Hl|Hl]; [injection Hl as <-; now apply lscope_le with n1 | auto].
  - cbn [length]; lia.
  - intros a Ha; apply sat_app in Ha as [H1 H2]; specialize (A6 a H1); specialize (I5 a H2).
    cbn [map bitsval oval bval]; rewrite I5, K4, A6; lia.
  - intros a; destruct (A7 a) as [a1 [B1 B2]]; destruct (I6 a1) as [a2 [B3 B4]]; exists a2.
    split; [exact (agree_trans n n1 a a1 a2 A1 B1 B3)|].
    apply sat_app; split; [exact (agree_sat n1 a1 a2 c1 B3 A2 B2) | exact B4].
Qed.

(** ** Comparison with a constant *)

Lemma bitsval_bound : forall l, (0 <= bitsval l < 2 ^ Z.of_nat (length l))%Z.
Proof.
  induction l as [|b l IH]; cbn [bitsval length]; [cbn; lia|].
  rewrite Nat2Z.inj_succ, Z.pow_succ_r by lia; unfold b2z; destruct b; lia.
Qed.

Lemma bitsval_app : forall l b, bitsval (l ++ [b]) = (bitsval l + b2z b * 2 ^ Z.of_nat (length l))%Z.
Proof.
  induction l as [|x l IH]; intros b; cbn [app bitsval length]; [cbn; lia|].
  rewrite IH, Nat2Z.inj_succ, Z.pow_succ_r by lia; lia.
Qed.

Lemma numToBits_ok : forall k num, (0 <= num < 2 ^ Z.of_nat k)%Z ->
  length (numToBits k num) = k /\ bitsval (numToBits k num) = num.
Proof.
  induction k as [|k IH]; intros num Hn; cbn [numToBits].
  - cbn in Hn; split; [reflexivity | cbn; lia].
  - rewrite Nat2Z.inj_succ, Z.pow_succ_r in Hn by lia.
    destruct (Z.ltb_spec num (2 ^ Z.of_nat k)) as [H|H].
    + destruct (IH num ltac:(lia)) as [I1 I2]; rewrite app_length, bitsval_app, I1, I2; cbn [length b2z]; split; lia.
    + destruct (IH (num - 2 ^ Z.of_nat k)%Z ltac:(lia)) as [I1 I2].
      rewrite app_length, bitsval_app, I1, I2; cbn [length b2z]; split; lia.
Qed.

Lemma higherBits_ok : forall a xs ys, length xs = length ys ->
  match higherBits xs ys with
  | None => bitsval (map (oval a) xs) <> bitsval ys
  | Some c => csat a c <-> bitsval (map (oval a) xs) <> bitsval ys
  end.
Proof.
  intros a xs; induction xs as [|x xs IH]; intros [|y ys] L; try discriminate L.
  - cbn; split; [intros H; now apply csat_nil in H | congruence].
  - specialize (IH ys ltac:(injection L; auto)); cbn [higherBits map bitsval].
    destruct y, x as [l|]; cbn [oval]; destruct (higherBits xs ys) as [c|]; cbn [option_map];
      try (rewrite csat_cons); try (rewrite lval_neg_true);
      unfold b2z; try (destruct (lval a l)); try (split; [intros H | intros H]); try tauto; try lia;
      try (destruct H as [H|H]; [congruence | apply IH in H; lia]);
      try (right; apply IH; lia); try (now left); try (apply IH in H; lia); try (apply IH; lia).
Qed.

Lemma lessThanOrEqual_ok : forall a xs ys, length xs = length ys ->
  (sat a (lessThanOrEqual xs ys) <-> (bitsval (map (oval a) xs) <= bitsval ys)%Z).
Proof.
  intros a xs; induction xs as [|x xs IH]; intros [|y ys] L; try discriminate L.
  - cbn; split; [lia | intros _; apply sat_nil].
  - assert (L' : length xs = length ys) by (injection L; auto).
    specialize (IH ys L'); pose proof (higherBits_ok a xs ys L') as Hh.
    cbn [lessThanOrEqual map bitsval]; rewrite sat_app, IH.
    destruct y, x as [l|]; cbn [oval]; unfold b2z.
    + split; [intros [_ H]; destruct (lval a l); lia|]; intros H; split; [apply sat_nil | destruct (lval a l); lia].
    + split; [intros [_ H]; lia|]; intros H; split; [apply sat_nil | lia].
    + destruct (higherBits xs ys) as [c|].
      * rewrite sat1, csat_app, Hh, csat1, lval_neg_true; destruct (lval a l); split; intros H;
          [destruct H as [[H|H] G]; [lia | discriminate] | split; [left; lia | lia]
          | destruct H as [_ H]; lia | split; [now right | lia]].
      * destruct (lval a l); split; intros H; [|split; [apply sat_nil|]| |split; [apply sat_nil|]]; lia.
    + split; [intros [_ H]; lia|]; intros H; split; [apply sat_nil | lia].
Qed.

Lemma higherBits_scoped : forall n xs ys c, oscoped n xs -> higherBits xs ys = Some c -> scoped n c.
Proof.
  intros n xs; induction xs as [|x xs IH]; intros [|y ys] c Hs E; cbn [higherBits] in E;
    try (injection E as <-; apply scoped_nil).
  assert (Hs' : oscoped n xs) by (intros l Hl; apply Hs; now right).
  destruct y, x as [l|]; try discriminate; try (exact (IH ys c Hs' E));
    destruct (higherBits xs ys) as [c'|] eqn:H; try discriminate; cbn in E; injection E as <-;
    apply scoped_cons; (split; [|exact (IH ys c' Hs' H)]); try apply lscope_neg; apply Hs; now left.
Qed.

Lemma lessThanOrEqual_scoped : forall n xs ys, oscoped n xs -> cscoped n (lessThanOrEqual xs ys).
Proof.
  intros n xs; induction xs as [|x xs IH]; intros [|y ys] Hs; cbn [lessThanOrEqual]; try apply cscoped_nil.
  assert (Hs' : oscoped n xs) by (intros l Hl; apply Hs; now right).
  apply cscoped_app; split; [|now apply IH].
  destruct y, x as [l|]; try apply cscoped_nil.
  destruct (higherBits xs ys) as [c|] eqn:H; [|apply cscoped_nil].
  intros d [<-|[]]; apply scoped_app; split; [exact (higherBits_scoped n xs ys c Hs' H)|].
  intros m [<-|[]]; apply lscope_neg, Hs; now left.
Qed.

Lemma ldInt_ok : forall x, (0 <= x < 2 ^ 31)%Z -> (x < 2 ^ Z.of_nat (ldInt x))%Z.
Proof.
  intros x Hx; unfold ldInt.
  set (f := fun (acc i : nat) => if Z.testbit x (Z.of_nat i) then i + 1 else acc).
  assert (G : forall k, k <= 31 -> (x mod 2 ^ Z.of_nat k < 2 ^ Z.of_nat (fold_left f (seq 0 k) 0%nat))%Z /\
    fold_left f (seq 0 k) 0 <= k).
  { induction k as [|k IH]; intros Hk; [cbn; rewrite Z.mod_1_r; lia|].
    rewrite seq_S, fold_left_app; cbn [fold_left plus].
    destruct (IH ltac:(lia)) as [I1 I2].
    set (acc := fold_left f (seq 0 k) 0) in *; unfold f at 1 2.
    destruct (Z.testbit x (Z.of_nat k)) eqn:T.
    - split; [|lia]; replace (Z.of_nat (k + 1)) with (Z.of_nat (S k)) by lia.
      apply Z.mod_pos_bound, Z.pow_pos_nonneg; lia.
    - split; [|lia]; rewrite Nat2Z.inj_succ, Z.pow_succ_r by lia.
      rewrite Z.mul_comm, Z.rem_mul_r by lia.
      rewrite <- Z.shiftr_div_pow2 by lia.
      assert (Z0 : ((Z.shiftr x (Z.of_nat k)) mod 2 = 0)%Z); [|rewrite Z0; lia].
      rewrite Zmod_odd, <- Z.bit0_odd, Z.shiftr_spec, Z.add_0_l, T by lia; reflexivity. }
  destruct (G 31 ltac:(lia)) as [G1 _]; rewrite Z.mod_small in G1 by exact Hx; exact G1.
Qed.

Lemma adder_ok : forall ls cs rhs n, length ls = length cs -> scoped n ls -> (1 <= rhs < 2 ^ 31)%Z ->
  (forall c, In c cs -> 0 <= c <= rhs)%Z ->
  encodes (fun a => (weight a ls cs <= rhs)%Z) n (encodePBCAdder ls cs rhs n).
Proof.
  intros ls cs rhs n Hl Hs Hr Hc; unfold encodePBCAdder.
  pose proof (ldInt_ok rhs ltac:(lia)) as Ld; set (nb := ldInt rhs) in *.
  set (bs := map (fun i => bitBucket i ls cs) (seq 0 nb)).
  assert (Lbs : length bs = nb) by (unfold bs; now rewrite map_length, seq_length).
  destruct (adderTree (length (concat bs) + nb + 1) bs n) as [[c1 out] n'] eqn:E.
  assert (Sb : forall b, In b bs -> scoped n b).
  { intros b Hb; unfold bs in Hb; apply in_map_iff in Hb as [i [<- _]]; now apply bitBucket_scoped. }
  destruct (adderTree_ok (length (concat bs) + nb + 1) bs n c1 out n' ltac:(lia) Sb E) as [A1 [A2 [A3 [A4 [A5 A6]]]]].
  assert (Hv : forall a, bval a bs = weight a ls cs).
  { intros a; unfold bs; rewrite bval_horner; apply buckets_weight; [exact Hl|].
    intros c Hcc; specialize (Hc c Hcc); lia. }
  assert (Pw : (2 ^ Z.of_nat nb <= 2 ^ Z.of_nat (length out))%Z) by (apply Z.pow_le_mono_r; lia).
  destruct (numToBits_ok (length out) rhs ltac:(lia)) as [N1 N2].
  split; [exact A1|]; cbn [fst snd]; split; [|split].
  - apply cscoped_app; split; [exact A2 | now apply lessThanOrEqual_scoped].
  - intros a Ha; apply sat_app in Ha as [H1 H2]; apply lessThanOrEqual_ok in H2; [|now symmetry].
    rewrite (A5 a H1), Hv, N2 in H2; exact H2.
  - intros a Ha; destruct (A6 a) as [b [B1 B2]]; exists b; split; [exact B1|].
    apply sat_app; split; [exact B2|]; apply lessThanOrEqual_ok; [now symmetry|].
    rewrite (A5 b B2), Hv, N2, (agree_weight n a b ls cs B1 Hs); exact Ha.
Qed.
