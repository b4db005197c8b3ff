(** * Correctness of the binary merge encoding of a whole constraint *)

From Coq Require Import String List Bool Arith ZArith Lia Permutation.
From Verif Require Import Spec EncSpec EncAmo EncLemmas EncAmoProofs EncCc EncTotProofs
  EncCn EncCnProofs EncApi EncApiProofs EncPbc EncPbcProofs EncAdderProofs EncMergeProofs.
Import ListNotations.

(** What the proofs need of the float computation of the number of bits. *)
Definition goodLog (cf : pbcConfig) : Prop := forall w, (1 <= w)%Z -> (w < 2 ^ Z.of_nat (c_log cf w + 1))%Z.

Lemma ceilShift_spec : forall a i, (1 <= a)%Z ->
  (1 <= ceilShift a i /\ a <= ceilShift a i * 2 ^ Z.of_nat i < a + 2 ^ Z.of_nat i)%Z.
Proof.
  intros a i Ha; unfold ceilShift; set (q := (2 ^ Z.of_nat i)%Z).
  assert (Q : (0 < q)%Z) by (apply Z.pow_pos_nonneg; lia).
  pose proof (Z.div_mod (a + q - 1) q ltac:(lia)); pose proof (Z.mod_pos_bound (a + q - 1) q Q).
  set (d := ((a + q - 1) / q)%Z) in *; nia.
Qed.

Lemma some_bit : forall c k, (1 <= c < 2 ^ Z.of_nat k)%Z ->
  exists i, i < k /\ Z.testbit c (Z.of_nat i) = true.
Proof.
  intros c k Hc; exists (Z.to_nat (Z.log2 c)).
  pose proof (Z.log2_nonneg c) as P.
  rewrite Z2Nat.id by lia; split; [|apply Z.bit_log2; lia].
  assert (Z.log2 c < Z.of_nat k)%Z by (apply Z.log2_lt_pow2; lia); lia.
Qed.

Lemma agree_gac : forall n a b gac, agree n a b -> gscoped n gac -> gacTrue a gac -> gacTrue b gac.
Proof. intros n a b gac Ag Sg; now apply (gacTrue_agree n a b gac Ag Sg). Qed.

Lemma binaryMerge_ok : forall z cf ls cs leq mw gac n, (z = true \/ c_watchdog cf = true) ->
  length ls = length cs -> scoped n ls -> gscoped n gac -> (0 <= leq)%Z ->
  (forall c, In c cs -> 1 <= c < 2 ^ Z.of_nat (c_log cf mw + 1))%Z ->
  encodesZ z (fun a => gacTrue a gac \/ (weight a ls cs <= leq)%Z) n (binaryMerge cf ls cs leq mw gac n).
Proof.
  intros z cf ls cs leq mw gac n Hz Hl Sl Sg Hq Hc; unfold binaryMerge.
  set (lt := (leq + 1)%Z); set (p := c_log cf mw) in *.
  destruct (ceilShift_spec lt p ltac:(unfold lt; lia)) as [Hm Hn]; set (m := ceilShift lt p) in *.
  set (t := (m * 2 ^ Z.of_nat p - lt)%Z).
  set (large := fun c => match gac with Some _ => (lt <=? c)%Z | None => false end).
  set (dropped := filter (fun q : elit * Z => large (snd q)) (combine ls cs)).
  set (kept := filter (fun q : elit * Z => negb (large (snd q))) (combine ls cs)).
  set (tl := at_ (auxs APB 1 n) 0).
  set (c1 := flat_map _ (seq 0 (p + 1))).
  set (buckets := map _ (seq 0 (p + 1))).
  set (n0 := bump APB 1 n).
  destruct (mergeLevels (c_watchdog cf) gac (m * 2 ^ Z.of_nat p) 0 buckets [] n0) as [c2 n'] eqn:E.
  assert (L0 : cle n n0) by apply cle_bump.
  assert (Sl0 : scoped n0 ls) by now apply scoped_le with n.
  assert (Sg0 : gscoped n0 gac) by (destruct gac; [now apply lscope_le with n | exact I]).
  assert (St : lscope n0 tl) by (apply scoped_at; [apply auxs_scoped | rewrite auxs_length; lia]).
  assert (Kin : forall q, In q kept -> In q (combine ls cs)) by (intros q H; now apply filter_In in H).
  assert (Din : forall q, In q dropped -> In q (combine ls cs) /\ (lt <= snd q)%Z).
  { intros q H; apply filter_In in H as [H1 H2]; split; [exact H1|]; unfold large in H2.
    destruct gac; [now apply Z.leb_le | discriminate]. }
  assert (Kl : scoped n0 (map fst kept)).
  { intros l H; apply in_map_iff in H as [q [<- H]]; apply Sl0, (combine_fst_in ls cs q), Kin, H. }
  assert (Sb : forall b, In b buckets -> scoped n0 b).
  { intros b H; unfold buckets in H; apply in_map_iff in H as [i [<- _]]; intros l H.
    apply in_app_iff in H as [H|H]; [|now apply (bitBucket_scoped n0 i (map fst kept) (map snd kept) Kl)].
    destruct (Z.testbit t (Z.of_nat i)); [|destruct H]; destruct H as [<-|[]]; exact St. }
  destruct (mergeLevels_ok z (c_watchdog cf) gac m p Hm Hz buckets 0 [] n0 c2 n') as [A1 [A2 [A3 A4]]].
  { unfold buckets; now rewrite map_length, seq_length. }
  { exact Sb. } { apply scoped_nil. } { exact Sg0. } { exact E. }
  clear E.
  assert (Bv : forall a, bval a buckets = ((if lval a tl then t else 0) + pweight a kept)%Z).
  { intros a; unfold buckets; rewrite bval_horner.
    rewrite (horner_ext _ (fun i => ((if lval a tl then b2z (Z.testbit t (Z.of_nat i)) else 0) +
        Z.of_nat (count a (bitBucket i (map fst kept) (map snd kept))))%Z)).
    - rewrite horner_add, buckets_weight, pweight_weight.
      + f_equal; destruct (lval a tl); [|apply horner_zero].
        rewrite horner_bits by (unfold t; lia); change (2 ^ Z.of_nat 0)%Z with 1%Z; rewrite Z.div_1_r.
        apply Z.mod_small; split; [unfold t; lia|].
        apply Z.lt_trans with (2 ^ Z.of_nat p)%Z; [unfold t; lia | apply Z.pow_lt_mono_r; lia].
      + now rewrite !map_length.
      + intros c H; apply in_map_iff in H as [q [<- H]]; specialize (Hc (snd q) (combine_snd_in ls cs q (Kin q H))); lia.
    - intros i; rewrite count_app_z; f_equal.
      destruct (Z.testbit t (Z.of_nat i)); cbn [count b2z]; destruct (lval a tl); reflexivity. }
  assert (Wt : forall a, weight a ls cs = (pweight a dropped + pweight a kept)%Z).
  { intros a; rewrite weight_pweight; apply pweight_filter. }
  assert (Hd : forall a, sat a c1 <-> (gacTrue a gac \/ forall q, In q dropped -> lval a (fst q) = false)).
  { intros a; unfold c1; rewrite sat_flat_map; split.
    - intros H; destruct gac as [g|]; [destruct (lval a g) eqn:Eg; [now left | right]|right].
      + intros q Hi; destruct (Din q Hi) as [D1 D2].
        destruct (some_bit (snd q) (p + 1) (Hc _ (combine_snd_in ls cs q D1))) as [i [I1 I2]].
        specialize (H i ltac:(apply in_seq; lia)); rewrite sat_map in H.
        specialize (H q ltac:(apply filter_In; split; assumption)).
        apply guarded_sat in H as [H|H]; [cbn in H; congruence | now apply lval_neg_true].
      + intros q Hi; destruct (Din q Hi) as [D1 D2].
        destruct (some_bit (snd q) (p + 1) (Hc _ (combine_snd_in ls cs q D1))) as [i [I1 I2]].
        specialize (H i ltac:(apply in_seq; lia)); rewrite sat_map in H.
        specialize (H q ltac:(apply filter_In; split; assumption)).
        apply guarded_sat in H as [H|H]; [destruct H | now apply lval_neg_true].
    - intros H i _; apply sat_map; intros q Hi; apply filter_In in Hi as [Hi _]; apply guarded_sat.
      destruct H as [H|H]; [now left | right; apply lval_neg_true, H, Hi]. }
  assert (Nn : forall a, (0 <= pweight a kept)%Z).
  { intros a; apply pweight_nonneg; intros q Hi; specialize (Hc _ (combine_snd_in ls cs q (Kin q Hi))); lia. }
  split; [exact (cle_trans _ _ _ L0 A1)|]; cbn [fst snd]; split; [|split].
  - change ([tl] :: c1 ++ c2) with (([[tl]] ++ c1) ++ c2); apply cscopedZ_app; split; [|exact A2].
    apply cscoped_Z, cscoped_le with n0; [exact A1|]; apply cscoped_app; split.
    + intros c [<-|[]] l [<-|[]]; exact St.
    + apply cscoped_flat_map; intros i _; apply cscoped_map; intros q Hi; apply filter_In in Hi as [Hi _].
      apply guarded_scoped; [exact Sg0|]; apply lscope_neg, Sl0, (combine_fst_in ls cs q), Din, Hi.
  - intros a Za Ha; change ([tl] :: c1 ++ c2) with ([[tl]] ++ c1 ++ c2) in Ha.
    apply sat_app in Ha as [H1 Ha]; apply sat_app in Ha as [H2 H3]; rewrite sat1, csat1 in H1.
    destruct gac as [g|] eqn:Eg; [destruct (lval a g) eqn:Ev; [now left | right] | right].
    + specialize (A3 a 0 Za H3 ltac:(cbn; congruence) (trO_nil _ _ _) ltac:(cbn; lia) ltac:(lia)).
      rewrite Bv, H1 in A3; apply Hd in H2 as [H2|H2]; [cbn in H2; congruence|].
      rewrite Wt, (pweight_zero a dropped H2); change (2 ^ Z.of_nat 0)%Z with 1%Z in A3; unfold t, lt in *; lia.
    + specialize (A3 a 0 Za H3 ltac:(cbn; tauto) (trO_nil _ _ _) ltac:(cbn; lia) ltac:(lia)).
      rewrite Bv, H1 in A3; apply Hd in H2 as [H2|H2]; [destruct H2|].
      rewrite Wt, (pweight_zero a dropped H2); change (2 ^ Z.of_nat 0)%Z with 1%Z in A3; unfold t, lt in *; lia.
  - intros a Za Ha; set (b := upd APB (fresh APB n) (fun _ => true) a).
    assert (Ag : agree n a b) by apply upd_agree.
    assert (Hb : lval b tl = true) by exact (upd_at APB 1 n (fun _ => true) a 0 ltac:(lia)).
    assert (Zb : envZ z b) by (intros Q; unfold b, upd; now apply Za).
    assert (Hw : gacTrue b gac \/ (weight b ls cs <= leq)%Z).
    { rewrite (agree_weight n a b ls cs Ag Sl); destruct Ha as [Ha|Ha]; [left; exact (agree_gac n a b gac Ag Sg Ha) | now right]. }
    assert (Dz : gacTrue b gac \/ forall q, In q dropped -> lval b (fst q) = false).
    { destruct Hw as [Hw|Hw]; [now left | right]; intros [l c] Hi; cbn [fst].
      destruct (lval b l) eqn:El; [|reflexivity]; exfalso; destruct (Din _ Hi) as [D1 D2]; cbn [snd] in D2.
      assert (c <= pweight b dropped)%Z.
      { apply (pweight_in b dropped l c); [|exact Hi | exact El].
        intros q Hq'; destruct (Din q Hq') as [D _]; specialize (Hc _ (combine_snd_in ls cs q D)); lia. }
      rewrite Wt in Hw; specialize (Nn b); unfold lt in *; lia. }
    destruct (A4 b 0 Zb (exO_nil _ _ _)) as [d [D1 [D2 D3]]].
    { destruct Hw as [Hw|Hw]; [now left|]; destruct Dz as [Dz|Dz]; [now left | right]; split; [cbn; lia|].
      rewrite Bv, Hb; rewrite Wt, (pweight_zero b dropped Dz) in Hw; change (2 ^ Z.of_nat 0)%Z with 1%Z; unfold t, lt in *; lia. }
    exists d; split; [exact (agree_trans n n0 a b d L0 Ag D1)|]; split; [exact D2|].
    change ([tl] :: c1 ++ c2) with ([[tl]] ++ c1 ++ c2); apply sat_app; split; [|apply sat_app; split; [|exact D3]].
    + rewrite sat1, csat1, (agree_lval n0 b d tl D1 St); exact Hb.
    + apply Hd; destruct Dz as [Dz|Dz]; [left; exact (agree_gac n0 b d gac D1 Sg0 Dz) | right].
      intros q Hi; rewrite (agree_lval n0 b d); [now apply Dz | exact D1|].
      apply Sl0, (combine_fst_in ls cs q), Din, Hi.
Qed.

(** ** Removing an element *)

Lemma swapRemove_spec : forall {A} (d : A) i l, i < length l ->
  (exists l1 x, l = l1 ++ [x] /\ length l1 = i /\ swapRemove d i l = l1) \/
  (exists l1 x l2 y, l = l1 ++ x :: l2 ++ [y] /\ length l1 = i /\ swapRemove d i l = l1 ++ y :: l2).
Proof.
  intros A d i l Hi; unfold swapRemove.
  destruct (exists_last (l := l)) as [r [y El]]; [intros ->; cbn in Hi; lia|].
  destruct (Nat.eqb_spec (i + 1) (length l)) as [E|E].
  - left; exists r, y; subst l; rewrite app_length in E; cbn in E.
    split; [reflexivity|]; split; [lia | apply removelast_last].
  - right; subst l; rewrite app_length in *; cbn [length] in *.
    destruct (nth_split r d (n := i)) as [l1 [l2 [Er L1]]]; [lia|].
    revert Er; generalize (nth i r d); intros x Er; subst r i.
    exists l1, x, l2, y; rewrite <- !app_assoc; cbn [app].
    split; [reflexivity|]; split; [reflexivity|].
    rewrite firstn_app, Nat.sub_diag, firstn_all; cbn [firstn]; rewrite app_nil_r; f_equal.
    replace (l1 ++ x :: l2 ++ [y]) with ((l1 ++ [x]) ++ l2 ++ [y])
      by (rewrite <- app_assoc; reflexivity).
    rewrite skipn_app, app_length, skipn_all2 by (rewrite app_length; cbn; lia); cbn [length].
    replace (S (length l1) - (length l1 + 1)) with 0 by lia; cbn [skipn app].
    rewrite removelast_last, app_assoc, last_last; reflexivity.
Qed.

Lemma combine_app : forall {A B} (l1 l2 : list A) (m1 m2 : list B), length l1 = length m1 ->
  combine (l1 ++ l2) (m1 ++ m2) = combine l1 m1 ++ combine l2 m2.
Proof.
  intros A B l1; induction l1 as [|x l1 IH]; intros l2 [|y m1] m2 H; try discriminate H; [reflexivity|].
  cbn; f_equal; apply IH; now injection H.
Qed.

Lemma at_mid : forall l1 x l2, at_ (l1 ++ x :: l2) (length l1) = x.
Proof. intros l1 x l2; unfold at_; apply nth_middle. Qed.

Lemma swapRemove_combine : forall i (ls : list elit) (cs : list Z), i < length ls -> length ls = length cs ->
  length (swapRemove ((Bad, true) : elit) i ls) = length (swapRemove 0%Z i cs) /\
  length (swapRemove ((Bad, true) : elit) i ls) = length ls - 1 /\
  Permutation (combine ls cs)
    ((at_ ls i, nth i cs 0%Z) :: combine (swapRemove ((Bad, true) : elit) i ls) (swapRemove 0%Z i cs)).
Proof.
  intros i ls cs Hi Hl.
  destruct (swapRemove_spec ((Bad, true) : elit) i ls Hi) as [[l1 [x [-> [L1 ->]]]]|[l1 [x [l2 [y [-> [L1 ->]]]]]]];
  destruct (swapRemove_spec 0%Z i cs ltac:(lia)) as [[m1 [u [-> [M1 ->]]]]|[m1 [u [m2 [v [-> [M1 ->]]]]]]];
    rewrite !app_length in *; cbn [length] in *; rewrite ?app_length in *; cbn [length] in *; try lia.
  - split; [lia|]; split; [lia|]; rewrite combine_app by lia; cbn [combine].
    rewrite <- L1 at 1; rewrite at_mid, <- M1, nth_middle; symmetry; apply Permutation_cons_append.
  - split; [lia|]; split; [lia|].
    rewrite !combine_app by lia; cbn [combine]; rewrite !combine_app by lia; cbn [combine].
    rewrite <- L1 at 1; rewrite at_mid, <- M1, nth_middle.
    symmetry; etransitivity; [apply Permutation_middle|]; apply Permutation_app_head, perm_skip.
    apply Permutation_cons_append.
Qed.

Lemma swapRemove_in : forall {A} (d : A) i l x, i < length l -> In x (swapRemove d i l) -> In x l.
Proof.
  intros A d i l x Hi; destruct (swapRemove_spec d i l Hi) as [[l1 [y [-> [L1 ->]]]]|[l1 [y [l2 [w [-> [L1 ->]]]]]]];
    rewrite !in_app_iff; cbn [In]; rewrite ?in_app_iff; cbn [In]; tauto.
Qed.

Lemma weight_remove : forall a i ls cs, i < length ls -> length ls = length cs ->
  weight a ls cs = ((if lval a (at_ ls i) then nth i cs 0 else 0) +
                    weight a (swapRemove ((Bad, true) : elit) i ls) (swapRemove 0%Z i cs))%Z.
Proof.
  intros a i ls cs Hi Hl; destruct (swapRemove_combine i ls cs Hi Hl) as [_ [_ P]].
  rewrite !weight_pweight; etransitivity; [exact (pweight_perm a _ _ P) | reflexivity].
Qed.

Lemma maxZ_spec : forall l m, (m <= fold_left Z.max l m)%Z /\ forall x, In x l -> (x <= fold_left Z.max l m)%Z.
Proof.
  intros l; induction l as [|y l IH]; intros m; cbn [fold_left]; [split; [lia | intros x []]|].
  destruct (IH (Z.max m y)) as [I1 I2]; split; [lia|]; intros x [<-|Hx]; [lia | now apply I2].
Qed.

Lemma goodLog_max : forall cf l c, goodLog cf -> In c l -> (1 <= c)%Z ->
  (1 <= c < 2 ^ Z.of_nat (c_log cf (maxZ l) + 1))%Z.
Proof.
  intros cf l c G Hc H1; destruct (maxZ_spec l 0%Z) as [_ M]; specialize (M c Hc); fold (maxZ l) in M.
  specialize (G (maxZ l) ltac:(lia)); lia.
Qed.

(** ** One round, all rounds *)

Lemma encodesZ_nil : forall z (P : env -> Prop) n, (forall a, P a) -> encodesZ z P n ([], n).
Proof.
  intros z P n H; split; [apply cle_refl|]; split; [intros c []|]; split; [intros a _ _; apply H|].
  intros a Za _; exists a; split; [apply agree_refl|]; split; [exact Za | apply sat_nil].
Qed.

Lemma encodesZ_nonew : forall z (P : env -> Prop) n cs, cscoped n cs -> (forall a, sat a cs <-> P a) ->
  encodesZ z P n (cs, n).
Proof.
  intros z P n cs Sc H; split; [apply cle_refl|]; cbn [fst snd]; split; [now apply cscoped_Z|]; split.
  - intros a _; apply H.
  - intros a Za Ha; exists a; split; [apply agree_refl|]; split; [exact Za | now apply H].
Qed.

Lemma weight_all_false : forall a ls cs, (forall l, In l ls -> lval a l = false) -> weight a ls cs = 0%Z.
Proof.
  intros a ls cs H; rewrite weight_pweight; apply pweight_zero; intros q Hq; apply H, (combine_fst_in ls cs q Hq).
Qed.

Lemma weight_zero_iff : forall a ls cs, length ls = length cs -> (forall c, In c cs -> 1 <= c)%Z ->
  (weight a ls cs <= 0)%Z <-> (forall l, In l ls -> lval a l = false).
Proof.
  intros a ls cs Hl Hc; split; [|intros H; rewrite weight_all_false; [lia | exact H]].
  intros H l Hi; destruct (lval a l) eqn:El; [|reflexivity]; exfalso.
  destruct (In_nth ls l ((Bad, true) : elit) Hi) as [i [Hi' Ei]].
  assert (Q : In (l, nth i cs 0%Z) (combine ls cs)).
  { rewrite <- Ei, <- combine_nth by exact Hl; apply nth_In; rewrite combine_length; lia. }
  assert (P : (1 <= nth i cs 0)%Z) by (apply Hc, nth_In; lia).
  pose proof (pweight_in a (combine ls cs) l (nth i cs 0%Z)
    ltac:(intros q Hq; specialize (Hc _ (combine_snd_in ls cs q Hq)); lia) Q El) as W.
  rewrite <- weight_pweight in W; lia.
Qed.

Definition support (cf : pbcConfig) (cs : list Z) (i : nat) : bool := negb (c_nosupport cf && c_single cf (nth i cs 0%Z)).

Lemma gacLoop_ok : forall z cf ls cs rhs, (z = true \/ c_watchdog cf = true) -> goodLog cf ->
  length ls = length cs -> 2 <= length ls -> (forall c, In c cs -> 1 <= c <= rhs)%Z ->
  forall k i n, i + k <= length ls -> scoped n ls ->
  encodesZ z (fun a => forall j, i <= j < i + k -> support cf cs j = true -> lval a (at_ ls j) = true ->
                 (weight a ls cs <= rhs)%Z) n (gacLoop cf ls cs rhs i k n).
Proof.
  intros z cf ls cs rhs Hz G Hl H2 Hc; induction k as [|k IH]; intros i n Hi Sl; cbn [gacLoop].
  { apply encodesZ_nil; intros a j Hj; lia. }
  set (x := at_ ls i); set (c := nth i cs 0%Z).
  set (rl := swapRemove ((Bad, true) : elit) i ls); set (rc := swapRemove 0%Z i cs).
  assert (Hx : In x ls) by (apply nth_In; lia).
  assert (Hcc : (1 <= c <= rhs)%Z) by (apply Hc, nth_In; lia).
  destruct (swapRemove_combine i ls cs ltac:(lia) Hl) as [R1 [R2 _]]; fold rl rc in R1, R2.
  assert (Srl : scoped n rl) by (intros l Hin; apply Sl, (swapRemove_in ((Bad, true) : elit) i ls l ltac:(lia) Hin)).
  assert (Hrc : forall d, In d rc -> In d cs) by (intros d Hin; exact (swapRemove_in 0%Z i cs d ltac:(lia) Hin)).
  assert (W : forall a, weight a ls cs = ((if lval a x then c else 0) + weight a rl rc)%Z)
    by (intros a; apply weight_remove; lia).
  assert (Sx : lscope n (neg x)) by (apply lscope_neg, Sl, Hx).
  assert (B : forall mw, (forall d, In d rc -> 1 <= d < 2 ^ Z.of_nat (c_log cf mw + 1))%Z ->
    encodesZ z (fun a => lval a x = true -> (weight a ls cs <= rhs)%Z) n
      (binaryMerge cf rl rc (rhs - c) mw (Some (neg x)) n)).
  { intros mw Hmw.
    apply (encodesZ_ext z (fun a => gacTrue a (Some (neg x)) \/ (weight a rl rc <= rhs - c)%Z)).
    - intros a; cbn [gacTrue]; rewrite lval_neg_true, W; destruct (lval a x); split.
      + intros [Q|Q] _; [discriminate | lia].
      + intros Q; right; specialize (Q eq_refl); lia.
      + intros _ Q; discriminate.
      + now left.
    - apply binaryMerge_ok; try assumption; lia. }
  assert (Bx : forall a, (rhs - c <= 0)%Z -> sat a (map (fun l => [neg x; neg l]) rl) <->
     (lval a x = true -> (weight a ls cs <= rhs)%Z)).
  { intros a Hr; rewrite sat_map, W; split.
    - intros H Ex; rewrite Ex.
      assert ((weight a rl rc <= 0)%Z); [|lia].
      apply weight_zero_iff; [exact R1 | intros d Hd; specialize (Hc d (Hrc d Hd)); lia|].
      intros l Hin; specialize (H l Hin); rewrite csat2 in H; specialize (H Ex); now apply lval_neg_true.
    - intros H l Hin; rewrite csat2; intros Ex; apply lval_neg_true; rewrite Ex in H.
      assert (Q : (weight a rl rc <= 0)%Z) by (specialize (H eq_refl); lia).
      revert l Hin; apply (proj1 (weight_zero_iff a rl rc R1 ltac:(intros d Hd; specialize (Hc d (Hrc d Hd)); lia)) Q). }
  assert (Sxc : cscoped n (map (fun l => [neg x; neg l]) rl)).
  { apply cscoped_map; intros l Hin y [<-|[<-|[]]]; [exact Sx | apply lscope_neg, Srl, Hin]. }
  match goal with |- context [let '(c1, n1) := ?t in _] => destruct t as [c1 n1] eqn:E1 end.
  assert (E : encodesZ z (fun a => support cf cs i = true -> lval a x = true -> (weight a ls cs <= rhs)%Z) n (c1, n1)).
  { rewrite <- E1; unfold support; fold c; destruct (c_nosupport cf && c_single cf c); cbn [negb].
    { apply encodesZ_nil; intros a Q; discriminate. }
    clear E1; destruct (Z.eqb_spec (maxZ cs) c) as [Em|Em].
    - destruct (Z.leb_spec (rhs - c) 0) as [Hr|Hr].
      + apply encodesZ_nonew; [exact Sxc|]; intros a; rewrite Bx by exact Hr; tauto.
      + eapply encodesZ_ext; [|apply (B (maxZ rc))]; [intros a; cbn; tauto|].
        intros d Hd; apply goodLog_max; [exact G | exact Hd | specialize (Hc d (Hrc d Hd)); lia].
    - destruct (binaryMerge cf rl rc (rhs - c) (maxZ cs) (Some (neg x)) n) as [c2 n2] eqn:E2.
      assert (B2 : encodesZ z (fun a => lval a x = true -> (weight a ls cs <= rhs)%Z) n (c2, n2)).
      { rewrite <- E2; apply B; intros d Hd; apply goodLog_max; [exact G | now apply Hrc | specialize (Hc d (Hrc d Hd)); lia]. }
      destruct (Z.leb_spec (rhs - c) 0) as [Hr|Hr].
      + apply (encodesZ_ext z (fun a => (lval a x = true -> (weight a ls cs <= rhs)%Z) /\
                                        (lval a x = true -> (weight a ls cs <= rhs)%Z))); [intros a; tauto|].
        apply (encodesZ_and z _ _ n _ n); [|exact B2|].
        * apply encodesZ_nonew; [exact Sxc|]; intros a; apply Bx, Hr.
        * intros a b Ag Q; rewrite (agree_weight n a b ls cs Ag Sl), (agree_lval n a b x Ag (Sl x Hx)); exact Q.
      + eapply encodesZ_ext; [|exact B2]; intros a; cbn; tauto. }
  clear E1; destruct (gacLoop cf ls cs rhs (S i) k n1) as [c3 n3] eqn:E3.
  assert (L1 : cle n n1) by apply E.
  pose proof (IH (S i) n1 ltac:(lia) (scoped_le _ _ _ L1 Sl)) as F; rewrite E3 in F.
  eapply encodesZ_ext; [|apply (encodesZ_and z _ _ n c1 n1 c3 n3 E F)].
  - intros a; cbn; split.
    + intros [P Q] j Hj; destruct (Nat.eq_dec j i) as [->|Hne]; [exact P | apply Q; lia].
    + intros H; split; [apply H; lia | intros j Hj; apply H; lia].
  - intros a b Ag Q j Hj Hs; rewrite (agree_weight n a b ls cs Ag Sl).
    rewrite (agree_lval n a b (at_ ls j) Ag) by (apply Sl, nth_In; lia); now apply (Q j).
Qed.

Theorem binaryMerge_constraint_ok : forall z cf ls cs rhs n, (z = true \/ c_watchdog cf = true) -> goodLog cf ->
  length ls = length cs -> 2 <= length ls -> scoped n ls -> (forall c, In c cs -> 1 <= c <= rhs)%Z ->
  encodesZ z (fun a => (weight a ls cs <= rhs)%Z) n (encodePBCBinaryMerge cf ls cs rhs n).
Proof.
  intros z cf ls cs rhs n Hz G Hl H2 Sl Hc; unfold encodePBCBinaryMerge.
  assert (Hr : (1 <= rhs)%Z) by (specialize (Hc (nth 0 cs 0%Z) (@nth_In Z 0 cs 0%Z ltac:(lia))); lia).
  destruct (c_gac cf).
  2:{ eapply encodesZ_ext; [|apply (binaryMerge_ok z cf ls cs rhs (maxZ cs) None n); try assumption; try exact I; try lia].
      - intros a; cbn; tauto.
      - intros c Hcc; apply goodLog_max; [exact G | exact Hcc | specialize (Hc c Hcc); lia]. }
  pose proof (gacLoop_ok z cf ls cs rhs Hz G Hl H2 Hc (length ls) 0 n ltac:(lia) Sl) as E.
  destruct (gacLoop cf ls cs rhs 0 (length ls) n) as [c1 n1] eqn:E1.
  assert (Wt : forall a, (exists j, j < length ls /\ lval a (at_ ls j) = true) \/ weight a ls cs = 0%Z).
  { intros a; destruct (existsb (lval a) ls) eqn:Ex.
    - left; apply existsb_exists in Ex as [l [Hin Hv]]; destruct (In_nth ls l ((Bad, true) : elit) Hin) as [j [Hj Ej]].
      exists j; split; [exact Hj|]; unfold at_; now rewrite Ej.
    - right; apply weight_all_false; intros l Hin; destruct (lval a l) eqn:El; [|reflexivity].
      assert (Q : existsb (lval a) ls = true) by (apply existsb_exists; now exists l); congruence. }
  destruct (c_nosupport cf && existsb (c_single cf) cs) eqn:Ec.
  - apply andb_true_iff in Ec as [Ens Esx]; rewrite Ens; cbn [andb].
    set (k := if c_single cf (List.last cs 0%Z) then length ls else length ls - 1).
    destruct (binaryMerge cf (firstn k ls) (firstn k cs) rhs (maxZ cs) None n1) as [c2 n2] eqn:E2.
    assert (L1 : cle n n1) by apply E.
    assert (F : encodesZ z (fun a => gacTrue a None \/ (weight a (firstn k ls) (firstn k cs) <= rhs)%Z) n1 (c2, n2)).
    { rewrite <- E2; apply binaryMerge_ok; try assumption; try exact I; try lia.
      - rewrite !firstn_length; lia.
      - apply scoped_firstn; now apply scoped_le with n.
      - intros c Hcc; assert (Hin : In c cs) by (rewrite <- (firstn_skipn k cs); apply in_app_iff; now left).
        apply goodLog_max; [exact G | exact Hin | specialize (Hc c Hin); lia]. }
    assert (Ag : forall a b, agree n a b -> weight b (firstn k ls) (firstn k cs) = weight a (firstn k ls) (firstn k cs))
      by (intros a b Q; apply (agree_weight n); [exact Q | now apply scoped_firstn]).
    eapply encodesZ_ext; [|apply (encodesZ_and z _ _ n c1 n1 c2 n2 E F)].
    + intros a; cbn [gacTrue]; split.
      * intros [P [[]|Q]]; unfold k in Q; destruct (c_single cf (List.last cs 0%Z)) eqn:El.
        -- rewrite Hl in Q at 2; now rewrite !firstn_all in Q.
        -- assert (Dl : exists ls' l, ls = ls' ++ [l] /\ length ls = length ls' + 1).
           { destruct (exists_last (l := ls)) as [r [y Ey]]; [intros ->; cbn in H2; lia|].
             exists r, y; split; [exact Ey|]; rewrite Ey, app_length; reflexivity. }
           destruct Dl as [ls' [l [Els Ell]]].
           assert (Dc : exists cs' c, cs = cs' ++ [c] /\ length cs = length cs' + 1).
           { destruct (exists_last (l := cs)) as [r [y Ey]]; [intros ->; cbn in Hl; lia|].
             exists r, y; split; [exact Ey|]; rewrite Ey, app_length; reflexivity. }
           destruct Dc as [cs' [c [Ecs Ecl]]].
           assert (Al : at_ ls (length ls') = l) by (rewrite Els; apply at_mid).
           assert (Ac : nth (length ls') cs 0%Z = c).
           { replace (length ls') with (length cs') by lia; rewrite Ecs; apply nth_middle. }
           destruct (lval a l) eqn:Ev.
           ++ apply (P (length ls')); [lia | | now rewrite Al].
              unfold support; rewrite Ac, Ens; rewrite Ecs, last_last in El; now rewrite El.
           ++ assert (Qw : weight a ls cs = weight a ls' cs').
              { rewrite !weight_pweight, Els, Ecs, combine_app by lia; cbn [combine].
                rewrite (pweight_perm a _ _ (Permutation_sym (Permutation_cons_append (combine ls' cs') (l, c)))).
                cbn [pweight]; now rewrite Ev. }
              rewrite Qw; replace (length ls - 1) with (length ls') in Q by lia.
              rewrite Els, firstn_app, Nat.sub_diag, firstn_all in Q; cbn [firstn] in Q; rewrite app_nil_r in Q.
              replace (length ls') with (length cs') in Q by lia.
              rewrite Ecs, firstn_app, Nat.sub_diag, firstn_all in Q; cbn [firstn] in Q; rewrite app_nil_r in Q.
              exact Q.
      * intros Q; split; [intros j _ _ _; exact Q|]; right.
        apply Z.le_trans with (weight a ls cs); [|exact Q].
        assert (Ek : combine ls cs = combine (firstn k ls) (firstn k cs) ++ combine (skipn k ls) (skipn k cs)).
        { rewrite <- combine_app by (rewrite !firstn_length; lia); now rewrite !firstn_skipn. }
        rewrite !weight_pweight, Ek.
        assert (Pa : forall u v, pweight a (u ++ v) = (pweight a u + pweight a v)%Z).
        { intros u v; induction u as [|[y d] u IHu]; cbn [app pweight]; [lia | rewrite IHu; lia]. }
        rewrite Pa; assert (0 <= pweight a (combine (skipn k ls) (skipn k cs)))%Z; [|lia].
        apply pweight_nonneg; intros q Hq; apply combine_snd_in in Hq.
        assert (In (snd q) cs) by (rewrite <- (firstn_skipn k cs); apply in_app_iff; now right).
        specialize (Hc (snd q) ltac:(assumption)); lia.
    + intros a b Agb; cbn [gacTrue]; now rewrite (Ag a b Agb).
  - eapply encodesZ_ext; [|exact E]; intros a; cbn; split; [|intros Q j _ _ _; exact Q].
    intros P; destruct (Wt a) as [[j [Hj Hv]]|Hw]; [|lia].
    apply (P j); [lia| |exact Hv]; unfold support.
    apply andb_false_iff in Ec as [Ec|Ec]; [now rewrite Ec|].
    destruct (c_single cf (nth j cs 0%Z)) eqn:Es; [|now rewrite andb_false_r].
    assert (Q : existsb (c_single cf) cs = true); [|congruence].
    apply existsb_exists; exists (nth j cs 0%Z); split; [apply nth_In; lia | exact Es].
Qed.
