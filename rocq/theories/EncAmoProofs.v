(** * Correctness of the at-most-one encoders *)

From Coq Require Import String List Bool Arith ZArith Lia.
From Verif Require Import EncSpec EncAmo EncLemmas.
Import ListNotations.

Definition atMost1 (ls : list elit) (a : env) : Prop := count a ls <= 1.

Ltac split_scoped :=
  repeat match goal with
         | |- scoped _ (_ :: _) => apply scoped_cons; split
         | |- scoped _ [] => apply scoped_nil
         | |- scoped _ (_ ++ _) => apply scoped_app; split
         | |- cscoped _ (_ :: _) => apply cscoped_cons; split
         | |- cscoped _ [] => apply cscoped_nil
         | |- cscoped _ (_ ++ _) => apply cscoped_app; split
         | |- lscope _ (neg _) => apply lscope_neg
         end.

(** ** Ladder *)

Lemma ladder_sat : forall a ls us, 2 <= length ls ->
  sat a (flat_map (ladderStep ls us) (seq 0 (length ls))) <->
  (forall i, i < length ls - 1 -> lval a (at_ ls i) = true -> lval a (at_ us i) = true) /\
  (forall i, 0 < i < length ls - 1 -> lval a (at_ us (i - 1)) = true -> lval a (at_ us i) = true) /\
  (forall i, 0 < i < length ls -> lval a (at_ ls i) = true -> lval a (at_ us (i - 1)) = false).
Proof.
  intros a ls us Hn; rewrite sat_flat_map; split.
  - intros H; repeat split; intros i Hi.
    + specialize (H i ltac:(apply in_seq; lia)); unfold ladderStep in H.
      destruct (Nat.eqb_spec i 0) as [Ei|Ei]; [rewrite Ei in *; rewrite sat1, csat2 in H; exact H|].
      destruct (Nat.eqb_spec i (length ls - 1)); [lia|].
      apply sat_cons in H as [H _]; rewrite csat2 in H; exact H.
    + specialize (H i ltac:(apply in_seq; lia)); unfold ladderStep in H.
      destruct (Nat.eqb_spec i 0) as [Ei|Ei]; [rewrite Ei in *; lia|].
      destruct (Nat.eqb_spec i (length ls - 1)); [lia|].
      apply sat_cons in H as [_ H]; apply sat_cons in H as [H _]; rewrite csat2 in H; exact H.
    + specialize (H i ltac:(apply in_seq; lia)); unfold ladderStep in H.
      destruct (Nat.eqb_spec i 0) as [Ei|Ei]; [rewrite Ei in *; lia|].
      intros Hv; apply lval_neg_true.
      destruct (Nat.eqb_spec i (length ls - 1)).
      * apply sat1 in H; apply (proj1 (csat2 _ _ _) H Hv).
      * apply sat_cons in H as [_ H]; apply sat_cons in H as [_ H]; apply sat1 in H.
        apply (proj1 (csat2 _ _ _) H Hv).
  - intros [H1 [H2 H3]] i Hi; apply in_seq in Hi; unfold ladderStep.
    destruct (Nat.eqb_spec i 0) as [Ei|Ei]; [rewrite Ei in *; apply sat1, csat2; apply H1; lia|].
    destruct (Nat.eqb_spec i (length ls - 1)).
    + apply sat1, csat2; intros Hv; apply lval_neg_true, H3; [lia | exact Hv].
    + apply sat_cons; split; [apply csat2, H1; lia|].
      apply sat_cons; split; [apply csat2, H2; lia|].
      apply sat1, csat2; intros Hv; apply lval_neg_true, H3; [lia | exact Hv].
Qed.

Lemma ladder_ok : forall ls n, 2 <= length ls -> scoped n ls ->
  encodes (atMost1 ls) n (ladder ls n).
Proof.
  intros ls n Hn Hs; unfold ladder; split; [apply cle_bump|]; simpl.
  set (us := auxs ACC (length ls - 1) n).
  assert (Hu : length us = length ls - 1) by apply auxs_length.
  split; [|split].
  - apply cscoped_flat_map; intros i Hi; apply in_seq in Hi.
    assert (Hl : forall k, k < length ls -> lscope (bump ACC (length ls - 1) n) (at_ ls k)).
    { intros k Hk; apply lscope_le with n; [apply cle_bump | now apply scoped_at]. }
    assert (Hx : forall k, k < length ls - 1 -> lscope (bump ACC (length ls - 1) n) (at_ us k)).
    { intros k Hk; apply scoped_at; [apply auxs_scoped | lia]. }
    unfold ladderStep; destruct (Nat.eqb_spec i 0) as [Ei|Ei];
      [|destruct (Nat.eqb_spec i (length ls - 1))]; split_scoped; try (apply Hl; lia); apply Hx; lia.
  - intros a Ha; apply ladder_sat in Ha as [H1 [H2 H3]]; [|exact Hn].
    apply count_le1; intros i j Hij Hj Hi' Hj'.
    assert (Hup : forall d, i + d < length ls - 1 -> lval a (at_ us (i + d)) = true).
    { induction d as [|d IH]; intros Hd; [rewrite Nat.add_0_r in *; apply H1; [lia | exact Hi']|].
      apply H2; [lia|]. replace (i + S d - 1) with (i + d) by lia. apply IH; lia. }
    specialize (Hup (j - 1 - i) ltac:(lia)); replace (i + (j - 1 - i)) with (j - 1) in Hup by lia.
    rewrite (H3 j) in Hup; [discriminate | lia | exact Hj'].
  - intros a Ha.
    set (F := fun i => existsb (fun j => lval a (at_ ls j)) (seq 0 (S i))).
    assert (HF : forall i, F i = true <-> exists j, j <= i /\ lval a (at_ ls j) = true).
    { intros i; unfold F; rewrite existsb_exists; split.
      - intros [j [Hj Ej]]; apply in_seq in Hj; exists j; split; [lia | exact Ej].
      - intros [j [Hj Ej]]; exists j; split; [apply in_seq; lia | exact Ej]. }
    exists (upd ACC (fresh ACC n) F a); split; [apply upd_agree|].
    apply ladder_sat; [exact Hn|].
    assert (Hl : forall i, i < length ls -> lval (upd ACC (fresh ACC n) F a) (at_ ls i) = lval a (at_ ls i)).
    { intros i Hi; apply upd_lval, scoped_at; assumption. }
    assert (Hx : forall i, i < length ls - 1 -> lval (upd ACC (fresh ACC n) F a) (at_ us i) = F i).
    { intros i Hi; apply upd_at; lia. }
    repeat split; intros i Hi.
    + rewrite Hl, Hx by lia; intros Hv; apply HF; exists i; split; [lia | exact Hv].
    + rewrite !Hx by lia; rewrite !HF; intros [j [Hj Ej]]; exists j; split; [lia | exact Ej].
    + rewrite Hl, Hx by lia; intros Hv; destruct (F (i - 1)) eqn:E; [|reflexivity].
      apply HF in E as [j [Hj Ej]]; exfalso.
      apply (proj1 (count_le1 a ls) Ha j i); auto; lia.
Qed.

(** ** Nested *)

Lemma nested_ok : forall fuel gs ls n,
  (gs = 0 \/ 3 <= gs) -> 1 <= length ls <= fuel -> scoped n ls ->
  encodes (atMost1 ls) n (nested fuel gs ls n).
Proof.
  induction fuel as [|fuel IH]; intros gs ls n Hgs Hf Hs; [lia|].
  cbn [nested]; set (gs' := if gs =? 0 then 4 else gs).
  assert (Hg : 3 <= gs') by (unfold gs'; destruct (Nat.eqb_spec gs 0); lia).
  destruct (Nat.leb_spec (length ls) gs') as [Hle|Hgt]; [now apply encodes_pure|].
  set (h := length ls / 2); set (x := at_ (auxs ACC 1 n) 0); set (n1 := bump ACC 1 n).
  assert (Hh : 2 * h <= length ls /\ length ls <= 2 * h + 1).
  { pose proof (Nat.div_mod (length ls) 2 ltac:(lia)) as E.
    pose proof (Nat.mod_upper_bound (length ls) 2 ltac:(lia)); fold h in E; lia. }
  assert (Hx1 : lscope n1 x) by (apply scoped_at; [apply auxs_scoped | rewrite auxs_length; lia]).
  assert (Hs1 : scoped n1 ls) by (apply scoped_le with n; [apply cle_bump | exact Hs]).
  assert (L1 : length (firstn h ls) = h) by (rewrite firstn_length; lia).
  assert (L2 : length (skipn h ls) = length ls - h) by (rewrite skipn_length; lia).
  assert (Hl1 : scoped n1 (firstn h ls ++ [x])).
  { split_scoped; [now apply scoped_firstn | exact Hx1]. }
  pose proof (IH gs' (firstn h ls ++ [x]) n1 ltac:(lia)
                 ltac:(rewrite app_length; simpl; lia) Hl1) as E1.
  destruct (nested fuel gs' (firstn h ls ++ [x]) n1) as [c1 n2].
  destruct E1 as [Hn2 [Hc1 [Hs1' Hk1]]]; cbn [fst snd] in *.
  assert (Hl2 : scoped n2 (skipn h ls ++ [neg x])).
  { apply scoped_le with n1; [exact Hn2|]; split_scoped; [now apply scoped_skipn | exact Hx1]. }
  pose proof (IH gs' (skipn h ls ++ [neg x]) n2 ltac:(lia)
                 ltac:(rewrite app_length; simpl; lia) Hl2) as E2.
  destruct (nested fuel gs' (skipn h ls ++ [neg x]) n2) as [c2 n3].
  destruct E2 as [Hn3 [Hc2 [Hs2' Hk2]]]; cbn [fst snd] in *.
  unfold atMost1 in *.
  split; [|split; [|split]]; cbn [fst snd].
  - eapply cle_trans; [apply cle_bump|]; eapply cle_trans; eassumption.
  - split_scoped; [now apply cscoped_le with n2 | exact Hc2].
  - intros a Ha; apply sat_app in Ha as [Ha1 Ha2]; apply Hs1' in Ha1; apply Hs2' in Ha2.
    rewrite (count_skipn_firstn a h ls); rewrite count_app in Ha1, Ha2; simpl in Ha1, Ha2.
    rewrite lval_neg in Ha2; destruct (lval a x); simpl in *; lia.
  - intros a Ha; rewrite (count_skipn_firstn a h ls) in Ha.
    set (b := upd ACC (fresh ACC n) (fun _ => 1 <=? count a (skipn h ls)) a).
    assert (Hbx : lval b x = (1 <=? count a (skipn h ls))) by (unfold b, x; rewrite upd_at by lia; reflexivity).
    assert (Hab : agree n a b) by apply upd_agree.
    assert (Hb1 : count b (firstn h ls) = count a (firstn h ls))
      by (eapply agree_count; [exact Hab | now apply scoped_firstn]).
    assert (Hb2 : count b (skipn h ls) = count a (skipn h ls))
      by (eapply agree_count; [exact Hab | now apply scoped_skipn]).
    destruct (Hk1 b) as [b1 [Ag1 Sb1]].
    { rewrite count_app; simpl; rewrite Hb1, Hbx; destruct (Nat.leb_spec 1 (count a (skipn h ls))); lia. }
    destruct (Hk2 b1) as [b2 [Ag2 Sb2]].
    { rewrite (agree_count n1 b b1 _ Ag1) by (split_scoped; [now apply scoped_skipn | exact Hx1]).
      rewrite count_app; simpl; rewrite Hb2, lval_neg, Hbx.
      destruct (Nat.leb_spec 1 (count a (skipn h ls))); simpl; lia. }
    exists b2; split.
    + apply agree_trans with n1 b; [apply cle_bump | exact Hab|].
      apply agree_trans with n2 b1; assumption.
    + apply sat_app; split; [exact (agree_sat n2 b1 b2 c1 Ag2 Hc1 Sb1) | exact Sb2].
Qed.

(** ** Product *)

Lemma cdiv_ge : forall a b, 1 <= b -> a <= b * cdiv a b.
Proof.
  intros a b Hb; unfold cdiv.
  pose proof (Nat.div_mod (a + (b - 1)) b ltac:(lia)) as E.
  pose proof (Nat.mod_upper_bound (a + (b - 1)) b ltac:(lia)); lia.
Qed.

Lemma cdiv_le : forall a b, 1 <= a -> 1 <= b -> cdiv a b <= a.
Proof.
  intros a b Ha Hb; unfold cdiv.
  assert (H : (a + (b - 1)) / b < S a); [|lia].
  apply Nat.div_lt_upper_bound; [lia|]; nia.
Qed.

Lemma cdiv_half : forall a b, 2 <= b -> 3 <= a -> cdiv a b < a.
Proof.
  intros a b Hb Ha; unfold cdiv; apply Nat.div_lt_upper_bound; [lia|]; nia.
Qed.

Lemma cdiv_pos : forall a b, 1 <= a -> 1 <= b -> 1 <= cdiv a b.
Proof.
  intros a b Ha Hb; pose proof (cdiv_ge a b Hb); destruct (cdiv a b); lia.
Qed.

Lemma csqrt_spec : forall n, n <= csqrt n * csqrt n.
Proof.
  intros n; unfold csqrt; pose proof (Nat.sqrt_spec n ltac:(lia)) as H; simpl in H.
  destruct (Nat.eqb_spec (Nat.sqrt n * Nat.sqrt n) n); [lia | simpl; lia].
Qed.

Lemma csqrt_pos : forall n, 1 <= n -> 1 <= csqrt n.
Proof. intros n H; pose proof (csqrt_spec n); destruct (csqrt n); lia. Qed.

Lemma csqrt_ge2 : forall n, 2 <= n -> 2 <= csqrt n.
Proof.
  intros n H; pose proof (csqrt_spec n); destruct (csqrt n) as [|[|]]; lia.
Qed.

Lemma csqrt_lt : forall n, 3 <= n -> csqrt n < n.
Proof.
  intros n Hn; unfold csqrt; pose proof (Nat.sqrt_spec n ltac:(lia)) as H; simpl in H.
  destruct (Nat.eqb_spec (Nat.sqrt n * Nat.sqrt n) n); nia.
Qed.

Lemma links_sat : forall a ls us vs p q, length ls <= p * q ->
  sat a (productLinks ls us vs p q) <->
  forall k, k < length ls -> lval a (at_ ls k) = true ->
    lval a (at_ us (k / q)) = true /\ lval a (at_ vs (k mod q)) = true.
Proof.
  intros a ls us vs p q Hpq; unfold productLinks; rewrite sat_flat_map; split.
  - intros H k Hk Hv.
    assert (Hq : q <> 0) by (intros ->; lia).
    pose proof (Nat.div_mod k q Hq) as E; pose proof (Nat.mod_upper_bound k q Hq) as Hr.
    assert (Hd : k / q < p) by (apply Nat.div_lt_upper_bound; nia).
    specialize (H (k / q) ltac:(apply in_seq; lia)); rewrite sat_flat_map in H.
    specialize (H (k mod q) ltac:(apply in_seq; lia)); cbv zeta in H.
    replace (k / q * q + k mod q) with k in H by lia.
    destruct (Nat.ltb_spec k (length ls)); [|lia].
    apply sat_cons in H as [H1 H2]; apply sat1 in H2; rewrite csat2 in H1, H2; auto.
  - intros H i Hi; apply in_seq in Hi; apply sat_flat_map; intros j Hj; apply in_seq in Hj; cbv zeta.
    destruct (Nat.ltb_spec (i * q + j) (length ls)) as [Hk|]; [|apply sat_nil].
    assert (Hd : (i * q + j) / q = i) by (rewrite Nat.div_add_l, Nat.div_small; lia).
    assert (Hm : (i * q + j) mod q = j) by (rewrite Nat.add_comm, Nat.mod_add, Nat.mod_small; lia).
    apply sat_cons; split; [|apply sat1]; apply csat2; intros Hv; destruct (H _ Hk Hv) as [A B];
      rewrite ?Hd in A; rewrite ?Hm in B; assumption.
Qed.

(** A list of length [p] in which only position [i] is true. *)
Lemma one_hot : forall a l i, (forall k, k < length l -> lval a (at_ l k) = (k =? i)) -> count a l <= 1.
Proof.
  intros a l i H; apply count_le1; intros j k Hjk Hk Hj' Hk'.
  rewrite H in Hj', Hk' by lia; apply Nat.eqb_eq in Hj', Hk'; lia.
Qed.

(** The single true position of a list, if there is one. *)
Fixpoint firstTrue (a : env) (l : list elit) : nat :=
  match l with
  | [] => 0
  | x :: r => if lval a x then 0 else S (firstTrue a r)
  end.

Lemma firstTrue_true : forall a l, 1 <= count a l ->
  firstTrue a l < length l /\ lval a (at_ l (firstTrue a l)) = true.
Proof.
  intros a l; induction l as [|x l IH]; simpl; intros H; [lia|].
  destruct (lval a x) eqn:E; [split; [lia | exact E]|].
  destruct (IH ltac:(lia)) as [H1 H2]; split; [lia | exact H2].
Qed.

Lemma firstTrue_only : forall a l k, count a l <= 1 -> k < length l -> lval a (at_ l k) = true ->
  k = firstTrue a l.
Proof.
  intros a l k Hc Hk Hv.
  assert (H1 : 1 <= count a l) by (apply count_pos; exists (at_ l k); split; [now apply at_in | exact Hv]).
  destruct (firstTrue_true a l H1) as [H2 H3].
  destruct (Nat.lt_trichotomy k (firstTrue a l)) as [H|[H|H]]; [exfalso | exact H | exfalso].
  - apply (proj1 (count_le1 a l) Hc k (firstTrue a l)); auto.
  - apply (proj1 (count_le1 a l) Hc (firstTrue a l) k); auto.
Qed.

Lemma product_ok : forall fuel bound ls n,
  (bound = 0 \/ 2 <= bound) -> 2 <= length ls <= fuel -> scoped n ls ->
  encodes (atMost1 ls) n (product fuel bound ls n).
Proof.
  induction fuel as [|fuel IH]; intros bound ls n Hb Hf Hs; [lia|].
  cbn [product]; set (bound' := if bound =? 0 then 20 else bound).
  assert (Hbd : 2 <= bound') by (unfold bound'; destruct (Nat.eqb_spec bound 0); lia).
  set (m := length ls) in *; set (p := csqrt m); set (q := cdiv m p).
  assert (Hp : 2 <= p) by (apply csqrt_ge2; lia).
  assert (Hpq : m <= p * q) by (apply cdiv_ge; lia).
  assert (Hq : 1 <= q) by (apply cdiv_pos; lia).
  set (us := auxs ACC p n); set (n1 := bump ACC p n).
  set (vs := auxs ACC q n1); set (n2 := bump ACC q n1).
  assert (Lu : length us = p) by apply auxs_length.
  assert (Lv : length vs = q) by apply auxs_length.
  assert (Su : scoped n2 us) by (apply scoped_le with n1; [apply cle_bump | apply auxs_scoped]).
  assert (Sv : scoped n2 vs) by apply auxs_scoped.
  assert (E1 : encodes (atMost1 us) n2 (if p <=? bound' then (pure us, n2) else product fuel bound' us n2)).
  { destruct (Nat.leb_spec p bound'); [now apply encodes_pure|].
    apply IH; [lia | | exact Su]; rewrite Lu.
    assert (3 <= m) by (unfold p, csqrt in *; destruct m as [|[|[|]]]; [lia | lia | cbn in *; lia | lia]).
    pose proof (csqrt_lt m ltac:(lia)) as Hlt; fold p in Hlt; lia. }
  destruct (if p <=? bound' then (pure us, n2) else product fuel bound' us n2) as [c1 n3].
  destruct E1 as [Hn3 [Hc1 [Hs1 Hk1]]]; cbn [fst snd] in *.
  assert (Sv3 : scoped n3 vs) by (apply scoped_le with n2; assumption).
  assert (E2 : encodes (atMost1 vs) n3 (if q <=? bound' then (pure vs, n3) else product fuel bound' vs n3)).
  { destruct (Nat.leb_spec q bound'); [now apply encodes_pure|].
    apply IH; [lia | | exact Sv3]; rewrite Lv.
    assert (q <= m) by (apply cdiv_le; lia).
    pose proof (cdiv_half m p ltac:(lia) ltac:(lia)) as Hlt; fold q in Hlt; lia. }
  destruct (if q <=? bound' then (pure vs, n3) else product fuel bound' vs n3) as [c2 n4].
  destruct E2 as [Hn4 [Hc2 [Hs2 Hk2]]]; cbn [fst snd] in *.
  assert (H02 : cle n n2) by (apply cle_trans with n1; apply cle_bump).
  assert (H04 : cle n n4) by (apply cle_trans with n2; [exact H02 | apply cle_trans with n3; assumption]).
  assert (H24 : cle n2 n4) by (apply cle_trans with n3; assumption).
  assert (Hdm : forall k, k < m -> k / q < p /\ k mod q < q).
  { intros k Hk; split; [apply Nat.div_lt_upper_bound; nia | apply Nat.mod_upper_bound; lia]. }
  assert (Sl : cscoped n2 (productLinks ls us vs p q)).
  { apply cscoped_flat_map; intros i Hi; apply in_seq in Hi.
    apply cscoped_flat_map; intros j Hj; apply in_seq in Hj; cbv zeta.
    destruct (Nat.ltb_spec (i * q + j) (length ls)) as [Hk|]; [|apply cscoped_nil].
    assert (lscope n2 (at_ ls (i * q + j))) by (apply lscope_le with n; [exact H02 | now apply scoped_at]).
    assert (lscope n2 (at_ us i)) by (apply scoped_at; [exact Su | lia]).
    assert (lscope n2 (at_ vs j)) by (apply scoped_at; [exact Sv | lia]).
    split_scoped; assumption. }
  unfold atMost1 in *.
  split; [|split; [|split]]; cbn [fst snd].
  - exact H04.
  - split_scoped; [now apply cscoped_le with n3 | exact Hc2 | now apply cscoped_le with n2].
  - intros a Ha; apply sat_app in Ha as [Ha1 Ha]; apply sat_app in Ha as [Ha2 Ha3].
    apply Hs1 in Ha1; apply Hs2 in Ha2.
    pose proof (proj1 (links_sat a ls us vs p q Hpq) Ha3) as Hl.
    apply count_le1; intros i j Hij Hj Hi' Hj'; fold m in Hj.
    destruct (Hl i ltac:(fold m; lia) Hi') as [A1 A2]; destruct (Hl j Hj Hj') as [B1 B2].
    destruct (Hdm i ltac:(lia)) as [I1 I2]; destruct (Hdm j Hj) as [J1 J2].
    pose proof (firstTrue_only a us _ Ha1 ltac:(rewrite Lu; exact I1) A1) as X1.
    pose proof (firstTrue_only a us _ Ha1 ltac:(rewrite Lu; exact J1) B1) as X2.
    pose proof (firstTrue_only a vs _ Ha2 ltac:(rewrite Lv; exact I2) A2) as Y1.
    pose proof (firstTrue_only a vs _ Ha2 ltac:(rewrite Lv; exact J2) B2) as Y2.
    pose proof (Nat.div_mod i q ltac:(lia)); pose proof (Nat.div_mod j q ltac:(lia)).
    assert (i = j) by nia. lia.
  - intros a Ha; set (t := firstTrue a ls).
    set (F := fun i => if i <? p then i =? t / q else i - p =? t mod q).
    set (b := upd ACC (fresh ACC n) F a).
    assert (Hab : agree n a b) by apply upd_agree.
    assert (Bu : forall i, i < p -> lval b (at_ us i) = (i =? t / q)).
    { intros i Hi; unfold b, us; rewrite upd_at by exact Hi; unfold F.
      destruct (Nat.ltb_spec i p); [reflexivity | lia]. }
    assert (Bv : forall i, i < q -> lval b (at_ vs i) = (i =? t mod q)).
    { intros i Hi; unfold b, vs; rewrite auxs_at by exact Hi.
      unfold n1; rewrite fresh_bump, <- Nat.add_assoc, upd_aux; unfold F.
      destruct (Nat.ltb_spec (p + i) p); [lia|]; f_equal; lia. }
    destruct (Hk1 b) as [b1 [Ag1 Sb1]].
    { apply one_hot with (t / q); rewrite Lu; exact Bu. }
    destruct (Hk2 b1) as [b2 [Ag2 Sb2]].
    { rewrite (agree_count n2 b b1 _ Ag1 Sv); apply one_hot with (t mod q); rewrite Lv; exact Bv. }
    assert (Ag02 : agree n2 b b2) by (apply agree_trans with n3 b1; assumption).
    exists b2; split; [apply agree_trans with n2 b; assumption|].
    apply sat_app; split; [exact (agree_sat n3 b1 b2 c1 Ag2 Hc1 Sb1)|].
    apply sat_app; split; [exact Sb2|].
    apply (agree_sat n2 b b2 _ Ag02 Sl).
    apply links_sat; [exact Hpq|]; intros k Hk Hv.
    assert (Hv' : lval a (at_ ls k) = true).
    { rewrite <- Hv; symmetry; apply (agree_lval n a b _ Hab), scoped_at; assumption. }
    pose proof (firstTrue_only a ls k Ha Hk Hv') as Ek; fold t in Ek; subst k.
    destruct (Hdm t Hk) as [D1 D2]; rewrite Bu, Bv, !Nat.eqb_refl by assumption; auto.
Qed.

(** ** Commander *)

Lemma commanderGroup_sat : forall a exact g c,
  sat a (commanderGroup exact g c) <->
  count a g <= 1 /\ (exact = true -> lval a c = true \/ 1 <= count a g) /\
  (lval a c = true -> count a g = 0).
Proof.
  intros a exact g c; unfold commanderGroup; rewrite !sat_app, pure_sat, sat_map.
  assert (E1 : sat a (if exact then [g ++ [c]] else []) <->
               (exact = true -> lval a c = true \/ 1 <= count a g)).
  { destruct exact.
    - rewrite sat1, csat_app, csat1, csat_exists; intuition.
    - split; [discriminate | intros _; apply sat_nil]. }
  assert (E2 : (forall x, In x g -> csat a [neg c; neg x]) <-> (lval a c = true -> count a g = 0)).
  { rewrite count_zero; split.
    - intros H Hc x Hx; apply lval_neg_true; now apply (proj1 (csat2 _ _ _) (H x Hx)).
    - intros H x Hx; apply csat2; intros Hc; apply lval_neg_true; auto. }
  rewrite E1, E2; tauto.
Qed.

Lemma commanderPass_ok : forall exact gs ls g n cs nx n',
  scoped n (g ++ ls) -> (ls = [] -> g = []) ->
  commanderPass exact gs g ls n = (cs, nx, n') ->
  cle n n' /\ cscoped n' cs /\ scoped n' nx /\
  (forall a, sat a cs -> count a (g ++ ls) <= count a nx /\
                         (exact = true -> count a (g ++ ls) = count a nx)) /\
  (forall a t, count a (g ++ ls) <= t <= 1 -> (exact = true -> t = count a (g ++ ls)) ->
               (ls = [] -> t = 0) ->
               exists b, agree n a b /\ sat b cs /\ count b nx = t).
Proof.
  intros exact gs ls; induction ls as [|x r IH]; intros g n cs nx n' Hs Hg E; cbn [commanderPass] in E.
  - injection E as <- <- <-; rewrite (Hg eq_refl) in *; cbn [app count].
    split; [apply cle_refl|]; split; [apply cscoped_nil|]; split; [apply scoped_nil|]; split.
    + intros a _; split; [lia | reflexivity].
    + intros a t Ht _ Hz; exists a; split; [apply agree_refl|]; split; [apply sat_nil|].
      symmetry; exact (Hz eq_refl).
  - destruct ((length (g ++ [x]) =? gs) || (length r =? 0)) eqn:Ec.
    + set (c := at_ (auxs ACC 1 n) 0) in *.
      destruct (commanderPass exact gs [] r (bump ACC 1 n)) as [[cs2 nx2] n2] eqn:E2.
      injection E as <- <- <-.
      set (n1 := bump ACC 1 n) in *.
      assert (Hn1 : cle n n1) by apply cle_bump.
      assert (Hc : lscope n1 c) by (apply scoped_at; [apply auxs_scoped | rewrite auxs_length; lia]).
      assert (Eq : g ++ x :: r = (g ++ [x]) ++ r) by now rewrite <- app_assoc.
      rewrite Eq in *; apply scoped_app in Hs as [Hsg Hsr].
      destruct (IH [] n1 cs2 nx2 n2 ltac:(now apply scoped_le with n) ltac:(auto) E2)
        as [H1 [H2 [H3 [H4 H5]]]]; cbn [app] in H4, H5.
      set (G := g ++ [x]) in *.
      assert (SG : scoped n2 G) by (apply scoped_le with n; [apply cle_trans with n1; assumption | exact Hsg]).
      assert (Sc : lscope n2 c) by (apply lscope_le with n1; assumption).
      split; [apply cle_trans with n1; assumption|].
      split; [|split; [|split]].
      * apply cscoped_app; split; [|exact H2]; unfold commanderGroup; split_scoped.
        -- now apply pure_scoped.
        -- destruct exact; split_scoped; assumption.
        -- apply cscoped_map; intros y Hy; split_scoped; [exact Sc | exact (SG y Hy)].
      * split_scoped; assumption.
      * intros a Ha; apply sat_app in Ha as [Ha1 Ha2]; apply commanderGroup_sat in Ha1 as [A1 [A2 A3]].
        destruct (H4 a Ha2) as [B1 B2]; rewrite count_app; cbn [count]; rewrite lval_neg.
        destruct (lval a c); simpl.
        -- rewrite (A3 eq_refl); split; [lia | intros He; rewrite (B2 He); reflexivity].
        -- split; [lia|]; intros He; destruct (A2 He); [discriminate|]; rewrite (B2 He); lia.
      * intros a t Ht He Hz; rewrite count_app in Ht, He.
        set (b := upd ACC (fresh ACC n) (fun _ => negb (count a r <? t)) a).
        assert (Hab : agree n a b) by apply upd_agree.
        assert (Hbc : lval b c = negb (count a r <? t)) by (unfold b, c; rewrite upd_at by lia; reflexivity).
        assert (HbG : count b G = count a G) by exact (agree_count n a b G Hab Hsg).
        assert (Hbr : count b r = count a r) by exact (agree_count n a b r Hab Hsr).
        destruct (H5 b (count a r)) as [b' [Ag [Sb Eb]]];
          [rewrite Hbr; lia | intros _; now rewrite Hbr | intros ->; reflexivity |].
        exists b'; split; [apply agree_trans with n1 b; assumption|]; split.
        -- apply sat_app; split; [|exact Sb]; apply commanderGroup_sat.
           rewrite (agree_count n1 b b' G Ag) by now apply scoped_le with n.
           rewrite (agree_lval n1 b b' c Ag Hc), HbG, Hbc.
           destruct (Nat.ltb_spec (count a r) t); simpl.
           ++ split; [lia|]; split; [|discriminate]; intros Hx; specialize (He Hx); right; lia.
           ++ split; [lia|]; split; [auto|]; intros _; lia.
        -- cbn [count]; rewrite lval_neg, (agree_lval n1 b b' c Ag Hc), Hbc, Eb.
           destruct (Nat.ltb_spec (count a r) t); simpl; lia.
    + assert (Eq : g ++ x :: r = (g ++ [x]) ++ r) by now rewrite <- app_assoc.
      rewrite Eq in *.
      apply orb_false_elim in Ec as [_ Ec]; apply Nat.eqb_neq in Ec.
      destruct (IH (g ++ [x]) n cs nx n' Hs ltac:(intros ->; simpl in Ec; lia) E) as [H1 [H2 [H3 [H4 H5]]]].
      repeat (split; [assumption|]).
      intros a t Ht He Hz; apply H5; auto; intros ->; simpl in Ec; lia.
Qed.

Lemma commanderPass_length : forall exact gs ls g n cs nx n', 2 <= gs ->
  commanderPass exact gs g ls n = (cs, nx, n') ->
  2 * length nx <= length g + length ls + 1 /\ (ls <> [] -> nx <> []).
Proof.
  intros exact gs ls; induction ls as [|x r IH]; intros g n cs nx n' Hgs E; cbn [commanderPass] in E.
  - injection E as <- <- <-; simpl; split; [lia | congruence].
  - destruct ((length (g ++ [x]) =? gs) || (length r =? 0)) eqn:Ec.
    + destruct (commanderPass exact gs [] r (bump ACC 1 n)) as [[cs2 nx2] n2] eqn:E2.
      injection E as <- <- <-.
      destruct (IH [] (bump ACC 1 n) cs2 nx2 n2 Hgs E2) as [H1 H2]; simpl in *.
      split; [|discriminate].
      apply orb_true_iff in Ec as [Ec|Ec]; apply Nat.eqb_eq in Ec.
      * rewrite app_length in Ec; simpl in Ec; lia.
      * destruct r; [|discriminate]; cbn in E2; injection E2 as <- <- <-; simpl; lia.
    + destruct (IH (g ++ [x]) n cs nx n' Hgs E) as [H1 H2].
      rewrite app_length in H1; simpl in H1 |- *; split; [lia|].
      intros _; apply H2; intros ->; simpl in Ec; rewrite orb_true_r in Ec; discriminate.
Qed.

Lemma commanderLoop_ok : forall fuel (exact : bool) gs ls n, 2 <= gs -> 1 <= length ls < fuel -> scoped n ls ->
  encodes (fun a => if exact then count a ls = 1 else count a ls <= 1) n (commanderLoop fuel exact gs ls n).
Proof.
  induction fuel as [|fuel IH]; intros exact gs ls n Hgs Hf Hs; [lia|].
  cbn [commanderLoop]; destruct (Nat.leb_spec (length ls) gs) as [Hle|Hgt].
  - assert (E : (0 <? length ls) = true) by (apply Nat.ltb_lt; lia); rewrite E, andb_true_r.
    assert (Hsat : forall a, sat a (pure ls ++ (if exact then [ls] else [])) <->
                             if exact then count a ls = 1 else count a ls <= 1).
    { intros a; rewrite sat_app, pure_sat; destruct exact.
      - rewrite sat1, csat_exists; lia.
      - split; [tauto | intros; split; [assumption | apply sat_nil]]. }
    split; [apply cle_refl|]; cbn [fst snd]; split; [|split].
    + apply cscoped_app; split; [now apply pure_scoped|]; destruct exact; split_scoped; assumption.
    + intros a; apply Hsat.
    + intros a Ha; exists a; split; [apply agree_refl | now apply Hsat].
  - destruct (commanderPass exact gs [] ls n) as [[cs nx] n1] eqn:E.
    destruct (commanderPass_length _ _ _ _ _ _ _ _ Hgs E) as [L1 L2]; simpl in L1.
    destruct (commanderPass_ok _ _ _ [] _ _ _ _ Hs (fun _ => eq_refl) E) as [H1 [H2 [H3 [H4 H5]]]].
    cbn [app] in H4, H5.
    assert (Hne : ls <> []) by (intros ->; simpl in *; lia).
    assert (Lnx : 1 <= length nx) by (destruct nx; [now specialize (L2 Hne) | simpl; lia]).
    pose proof (IH true gs nx n1 Hgs ltac:(lia) H3) as E2.
    destruct (commanderLoop fuel true gs nx n1) as [cs' n2].
    destruct E2 as [K1 [K2 [K3 K4]]]; cbn [fst snd] in *.
    split; [apply cle_trans with n1; assumption|]; cbn [fst snd]; split; [|split].
    + apply cscoped_app; split; [now apply cscoped_le with n1 | exact K2].
    + intros a Ha; apply sat_app in Ha as [Ha1 Ha2]; apply K3 in Ha2; destruct (H4 a Ha1) as [A B].
      destruct exact; [rewrite (B eq_refl); exact Ha2 | lia].
    + intros a Ha.
      destruct (H5 a 1) as [b [Ag [Sb Eb]]]; [destruct exact; lia | intros ->; lia | congruence |].
      destruct (K4 b Eb) as [b' [Ag' Sb']].
      exists b'; split; [apply agree_trans with n1 b; assumption|].
      apply sat_app; split; [exact (agree_sat n1 b b' cs Ag' H2 Sb) | exact Sb'].
Qed.

Lemma commander_ok : forall gs ls n, gs = 0 \/ 2 <= gs -> 1 <= length ls -> scoped n ls ->
  encodes (atMost1 ls) n (commander gs ls n).
Proof.
  intros gs ls n Hgs Hl Hs; unfold commander.
  apply (commanderLoop_ok (S (length ls)) false); [destruct (Nat.eqb_spec gs 0); lia | lia | exact Hs].
Qed.

(** ** Gray codes: binary and bimander *)

Lemma testbit_gray_S : forall i j, Nat.testbit (gray i) (S j) = Nat.testbit (gray (Nat.div2 i)) j.
Proof. intros i j; unfold gray; rewrite !Nat.lxor_spec; reflexivity. Qed.

Lemma testbit_gray_0 : forall i, Nat.testbit (gray i) 0 = xorb (Nat.odd i) (Nat.odd (Nat.div2 i)).
Proof. intros i; unfold gray; rewrite Nat.lxor_spec; reflexivity. Qed.

Lemma div2_lt : forall n x, x < 2 ^ S n -> Nat.div2 x < 2 ^ n.
Proof.
  intros n x H; pose proof (Nat.div2_odd x) as E; simpl in H; destruct (Nat.odd x); simpl in E; lia.
Qed.

Lemma div2_eq_parity : forall x y, Nat.div2 x = Nat.div2 y -> x <> y -> Nat.odd x <> Nat.odd y.
Proof.
  intros x y H Hne Ho; apply Hne; rewrite (Nat.div2_odd x), (Nat.div2_odd y), H, Ho; reflexivity.
Qed.

(** Different numbers have different gray codes, and differ in the low bits. *)
Lemma gray_diff : forall n x y, x < 2 ^ n -> y < 2 ^ n -> x <> y ->
  exists j, j < n /\ Nat.testbit (gray x) j <> Nat.testbit (gray y) j.
Proof.
  induction n as [|n IH]; intros x y Hx Hy Hne; [simpl in *; lia|].
  destruct (Nat.eq_dec (Nat.div2 x) (Nat.div2 y)) as [E|E].
  - exists 0; split; [lia|]; rewrite !testbit_gray_0, <- E.
    pose proof (div2_eq_parity x y E Hne) as Ho.
    destruct (Nat.odd x), (Nat.odd y), (Nat.odd (Nat.div2 x)); simpl; congruence.
  - destruct (IH (Nat.div2 x) (Nat.div2 y) (div2_lt _ _ Hx) (div2_lt _ _ Hy) E) as [j [Hj Ej]].
    exists (S j); split; [lia|]; now rewrite !testbit_gray_S.
Qed.

(** The code number of group [m] and the bits it fixes. *)
Definition codeNo (h m : nat) : nat := if m <? h then 2 * m else h + m.
Definition fixes (h m j : nat) : bool :=
  negb (m <? h) || Bool.eqb (Nat.testbit (gray (2 * m)) j) (Nat.testbit (gray (S (2 * m))) j).

Lemma fixes_high : forall h m j, fixes h m (S j) = true.
Proof.
  intros h m j; unfold fixes; apply orb_true_iff; right.
  rewrite !testbit_gray_S, Nat.div2_double.
  change (S (2 * m)) with (S (2 * m)); rewrite Nat.div2_succ_double; apply eqb_reflx.
Qed.

Lemma codes_conflict : forall nb k h m1 m2,
  h = 2 ^ nb - k -> k <= 2 ^ nb <= 2 * k -> m1 < k -> m2 < k -> m1 <> m2 ->
  exists j, j < nb /\ fixes h m1 j = true /\ fixes h m2 j = true /\
    Nat.testbit (gray (codeNo h m1)) j <> Nat.testbit (gray (codeNo h m2)) j.
Proof.
  intros nb k h m1 m2 Hh Hk H1 H2 Hne.
  assert (B1 : codeNo h m1 < 2 ^ nb) by (unfold codeNo; destruct (Nat.ltb_spec m1 h); lia).
  assert (B2 : codeNo h m2 < 2 ^ nb) by (unfold codeNo; destruct (Nat.ltb_spec m2 h); lia).
  assert (Ne : codeNo h m1 <> codeNo h m2)
    by (unfold codeNo; destruct (Nat.ltb_spec m1 h), (Nat.ltb_spec m2 h); lia).
  destruct nb as [|nb]; [simpl in *; lia|].
  destruct (Nat.eq_dec (Nat.div2 (codeNo h m1)) (Nat.div2 (codeNo h m2))) as [E|E].
  - destruct (gray_diff (S nb) _ _ B1 B2 Ne) as [j [Hj Ej]]; exists j; split; [exact Hj|].
    assert (Hnp : h <= m1 /\ h <= m2).
    { pose proof (Nat.div2_odd (codeNo h m1)) as O1; pose proof (Nat.div2_odd (codeNo h m2)) as O2.
      revert E O1 O2 Ne; unfold codeNo.
      destruct (Nat.ltb_spec m1 h), (Nat.ltb_spec m2 h); intros E O1 O2 Ne;
        destruct (Nat.odd _), (Nat.odd _); cbn [Nat.b2n] in O1, O2; lia. }
    unfold fixes; destruct (Nat.ltb_spec m1 h), (Nat.ltb_spec m2 h); try lia; auto.
  - destruct (gray_diff nb _ _ (div2_lt _ _ B1) (div2_lt _ _ B2) E) as [j [Hj Ej]].
    exists (S j); split; [lia|]; split; [apply fixes_high|]; split; [apply fixes_high|].
    now rewrite !testbit_gray_S.
Qed.

Lemma codeClauses_sat : forall a code bits g j,
  sat a (codeClauses code bits g j) <->
  forall l, In l g -> lval a l = true -> lval a (at_ bits j) = Nat.testbit code j.
Proof.
  intros a code bits g j; unfold codeClauses; rewrite sat_map; split; intros H l Hl.
  - intros Hv; pose proof (proj1 (csat2 _ _ _) (H l Hl) Hv) as E; unfold codeLit in E.
    destruct (Nat.testbit code j); [exact E | now apply lval_neg_true].
  - apply csat2; intros Hv; specialize (H l Hl Hv); unfold codeLit.
    destruct (Nat.testbit code j); [exact H | now apply lval_neg_true].
Qed.

Lemma grayCodes_sat : forall a groups nb bits,
  length groups <= 2 ^ nb <= 2 * length groups ->
  sat a (grayCodes groups nb bits) <->
  forall m l j, m < length groups -> In l (gat groups m) -> lval a l = true -> j < nb ->
    fixes (2 ^ nb - length groups) m j = true ->
    lval a (at_ bits j) = Nat.testbit (gray (codeNo (2 ^ nb - length groups) m)) j.
Proof.
  intros a groups nb bits Hk; unfold grayCodes; set (h := 2 ^ nb - length groups); cbv zeta.
  rewrite sat_app, !sat_flat_map; split.
  - intros [H1 H2] m l j Hm Hl Hv Hj Hf.
    unfold fixes in Hf; unfold codeNo; destruct (Nat.ltb_spec m h) as [Hlt|Hge].
    + specialize (H1 m ltac:(apply in_seq; lia)); unfold pairCode in H1; rewrite sat_flat_map in H1.
      specialize (H1 j ltac:(apply in_seq; lia)); simpl in Hf; simpl in H1; rewrite Hf in H1.
      rewrite codeClauses_sat in H1; exact (H1 l Hl Hv).
    + specialize (H2 (m - h) ltac:(apply in_seq; lia)); unfold singleCode in H2; rewrite sat_flat_map in H2.
      specialize (H2 j ltac:(apply in_seq; lia)); rewrite codeClauses_sat in H2.
      replace (h + (m - h)) with m in H2 by lia; replace (2 * h + (m - h)) with (h + m) in H2 by lia.
      exact (H2 l Hl Hv).
  - intros H; split.
    + intros m Hm; apply in_seq in Hm; apply sat_flat_map; intros j Hj; apply in_seq in Hj.
      destruct (Bool.eqb (Nat.testbit (gray (2 * m)) j) (Nat.testbit (gray (S (2 * m))) j)) eqn:Ef;
        [|apply sat_nil].
      apply codeClauses_sat; intros l Hl Hv; rewrite (H m l j); try lia; try assumption.
      * unfold codeNo; destruct (Nat.ltb_spec m h); [reflexivity | lia].
      * unfold fixes; rewrite Ef; apply orb_true_r.
    + intros d Hd; apply in_seq in Hd; apply sat_flat_map; intros j Hj; apply in_seq in Hj.
      apply codeClauses_sat; intros l Hl Hv; rewrite (H (h + d) l j); try lia; try assumption.
      * unfold codeNo; destruct (Nat.ltb_spec (h + d) h); [lia | f_equal; f_equal; lia].
      * unfold fixes; destruct (Nat.ltb_spec (h + d) h); [lia | reflexivity].
Qed.

(** No two groups contain a true literal. *)
Definition cross (groups : list (list elit)) (a : env) : Prop :=
  forall m1 m2 l1 l2, m1 < length groups -> m2 < length groups -> m1 <> m2 ->
    In l1 (gat groups m1) -> In l2 (gat groups m2) -> lval a l1 = true -> lval a l2 = true -> False.

Lemma cross_count : forall a groups,
  count a (concat groups) <= 1 <-> cross groups a /\ (forall g, In g groups -> count a g <= 1).
Proof.
  intros a groups; induction groups as [|g gs IH].
  - simpl; split; [|lia]; intros _; split; [intros m1; simpl; lia | intros g []].
  - cbn [concat]; rewrite count_app; split.
    + intros H; destruct (proj1 IH ltac:(lia)) as [H1 H2]; split.
      * assert (Hg : forall m l, m < length gs -> In l (gat gs m) -> lval a l = true -> 1 <= count a (concat gs)).
        { intros m l Hm Hl Hv; apply count_pos; exists l; split; [|exact Hv].
          apply in_concat; exists (gat gs m); split; [now apply nth_In | exact Hl]. }
        intros m1 m2 l1 l2 L1 L2 Hne I1 I2 V1 V2; cbn [length] in L1, L2.
        destruct m1 as [|m1], m2 as [|m2]; cbn [gat nth] in I1, I2; [lia | | |].
        -- assert (1 <= count a g) by (apply count_pos; eauto).
           pose proof (Hg m2 l2 ltac:(lia) I2 V2); lia.
        -- assert (1 <= count a g) by (apply count_pos; eauto).
           pose proof (Hg m1 l1 ltac:(lia) I1 V1); lia.
        -- apply (H1 m1 m2 l1 l2); auto; lia.
      * intros x [<-|Hx]; [lia | auto].
    + intros [H1 H2].
      assert (C : count a (concat gs) <= 1).
      { apply IH; split; [|intros x Hx; apply H2; now right].
        intros m1 m2 l1 l2 L1 L2 Hne I1 I2; apply (H1 (S m1) (S m2) l1 l2); simpl; auto; lia. }
      pose proof (H2 g (or_introl eq_refl)).
      assert (~ (1 <= count a g /\ 1 <= count a (concat gs))); [|lia].
      intros [A B]; apply count_pos in A as [x [Hx Vx]]; apply count_pos in B as [y [Hy Vy]].
      apply in_concat in Hy as [g' [Hg' Hy]].
      apply (In_nth gs g' [(Bad, true)]) in Hg' as [j [Hj Ej]].
      apply (H1 0 (S j) x y); simpl; auto; try lia; unfold gat; simpl; now rewrite Ej.
Qed.

Fixpoint firstGroup (a : env) (gs : list (list elit)) : nat :=
  match gs with
  | [] => 0
  | g :: r => if existsb (lval a) g then 0 else S (firstGroup a r)
  end.

Lemma firstGroup_spec : forall a gs m l, m < length gs -> In l (gat gs m) -> lval a l = true ->
  firstGroup a gs < length gs /\ exists l', In l' (gat gs (firstGroup a gs)) /\ lval a l' = true.
Proof.
  intros a gs; induction gs as [|g gs IH]; intros m l Hm Hl Hv; [simpl in Hm; lia|].
  cbn [firstGroup]; destruct (existsb (lval a) g) eqn:E.
  - split; [simpl; lia|]; apply existsb_exists in E as [l' [Hl' Vl']]; exists l'; auto.
  - destruct m as [|m].
    + exfalso; cbn in Hl.
      assert (existsb (lval a) g = true) by (apply existsb_exists; eauto); congruence.
    + destruct (IH m l ltac:(simpl in Hm; lia) Hl Hv) as [H1 H2]; split; [simpl; lia | exact H2].
Qed.

Lemma grayCodes_ok : forall groups nb n,
  length groups <= 2 ^ nb <= 2 * length groups -> (forall g, In g groups -> scoped n g) ->
  encodes (cross groups) n (grayCodes groups nb (auxs ACC nb n), bump ACC nb n).
Proof.
  intros groups nb n Hk Hs; set (bits := auxs ACC nb n); set (h := 2 ^ nb - length groups).
  assert (Lb : length bits = nb) by apply auxs_length.
  assert (Sg : forall m, m < length groups -> scoped n (gat groups m)) by (intros m Hm; apply Hs, nth_In, Hm).
  assert (Sb : forall j, j < nb -> lscope (bump ACC nb n) (at_ bits j))
    by (intros j Hj; apply scoped_at; [apply auxs_scoped | lia]).
  assert (Sc : forall code m j, m < length groups -> j < nb ->
               cscoped (bump ACC nb n) (codeClauses code bits (gat groups m) j)).
  { intros code m j Hm Hj; apply cscoped_map; intros l Hl; split_scoped.
    - apply lscope_le with n; [apply cle_bump | exact (Sg m Hm l Hl)].
    - unfold codeLit; destruct (Nat.testbit code j); [|apply lscope_neg]; auto. }
  split; [apply cle_bump|]; cbn [fst snd]; split; [|split].
  - unfold grayCodes; cbv zeta; fold h; apply cscoped_app; split; apply cscoped_flat_map; intros i Hi;
      apply in_seq in Hi; apply cscoped_flat_map; intros j Hj; apply in_seq in Hj.
    + destruct (Bool.eqb _ _); [apply Sc; lia | apply cscoped_nil].
    + apply Sc; lia.
  - intros a Ha; rewrite grayCodes_sat in Ha by exact Hk; fold h in Ha.
    intros m1 m2 l1 l2 L1 L2 Hne I1 I2 V1 V2.
    destruct (codes_conflict nb (length groups) h m1 m2 eq_refl Hk L1 L2 Hne) as [j [Hj [F1 [F2 Hd]]]].
    apply Hd; rewrite <- (Ha m1 l1 j), <- (Ha m2 l2 j); auto.
  - intros a Ha; set (t := firstGroup a groups).
    set (F := fun j => Nat.testbit (gray (codeNo h t)) j).
    exists (upd ACC (fresh ACC n) F a); split; [apply upd_agree|].
    apply grayCodes_sat; [exact Hk|]; fold h; intros m l j Hm Hl Hv Hj _.
    unfold bits; rewrite upd_at by exact Hj; unfold F.
    rewrite upd_lval in Hv by exact (Sg m Hm l Hl).
    destruct (firstGroup_spec a groups m l Hm Hl Hv) as [Ht [l' [Hl' Vl']]]; fold t in Ht, Hl'.
    destruct (Nat.eq_dec m t) as [->|Hne]; [reflexivity|].
    exfalso; exact (Ha m t l l' Hm Ht Hne Hl Hl' Hv Vl').
Qed.

Lemma concat_singles : forall (ls : list elit), concat (map (fun l => [l]) ls) = ls.
Proof. induction ls as [|x ls IH]; simpl; [reflexivity | now rewrite IH]. Qed.

Lemma binary_ok : forall nb ls n, length ls <= 2 ^ nb <= 2 * length ls -> scoped n ls ->
  encodes (atMost1 ls) n (binary nb ls n).
Proof.
  intros nb ls n Hk Hs; unfold binary.
  apply encodes_ext with (cross (map (fun l => [l]) ls)).
  - intros a; unfold atMost1; rewrite <- (concat_singles ls) at 2; rewrite cross_count.
    split; [|tauto]; intros H; split; [exact H|].
    intros g Hg; apply in_map_iff in Hg as [l [<- _]]; simpl; destruct (lval a l); lia.
  - apply grayCodes_ok; [now rewrite map_length|].
    intros g Hg; apply in_map_iff in Hg as [l [<- Hl]]; split_scoped; exact (Hs l Hl).
Qed.

Lemma groups_length : forall k ls, length (groups k ls) = k.
Proof. induction k as [|k IH]; intros ls; simpl; [reflexivity | now rewrite IH]. Qed.

Lemma groups_concat : forall k ls, 1 <= k -> concat (groups k ls) = ls.
Proof.
  induction k as [|k IH]; intros ls Hk; [lia|]; cbn [groups concat].
  destruct k as [|k].
  - cbn [groups concat]; rewrite app_nil_r; apply firstn_all2; unfold cdiv; change (1 - 1) with 0.
    rewrite Nat.add_0_r, Nat.div_1_r; lia.
  - rewrite IH by lia; apply firstn_skipn.
Qed.

Lemma groups_scoped : forall n k ls g, scoped n ls -> In g (groups k ls) -> scoped n g.
Proof.
  intros n k; induction k as [|k IH]; intros ls g Hs Hg; cbn [groups] in Hg; [destruct Hg|].
  destruct Hg as [<-|Hg]; [now apply scoped_firstn | exact (IH _ g (scoped_skipn _ _ _ Hs) Hg)].
Qed.

Lemma bimanderIntern_ok : forall k nb ls n, 1 <= k -> k <= 2 ^ nb <= 2 * k -> scoped n ls ->
  encodes (atMost1 ls) n (bimanderIntern k nb ls n).
Proof.
  intros k nb ls n Hk Hnb Hs; unfold bimanderIntern; cbv zeta.
  destruct (grayCodes_ok (groups k ls) nb n ltac:(now rewrite groups_length)
              (fun g Hg => groups_scoped n k ls g Hs Hg)) as [H1 [H2 [H3 H4]]]; cbn [fst snd] in *.
  assert (E : forall a, atMost1 ls a <-> cross (groups k ls) a /\ forall g, In g (groups k ls) -> count a g <= 1).
  { intros a; unfold atMost1; rewrite <- cross_count, groups_concat by exact Hk; reflexivity. }
  assert (Sp : forall a, sat a (flat_map pure (groups k ls)) <-> forall g, In g (groups k ls) -> count a g <= 1).
  { intros a; rewrite sat_flat_map; split; intros H g Hg; apply pure_sat; auto. }
  assert (Scp : cscoped n (flat_map pure (groups k ls))).
  { apply cscoped_flat_map; intros g Hg; apply pure_scoped, (groups_scoped n k ls g Hs Hg). }
  split; [exact H1|]; cbn [fst snd]; split; [|split].
  - apply cscoped_app; split; [now apply cscoped_le with n | exact H2].
  - intros a Ha; apply sat_app in Ha as [A B]; apply E; split; [now apply H3 | now apply Sp].
  - intros a Ha; apply E in Ha as [A B]; destruct (H4 a A) as [b [Ag Sb]]; exists b; split; [exact Ag|].
    apply sat_app; split; [|exact Sb].
    apply (agree_sat n a b _ Ag Scp), Sp, B.
Qed.

Lemma bimander_ok : forall bm fixed bitsOf ls n, 2 <= length ls -> 
  (forall k, 1 <= k -> k <= 2 ^ bitsOf k <= 2 * k) -> scoped n ls ->
  encodes (atMost1 ls) n (bimander bm fixed bitsOf ls n).
Proof.
  intros bm fixed bitsOf ls n Hl Hb Hs; unfold bimander; cbv zeta.
  assert (Hk : 1 <= computeGroupSize bm fixed (length ls)).
  { destruct bm; cbn [computeGroupSize].
    - apply Nat.div_le_lower_bound; lia.
    - apply Nat.sqrt_le_square; lia.
    - destruct (Nat.eqb_spec fixed 0); lia. }
  apply bimanderIntern_ok; auto.
Qed.

(** ** The dispatcher *)

(** The parameters for which every encoder terminates. *)
Definition goodAmo (cf : amoConfig) : Prop :=
  (c_product cf = 0 \/ 2 <= c_product cf) /\
  (c_nesting cf = 0 \/ 3 <= c_nesting cf) /\
  (c_commander cf = 0 \/ 2 <= c_commander cf) /\
  (forall k, 1 <= k -> k <= 2 ^ c_bits cf k <= 2 * k).

Lemma amo_ok : forall cf ls n, goodAmo cf -> scoped n ls ->
  encodes (atMost1 ls) n (amo cf ls n).
Proof.
  intros cf ls n [G1 [G2 [G3 G4]]] Hs; unfold amo.
  destruct (Nat.leb_spec (length ls) 1) as [Hl|Hl].
  { apply encodes_nil; intros a; unfold atMost1; pose proof (count_le a ls); lia. }
  destruct (c_amo cf).
  - now apply encodes_pure.
  - apply ladder_ok; [lia | exact Hs].
  - apply product_ok; [exact G1 | lia | exact Hs].
  - apply nested_ok; [exact G2 | lia | exact Hs].
  - apply commander_ok; [exact G3 | lia | exact Hs].
  - apply binary_ok; [apply G4; lia | exact Hs].
  - apply bimander_ok; [lia | exact G4 | exact Hs].
  - destruct (length ls <=? 10); [now apply encodes_pure|].
    apply product_ok; [exact G1 | lia | exact Hs].
Qed.

Lemma exo_ok : forall cf ls n, goodAmo cf -> scoped n ls ->
  encodes (fun a => count a ls = 1) n (exo cf ls n).
Proof.
  intros cf ls n G Hs; unfold exo.
  destruct ls as [|l [|l2 r]].
  - split; [apply cle_refl|]; cbn [fst snd]; split; [split_scoped|]; split; cbn [count].
    + intros a Ha; apply sat1 in Ha; now apply csat_nil in Ha.
    + intros a Ha; discriminate.
  - assert (E : forall a, sat a [[l]] <-> count a [l] = 1).
    { intros a; rewrite sat1, csat1; simpl; destruct (lval a l); split; intros; try lia; congruence. }
    split; [apply cle_refl|]; cbn [fst snd]; split; [split_scoped; apply Hs; now left|]; split.
    + intros a; apply E.
    + intros a Ha; exists a; split; [apply agree_refl | now apply E].
  - set (ls := l :: l2 :: r) in *.
    destruct (amo_ok cf ls n G Hs) as [H1 [H2 [H3 H4]]].
    destruct (amo cf ls n) as [cs n']; cbn [fst snd] in *.
    split; [exact H1|]; split; [|split]; cbn [fst snd].
    + split_scoped; [exact H2 | now apply scoped_le with n].
    + intros a Ha; apply sat_app in Ha as [A B]; apply H3 in A; apply sat1, csat_exists in B.
      unfold atMost1 in A; lia.
    + intros a Ha; destruct (H4 a) as [b [Ag Sb]]; [unfold atMost1; lia|].
      exists b; split; [exact Ag|]; apply sat_app; split; [exact Sb|].
      apply sat1, csat_exists; rewrite (agree_count n a b ls Ag Hs); lia.
Qed.
