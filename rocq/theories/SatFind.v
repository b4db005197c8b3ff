(** * The search of the core solver *)
From Coq Require Import List Bool Arith Lia ZArith Permutation.
From Verif Require Import Sat SatInv SatProp SatAna SatMin SatSearch SatAttach SatLoop.
Import ListNotations.

(** ** Forgetting learnt clauses *)
Definition sameTr (s s' : sat) : Prop := trail s' = trail s /\ qhead s' = qhead s /\ tlim s' = tlim s /\ conflict s' = conflict s.
Lemma reduce_ok : forall o M cs kept s, searchInv M (with_learnts (kept ++ cs) s) ->
  wp (reduce o cs kept) s (fun _ s' => searchInv M s' /\ Fr (with_learnts (kept ++ cs) s) s' /\ sameTr s s').
Proof.
  intros o M. induction cs as [|c r IH]; intros kept s H; cbn [reduce].
  - apply wp_modify. rewrite app_nil_r in *. split; auto. split; [apply fr_refl|]. repeat split.
  - apply wp_bind. unfold ask, wp at 1. set (s1 := with_tick (S (tick s)) s).
    assert (H1 : searchInv M (with_learnts (kept ++ c :: r) s1)) by exact (si_tick M (S (tick s)) _ H).
    assert (F1 : Fr (with_learnts (kept ++ c :: r) s) (with_learnts (kept ++ c :: r) s1)) by exact (fr_tick (S (tick s)) (with_learnts (kept ++ c :: r) s)).
    destruct (o_del o (tick s) && (2 <? length (c_lits (db s1 c))) && negb (locked s1 c)) eqn:B; unfold wp; rewrite B.
    + destruct (si_drop M c kept r s1 H1) as (W & Bn & E & H2 & F2). unfold bind. rewrite E. specialize (IH kept _ H2). unfold wp in IH. destruct (reduce o r kept _) as [? s'| |]; auto.
      destruct IH as (I1 & I2 & I3). split; auto. split; [|exact I3].
      apply (fr_trans _ (with_learnts (kept ++ r) (with_wat W (with_wbin Bn s1))) _); auto; [|apply H2]. apply (fr_trans _ _ _ F1 F2). apply H1.
    + replace (kept ++ c :: r) with ((kept ++ [c]) ++ r) in * by (rewrite <- app_assoc; auto). specialize (IH (kept ++ [c]) s1 H1). unfold wp in IH. destruct (reduce o r _ s1) as [? s'| |]; auto.
      destruct IH as (I1 & I2 & I3). split; auto. split; [|exact I3]. apply (fr_trans _ _ _ F1 I2). apply H1.
Qed.
Lemma reduceDB_ok : forall o M s, (forall n l, Permutation (o_sort o n l) l) -> searchInv M s -> wp (reduceDB o) s (fun _ s' => searchInv M s' /\ Fr s s' /\ sameTr s s').
Proof.
  intros o M s Hs H. unfold reduceDB. apply wp_bind. unfold ask, wp at 1. set (s1 := with_tick (S (tick s)) s). assert (H1 : searchInv M s1) by (apply si_tick; auto).
  destruct (si_perm M (o_sort o (tick s) (learnts s1)) s1 H1 (Hs _ _)) as [H2 F2]. eapply wp_mono; [apply (reduce_ok o M _ []); exact H2|]. cbv beta. intros _ s' (A & B & C). split; auto. split; [|exact C].
  assert (W1 : Wat s1) by apply H1. assert (W2 : Wat (with_learnts (o_sort o (tick s) (learnts s1)) s1)) by apply H2.
  apply (fr_trans s s1 _ (fr_tick _ s)); auto. apply (fr_trans _ _ _ F2 B); auto.
Qed.
(** ** Assumptions *)
Lemma nextAssumption_ok : forall M ps s, searchInv M s -> qhead s = length (trail s) -> ps = skipn (dl s) (assumps s) ->
  wp (nextAssumption ps) s (fun r s' => searchInv M s' /\ Fr s s' /\ conflict s' = conflict s /\ qhead s' = length (trail s') /\
    match r with inl p => In p (assumps s') /\ fls s' p /\ dl s' < length (assumps s') | inr (Some p) => nth_error (assumps s') (dl s') = Some p /\ val s' p = None | inr None => length (assumps s') <= dl s' end).
Proof.
  intros M. induction ps as [|p r IH]; intros s H Q E; cbn [nextAssumption].
  - apply wp_ret. split; auto. split; [apply fr_refl|]. repeat split; auto. assert (length (skipn (dl s) (assumps s)) = 0) by (rewrite <- E; auto). rewrite skipn_length in H0. lia.
  - assert (Np : nth_error (assumps s) (dl s) = Some p). { rewrite <- (Nat.add_0_r (dl s)), <- nth_error_skip, <- E. auto. }
    assert (L : dl s < length (assumps s)) by (apply nth_error_Some; congruence). unfold wp. destruct (val s p) as [[]|] eqn:V.
    + assert (Ht : forall q, nth_error (assumps s) (dl s) = Some q -> tru s q) by (intros q X; rewrite Np in X; inversion X; subst; auto).
      assert (D : dl (lvlup s) = S (dl s)) by (unfold dl; cbn; rewrite app_length; cbn; lia).
      pose proof (lvlup_ok M s H Q Ht) as H1. specialize (IH (lvlup s) H1 Q). unfold bind, newLevel, modify. change (with_tlim (tlim s ++ [length (trail s)]) s) with (lvlup s).
      assert (Er : r = skipn (dl (lvlup s)) (assumps (lvlup s))). { rewrite D. change (assumps (lvlup s)) with (assumps s). change (S (dl s)) with (1 + dl s). rewrite Nat.add_comm, <- skipn_add, <- E. auto. }
      specialize (IH Er). unfold wp in IH. destruct (nextAssumption r (lvlup s)) as [x s'| |]; auto. destruct IH as (I1 & I2 & I3 & I4 & I5). split; auto. split; [|split; auto].
      apply (fr_trans s (lvlup s) s' (fr_lvlup s) I2). apply H1.
    + split; auto. split; [apply fr_refl|]. repeat split; auto. eapply nth_error_In; eauto.
    + split; auto. split; [apply fr_refl|]. repeat split; auto.
Qed.
(** ** The clause over the assumptions *)
Lemma tru_fst_eq : forall s l k, tru s l -> tru s k -> fst l = fst k -> l = k.
Proof. intros s l k T1 T2 E. destruct (same_var l k E) as [ | -> ]; auto. exfalso. apply tru_neg in T1. eapply tru_fls; eauto. Qed.
Definition wsc (sn : nat -> bool) (cf : list slit) (s : sat) : sat := with_seen sn (with_conflict cf s).
Lemma mark_ok : forall cf s qs sn, exists sn', each qs (fun q s => Ret tt (if 0 <? lev s q then with_seen (upd (seen s) (fst q) true) s else s)) (wsc sn cf s) = Ret tt (wsc sn' cf s) /\
  (forall v, sn' v = true <-> sn v = true \/ exists q, In q qs /\ 0 < lev s q /\ fst q = v).
Proof.
  intros cf s. induction qs as [|q r IH]; intros sn.
  - exists sn. split; [reflexivity|]. intros v. split; auto. intros [H|(q & [] & _)]; auto.
  - cbn [each]. unfold bind. change (lev (wsc sn cf s) q) with (lev s q). destruct (Nat.ltb_spec 0 (lev s q)).
    + destruct (IH (upd sn (fst q) true)) as (sn' & E & H'). exists sn'. split; [exact E|]. intros v. rewrite H'. unfold upd. destruct (Nat.eqb_spec v (fst q)) as [->|N].
      * split; auto. intros _. right. exists q. cbn; auto.
      * split; (intros [X|(y & Y & Z)]; [auto|right; exists y; split; [|auto]]); [right; auto|]. destruct Y as [->|Y]; auto. destruct Z; congruence.
    + destruct (IH sn) as (sn' & E & H'). exists sn'. split; [exact E|]. intros v. rewrite H'.
      split; (intros [X|(y & Y & Z)]; [auto|right; exists y; split; [|auto]]); [right; auto|]. destruct Y as [->|Y]; auto. destruct Z; lia.
Qed.
Lemma NoDup_app_one : forall {B} (l : list B) x, NoDup l -> ~ In x l -> NoDup (l ++ [x]).
Proof. intros B l x. induction l as [|y r IH]; cbn; intros N I; [repeat constructor; auto|]. inversion N; subst. constructor; [|apply IH; auto]. intros J. apply in_app_iff in J as [J|[<-|[]]]; auto. Qed.
Section Final.
Variables (M : (nat -> bool) -> Prop) (s : sat) (p0 : slit) (m : nat).
Hypotheses (A : Asg M E0 s) (Hm : nth_error (tlim s) 0 = Some m) (Hd : dl s <= length (assumps s)) (Tp : tru s p0).
Definition KF (i : nat) (sn : nat -> bool) (cf : list slit) : Prop :=
  (forall a, M a -> (forall t, In t (firstn i (trail s)) -> sn (fst t) = true -> 0 < lev s t -> alit a t = true) -> exists q, In q cf /\ alit a q = true) /\
  (forall v, sn v = true -> v = fst p0 \/ exists t, In t (firstn i (trail s)) /\ fst t = v /\ 0 < lev s t) /\
  (forall q, In q cf -> In (neg q) (assumps s)) /\ NoDup cf /\ (forall q, In q cf -> q = p0 \/ exists j, i <= j /\ nth_error (trail s) j = Some (neg q)).
Lemma kf_step : forall i l, nth_error (trail s) i = Some l -> m <= i -> 0 < lev s l /\ (forall t, In t (firstn i (trail s)) -> fst t <> fst l) /\ tru s l.
Proof.
  intros i l Hl L. assert (Il : In l (trail s)) by (eapply nth_error_In; eauto). assert (Tl : tru s l) by (apply (as_val _ _ _ A); auto).
  assert (P : 0 < lev s l). { apply (as_lim _ _ _ A 0 m Hm). apply nth_error_In with (n := i - m). rewrite nth_error_skip. replace (m + (i - m)) with i by lia. auto. }
  split; auto. split; auto. intros t It E. assert (t = l). { apply (tru_fst_eq s); auto. apply (as_val _ _ _ A). eapply In_firstn; eauto. } subst t.
  apply In_firstn_nth in It as (j & Lj & Hj). pose proof (as_nd _ _ _ A _ _ _ Hj Hl P). lia.
Qed.
Lemma finalLoop_ok : forall i sn cf, i <= length (trail s) -> KF i sn cf ->
  wp (finalLoop m i) (wsc sn cf s) (fun _ s' => exists sn' cf' j, s' = wsc sn' cf' s /\ j <= m /\ KF j sn' cf' /\ incl cf cf').
Proof.
  induction i as [|i IH]; intros sn cf Li K; cbn [finalLoop].
  - apply wp_ret. exists sn, cf, 0. split; auto. split; [lia|]. split; [exact K|apply incl_refl].
  - destruct (Nat.ltb_spec i m) as [Lm|Lm].
    { unfold wp. destruct (Nat.ltb_spec i m); [|lia]. exists sn, cf, (S i). split; auto. split; [lia|]. split; auto. apply incl_refl. }
    destruct (nth_error (trail s) i) as [l|] eqn:Hl; [|apply nth_error_None in Hl; lia].
    destruct (kf_step i l Hl Lm) as (Pl & Dl & Tl). destruct K as (K1 & K2 & K3 & K4 & K5).
    assert (K5' : forall q, In q cf -> q = p0 \/ exists j, i <= j /\ nth_error (trail s) j = Some (neg q)) by (intros q Iq; destruct (K5 q Iq) as [|(j & Lj & Hj)]; auto; right; exists j; split; [lia|auto]).
    unfold wp. destruct (Nat.ltb_spec i m); [lia|]. change (trail (wsc sn cf s)) with (trail s). match goal with |- context [nth i ?x ?y] => replace (nth i x y) with l by (symmetry; apply nth_error_nth; exact Hl) end. change (seen (wsc sn cf s)) with sn.
    assert (Fs : firstn (S i) (trail s) = firstn i (trail s) ++ [l]) by (apply firstn_S_nth; auto).
    destruct (sn (fst l)) eqn:Sl.
    2:{ apply (IH sn cf); [lia|]. split; [|split; [|split; [|split]]]; auto.
        - intros a Ma Hn. apply K1; auto. intros t It Tt. rewrite Fs in It. apply in_app_iff in It as [It|[<-|[]]]; [auto|congruence].
        - intros v Sv. destruct (K2 v Sv) as [|(t & It & Et & Lt)]; auto. right. exists t. rewrite Fs in It. apply in_app_iff in It as [It|[<-|[]]]; auto. congruence. }
    unfold bind. change (rsn (wsc sn cf s)) with (rsn s). destruct (rsn s (fst l)) as [c|] eqn:R.
    + change (db (wsc sn cf s)) with (db s). set (qs := if c_atm (db s c) then filter (isT (wsc sn cf s)) (c_lits (db s c)) else if length (c_lits (db s c)) =? 2 then c_lits (db s c) else skipn 1 (c_lits (db s c))).
      destruct (mark_ok cf s qs sn) as (sn' & -> & Hs). unfold modify. change (with_seen (upd (seen (wsc sn' cf s)) (fst l) false) (wsc sn' cf s)) with (wsc (upd sn' (fst l) false) cf s).
      apply (IH (upd sn' (fst l) false) cf); [lia|].
      assert (Et : trail s = firstn i (trail s) ++ l :: skipn (S i) (trail s)). { rewrite <- (firstn_skipn (S i) (trail s)) at 1. rewrite Fs, <- app_assoc. auto. }
      pose proof (as_rsn _ _ _ A _ _ _ _ Et R) as RO. pose proof RO as (R1 & R2 & R3).
      assert (Pt : forall q, In q (firstn i (trail s)) -> tru s q) by (intros q Iq; apply (as_val _ _ _ A); eapply In_firstn; eauto).
      assert (Q1 : forall q, In q (firstn i (trail s)) -> In (if c_atm (db s c) then q else neg q) (c_lits (db s c)) -> 0 < lev s q -> upd sn' (fst l) false (fst q) = true).
      { intros q Iq Il Lq. unfold upd. destruct (Nat.eqb_spec (fst q) (fst l)) as [E|_]; [exfalso; apply (Dl q); auto|]. apply Hs. right. exists (if c_atm (db s c) then q else neg q). split; [|destruct (c_atm (db s c)); auto].
        unfold qs. destruct (c_atm (db s c)); [apply filter_In; split; auto; apply isT_tru, Pt; auto|]. destruct (Nat.eqb_spec (length (c_lits (db s c))) 2) as [|N2]; auto.
        destruct R3 as (R3 & R4 & R5 & R6). destruct (c_lits (db s c)) as [|x [|y r]]; [destruct Il|exfalso|].
        - destruct Il as [E|[]], R3 as [E'|[]]. apply (Dl q); auto. rewrite <- E', E. auto.
        - cbn [skipn length] in *. destruct Il as [E|]; auto. exfalso. apply (Dl q); auto. destruct r; [cbn in N2; lia|]. rewrite <- (R5 ltac:(cbn; lia)). cbn. rewrite E. auto. }
      split; [|split; [|split; [|split]]]; auto.
      * intros a Ma Hn. apply K1; auto. intros t It Tt Lt. rewrite Fs in It. apply in_app_iff in It as [It|[<-|[]]].
        -- apply Hn; auto. unfold upd. destruct (Nat.eqb_spec (fst t) (fst l)) as [E|_]; [exfalso; apply (Dl t); auto|]. apply Hs; auto.
        -- apply (reason_sound M E0 s (firstn i (trail s)) l c a); auto.
           ++ intros X. apply (Dl (neg l)); auto.
           ++ intros q Iq Il. destruct (Nat.eq_dec (lev s q) 0) as [Z|Z]; [|apply Hn; auto; [apply Q1; auto; lia|lia]]. apply (as_l0 _ _ _ A); auto. eapply In_firstn; eauto.
      * intros v Sv. unfold upd in Sv. destruct (Nat.eqb_spec v (fst l)) as [|Nv]; [discriminate|]. apply Hs in Sv as [Sv|(q & Iq & Lq & Eq)].
        -- destruct (K2 v Sv) as [|(t & It & Ev & Lt)]; auto. right. exists t. rewrite Fs in It. apply in_app_iff in It as [It|[<-|[]]]; auto. congruence.
        -- right. unfold qs in Iq. destruct (c_atm (db s c)).
           ++ apply filter_In in Iq as [Iq Tq]. apply isT_tru in Tq. change (tru s q) in Tq. destruct R3 as (_ & R4 & _). destruct (R4 q Iq) as [X|[[X _]|[[] _]]]; [exists q; auto|]. exfalso. eapply tru_fls; eauto.
           ++ destruct R3 as (_ & R4 & _). assert (Iq' : In q (c_lits (db s c))). { destruct (length (c_lits (db s c)) =? 2); auto. destruct (c_lits (db s c)); cbn in Iq; auto. right; auto. }
              destruct (R4 q Iq') as [->|X]; [congruence|]. exists (neg q). auto.
    + unfold modify. change (with_seen (upd (seen (with_conflict (conflict (wsc sn cf s) ++ [neg l]) (wsc sn cf s))) (fst l) false) (with_conflict (conflict (wsc sn cf s) ++ [neg l]) (wsc sn cf s))) with (wsc (upd sn (fst l) false) (cf ++ [neg l]) s).
      assert (KK : KF i (upd sn (fst l) false) (cf ++ [neg l])).
      { split; [|split; [|split; [|split]]].
        - intros a Ma Hn. destruct (alit a l) eqn:Al; [|exists (neg l); split; [apply in_or_app; cbn; auto|rewrite alit_neg, Al; auto]].
          destruct (K1 a Ma) as (q & Iq & Aq); [|exists q; split; auto; apply in_or_app; auto]. intros t It Tt Lt. rewrite Fs in It. apply in_app_iff in It as [It|[<-|[]]]; auto.
          apply Hn; auto. unfold upd. destruct (Nat.eqb_spec (fst t) (fst l)) as [E|_]; [exfalso; apply (Dl t); auto|auto].
        - intros v Sv. unfold upd in Sv. destruct (Nat.eqb_spec v (fst l)) as [|Nv]; [discriminate|]. destruct (K2 v Sv) as [|(t & It & Ev & Lt)]; auto. right. exists t. rewrite Fs in It. apply in_app_iff in It as [It|[<-|[]]]; auto. congruence.
        - intros q Iq. apply in_app_iff in Iq as [Iq|[<-|[]]]; auto. rewrite neg_neg. apply (as_dec _ _ _ A i l); auto. pose proof (as_lev _ _ _ A l (nth_error_In _ _ Hl)). lia.
        - apply NoDup_app_one; auto. intros J. destruct (K5 _ J) as [E|(j & Lj & Hj)]; [apply (tru_fls s l); auto; apply tru_neg; rewrite E; auto|]. rewrite neg_neg in Hj. pose proof (as_nd _ _ _ A _ _ _ Hj Hl Pl). lia.
        - intros q Iq. apply in_app_iff in Iq as [Iq|[<-|[]]]; auto. right. exists i. rewrite neg_neg. auto. }
      pose proof (IH _ _ ltac:(lia) KK) as X. unfold wp in X. destruct (finalLoop m i _) as [? s'| |]; auto. destruct X as (sn' & cf' & j & X1 & X2 & X3 & X4). exists sn', cf', j. repeat split; auto; try apply X3. intros q Iq. apply X4, in_or_app; auto.
Qed.
End Final.
(** a clause over the negated assumptions that follows from the constraints *)
Definition FC (M : (nat -> bool) -> Prop) (s : sat) : Prop :=
  conflict s <> [] /\ (forall q, In q (conflict s) -> In (neg q) (assumps s)) /\ (forall a, M a -> exists q, In q (conflict s) /\ alit a q = true) /\ NoDup (conflict s).
Lemma si_wsc : forall M sn cf s, searchInv M s -> (forall v, sn v = false) -> searchInv M (wsc sn cf s).
Proof.
  intros M sn cf s ([[] [] En] & [] & Pr) H. split; [constructor; [constructor; assumption|constructor; assumption|assumption]|]. split; [constructor; assumption|exact Pr].
Qed.
Lemma fr_wsc : forall sn cf s, Fr s (wsc sn cf s).
Proof. intros. constructor; auto; [intros; apply cperm_refl|]. exists []. cbn. rewrite app_nil_r. auto. Qed.
Lemma analyzeFinal_ok : forall M p s, searchInv M s -> In p (assumps s) -> fls s p -> dl s < length (assumps s) ->
  wp (analyzeFinal (neg p)) s (fun _ s' => searchInv M s' /\ Fr s s' /\ FC M s' /\ qhead s' = qhead s /\ trail s' = trail s).
Proof.
  intros M p s H Ip Fp D. pose proof H as ([A W En] & X & Pr). assert (Tp : tru s (neg p)) by (apply tru_neg; auto). assert (Itp : In (neg p) (trail s)) by (apply (as_val _ _ _ A); auto).
  unfold analyzeFinal. unfold wp. change (tlim (with_conflict [neg p] s)) with (tlim s). destruct (tlim s) as [|m r] eqn:Et.
  - change (with_conflict [neg p] s) with (wsc (seen s) [neg p] s). split; [apply si_wsc; auto; apply X|]. split; [apply fr_wsc|]. split; [|split; reflexivity]. split; [discriminate|]. split; [|split; [|repeat constructor; intros []]].
    + intros q [<-|[]]. cbn. rewrite neg_neg; auto.
    + intros a Ma. exists (neg p). split; [left; auto|]. apply (as_l0 _ _ _ A); auto. pose proof (as_lev _ _ _ A _ Itp). unfold dl in H0. rewrite Et in H0. cbn in H0. lia.
  - unfold bind, modify. change (with_seen (upd (seen (with_conflict [neg p] s)) (fst (neg p)) true) (with_conflict [neg p] s)) with (wsc (upd (seen s) (fst (neg p)) true) [neg p] s).
    assert (Hm : nth_error (tlim s) 0 = Some m) by (rewrite Et; auto).
    assert (K : KF M s (neg p) (length (trail s)) (upd (seen s) (fst (neg p)) true) [neg p]).
    { split; [|split; [|split; [|split]]].
      - intros a Ma Hn. exists (neg p). split; [left; auto|]. rewrite firstn_all in Hn. destruct (Nat.eq_dec (lev s (neg p)) 0); [apply (as_l0 _ _ _ A); auto|]. apply Hn; auto; [unfold upd; rewrite Nat.eqb_refl; auto|lia].
      - intros v. unfold upd. destruct (Nat.eqb_spec v (fst (neg p))); auto. rewrite (ex_seen _ X). discriminate.
      - intros q [<-|[]]. rewrite neg_neg; auto.
      - repeat constructor. intros [].
      - intros q [<-|[]]. auto. }
    pose proof (finalLoop_ok M s (neg p) m A Hm ltac:(lia) Tp (length (trail s)) _ _ (Nat.le_refl _) K) as Y. unfold wp in Y. destruct (finalLoop m _ _) as [? s'| |]; auto. destruct Y as (sn & cf & j & -> & Lj & (K1 & K2 & K3 & K4 & _) & Inc).
    change (with_seen (upd (seen (wsc sn cf s)) (fst (neg p)) false) (wsc sn cf s)) with (wsc (upd sn (fst (neg p)) false) cf s).
    assert (Z : forall t, In t (firstn j (trail s)) -> ~ 0 < lev s t). { intros t It. pose proof (proj1 (proj2 (as_lim _ _ _ A 0 m Hm)) t). assert (In t (firstn m (trail s))). { rewrite <- (firstn_skipn j). apply in_or_app. left. rewrite firstn_firstn, Nat.min_l; auto. } specialize (H0 H1). lia. }
    split; [apply si_wsc; auto|split; [apply fr_wsc|split; [split; [|split; [|split]]|]]].
    + intros v. unfold upd. destruct (Nat.eqb_spec v (fst (neg p))); auto. destruct (sn v) eqn:Sv; auto. destruct (K2 v Sv) as [|(t & It & _ & Lt)]; [congruence|]. exfalso. eapply Z; eauto.
    + change (cf <> []). intros ->. apply (Inc (neg p)). left; auto.
    + exact K3.
    + intros b Mb. apply (K1 b Mb). intros t It _ Lt. exfalso. eapply Z; eauto.
    + exact K4.
    + split; reflexivity.
Qed.
(** ** Decisions *)
Lemma remove1_in : forall x l v, In v (remove1 x l) -> In v l.
Proof. intros x. induction l; cbn; auto. intros v. destruct (x =? a); cbn; intuition. Qed.
Lemma in_remove1 : forall x l v, In v l -> v = x \/ In v (remove1 x l).
Proof. intros x. induction l; cbn; auto. intros v [->|I]; destruct (Nat.eqb_spec x v); auto; try (right; left; auto; fail). destruct (x =? a); cbn; auto. destruct (IHl v I); auto. Qed.
Lemma remove1_len : forall x l, In x l -> S (length (remove1 x l)) = length l.
Proof. intros x. induction l; cbn; [tauto|]. destruct (Nat.eqb_spec x a); auto. intros [->|I]; [congruence|]. cbn. rewrite IHl; auto. Qed.
Lemma pickBranch_ok : forall o n s, length (heap s) < n -> (forall v, v < nvars s -> dec s v = true) -> (forall v, In v (heap s) -> v < nvars s) -> (forall v, v < nvars s -> val_ s v = None -> In v (heap s)) ->
  wp (pickBranch o n) s (fun r s' => exists h t, s' = with_heap h (with_tick t s) /\ incl h (heap s) /\
    match r with None => forall v, v < nvars s -> val_ s v = None -> In v h | Some p => val s p = None /\ fst p < nvars s /\ forall v, v < nvars s -> val_ s v = None -> v = fst p \/ In v h end /\ (r = None -> h = [])).
Proof.
  intros o. induction n as [|n IH]; intros s L D Hv Hp; [lia|]. cbn [pickBranch]. apply wp_bind. unfold ask, wp at 1. set (s1 := with_tick (S (tick s)) s). unfold wp. change (heap s1) with (heap s). destruct (heap s) as [|h r] eqn:Eh.
  - exists [], (S (tick s)). split; [|split; [apply incl_refl|split; auto]]. unfold s1. rewrite <- Eh. destruct s; reflexivity.
  - assert (Ix : In (nth (o_pick o (tick s) mod length (h :: r)) (h :: r) h) (h :: r)) by (apply nth_In, Nat.mod_upper_bound; discriminate). set (x := nth _ _ _) in *. clearbody x.
    change (val_ (with_heap (remove1 x (h :: r)) s1) x) with (val_ s x). change (dec (with_heap (remove1 x (h :: r)) s1) x) with (dec s x). change (pol (with_heap (remove1 x (h :: r)) s1) x) with (pol s x).
    rewrite D by (apply Hv; auto). destruct (val_ s x) eqn:V.
    + set (s2 := with_heap (remove1 x (h :: r)) s1). pose proof (remove1_len x (h :: r) Ix) as Rl. assert (Y : wp (pickBranch o n) s2 (fun r0 s' => exists h0 t, s' = with_heap h0 (with_tick t s2) /\ incl h0 (heap s2) /\
    match r0 with None => forall v, v < nvars s2 -> val_ s2 v = None -> In v h0 | Some p => val s2 p = None /\ fst p < nvars s2 /\ forall v, v < nvars s2 -> val_ s2 v = None -> v = fst p \/ In v h0 end /\ (r0 = None -> h0 = []))).
      { apply IH; auto.
        - change (heap s2) with (remove1 x (h :: r)). lia.
        - intros v I. apply Hv. apply remove1_in with x. exact I.
        - intros v Lv Nv. destruct (in_remove1 x (h :: r) v (Hp v Lv Nv)); auto. subst v. change (val_ s x = None) in Nv. congruence. }
      unfold wp in Y. destruct (pickBranch o n s2) as [a s'| |]; auto. destruct Y as (h0 & t & -> & I & J). exists h0, t. split; [reflexivity|]. split; [|exact J]. intros v Iv. apply remove1_in with x. apply I; auto.
    + exists (remove1 x (h :: r)), (S (tick s)). split; [reflexivity|]. split; [intros v; apply remove1_in|]. split; [|discriminate]. split; [apply val_none; auto|]. split; [apply Hv; auto|]. intros v Lv Nv. cbn [fst]. apply in_remove1; auto.
Qed.
(** ** The search loop *)
Definition assumpsOK (s : sat) : Prop := forall p, In p (assumps s) -> fst p < nvars s.
Lemma ass_fr : forall s s', assumpsOK s -> Fr s s' -> assumpsOK s'.
Proof. intros s s' H F p I. fr F. assert (E1 : nvars s' = nvars s) by congruence. rewrite E1. apply H. congruence. Qed.
Lemma si_heap : forall M h t s, PI M s -> Proc s NoE -> PI M (with_heap h (with_tick t s)) /\ Proc (with_heap h (with_tick t s)) NoE.
Proof. intros M h t s [[] [] En] Pr. split; [constructor; [constructor; assumption|constructor; assumption|assumption]|exact Pr]. Qed.
Lemma fr_heap : forall h t s, Fr s (with_heap h (with_tick t s)).
Proof. intros. constructor; auto; [intros; apply cperm_refl|]. exists []. cbn. rewrite app_nil_r. auto. Qed.
Lemma si_ev : forall M x s, searchInv M s -> searchInv M (with_ev x s).
Proof. intros M x s ([[] [] En] & [] & Pr). split; [constructor; [constructor; assumption|constructor; assumption|assumption]|]. split; [constructor; assumption|exact Pr]. Qed.
Lemma fr_ev : forall x s, Fr s (with_ev x s).
Proof. intros. constructor; auto; [intros; apply cperm_refl|]. exists []. cbn. rewrite app_nil_r. auto. Qed.
Lemma ai_ev : forall M x s, AI M s -> Ex s -> AI M (with_ev x s) /\ Ex (with_ev x s).
Proof. intros M x s [[[] [] En] Pr] []. split; [constructor; [constructor; [constructor; assumption|constructor; assumption|assumption]|exact Pr]|constructor; assumption]. Qed.
Lemma cancel0_ok : forall M s, searchInv M s -> let s' := cancelUntil 0 s in searchInv M s' /\ Fr s s' /\ dl s' = 0 /\ conflict s' = conflict s.
Proof.
  intros M s H. destruct (Nat.eq_dec (dl s) 0) as [D|D].
  - assert (E : cancelUntil 0 s = s). { unfold cancelUntil. unfold dl in D. destruct (tlim s); [auto|discriminate]. } cbv zeta. rewrite E. split; auto. split; [apply fr_refl|auto].
  - destruct H as (P & X & Pr). destruct (cancelUntil_ok M 0 s P X) as (Ca & P2 & X2 & Pr2 & F2); [intros q c I W; destruct (Pr q c I W) as [[]|]; auto|lia|]. cbv zeta. split; [split; auto|]. split; auto. split; [apply Ca|]. ca Ca. congruence.
Qed.
Definition searchPost M (s : sat) (r : status) (s' : sat) : Prop := Fr s s' /\
  match r with
  | StTrue => searchInv M s' /\ qhead s' = length (trail s') /\ (forall v, v < nvars s' -> val_ s' v <> None) /\ (forall p, In p (assumps s') -> tru s' p)
  | StFalse => (PI M s' /\ Ex s' /\ dl s' = 0 /\ conflict s' = conflict s /\ forall a, ~ M a) \/ (searchInv M s' /\ qhead s' = length (trail s') /\ FC M s')
  | StUndef => searchInv M s' /\ dl s' = 0 /\ conflict s' = conflict s
  end.
Section Loop.
Variables (o : oracle) (cm : clauseMin) (M : (nat -> bool) -> Prop).
Hypotheses (Hsort : forall n l, Permutation (o_sort o n l) l) (Hconf : forall n, o_conf o n = true).
Lemma post_trans : forall s t r u, Fr s t -> Wat t -> conflict t = conflict s -> searchPost M t r u -> searchPost M s r u.
Proof.
  intros s t r u F W C [F' H]. split; [apply (fr_trans s t u F F' W)|]. destruct r; auto.
  - destruct H as [(A & B & D & E & G)|H]; [left|right; auto]. rewrite C in E. exact (conj A (conj B (conj D (conj E G)))).
  - destruct H as (A & B & D). rewrite C in D. exact (conj A (conj B D)).
Qed.
Lemma si_wat : forall s, searchInv M s -> Wat s. Proof. intros s H. apply H. Qed.
Lemma searchLoop_ok : forall n s, searchInv M s -> NA cm s -> assumpsOK s -> wp (searchLoop o cm n) s (searchPost M s).
Proof.
  induction n as [|n IH]; intros s H Na As; [exact I|]. cbn [searchLoop]. apply wp_bind. pose proof H as (P & X & Pr). eapply wp_mono; [apply (propagate_ok M (S n) s P Pr)|]. intros c s1 (P1 & K1 & H1).
  assert (X1 : Ex s1). { eapply ex_pk; eauto. intros l Il. apply (as_val _ _ _ (pi_asg _ _ P)); auto. }
  assert (F1 : Fr s s1) by (apply pk_fr; auto). assert (C1 : conflict s1 = conflict s) by (pk K1; congruence).
  destruct c as [c|].
  - destruct H1 as (Cf & Pr1). apply wp_bind. unfold resume, wp at 1. rewrite Hconf. cbn [negb]. set (s2 := with_ev (S (ev s1)) s1). destruct (ai_ev M (S (ev s1)) s1 {| ai_pi := P1; ai_proc := Pr1 |} X1) as [A2 X2]. fold s2 in A2, X2.
    assert (F2 : Fr s s2) by (apply (fr_trans s s1 s2 F1 (fr_ev _ s1)); apply P1). assert (C2 : conflict s2 = conflict s) by exact C1. assert (Cf2 : conflOK s2 c) by exact Cf.
    assert (N2 : NA cm s2) by (eapply na_fr; eauto). clearbody s2. unfold wp. destruct (tlim s2) eqn:Tl.
    + split; auto. left. assert (D : dl s2 = 0) by (unfold dl; rewrite Tl; auto). split; [apply A2|]. split; auto. split; auto. split; auto. eapply confl_unsat; [apply A2|exact Cf2|exact D].
    + change (wp (learn o cm (S n) c ;;; searchLoop o cm n) s2 (searchPost M s)). apply wp_bind. eapply wp_mono; [apply (learn_ok o cm M (S n) c s2); auto; unfold dl; rewrite Tl; cbn; lia|].
      cbv beta. intros _ s3 (H3 & F3 & C3). assert (F03 : Fr s s3) by (apply (fr_trans s s2 s3 F2 F3); apply A2). eapply wp_mono; [apply IH; auto; [eapply na_fr; eauto|eapply ass_fr; eauto]|].
      intros r u. apply post_trans; auto; [apply H3|congruence].
  - destruct H1 as (Q1 & Pr1). assert (S1 : searchInv M s1) by (split; auto). clear P Pr X K1. apply wp_bind. unfold ask, wp at 1. set (s2 := with_tick (S (tick s1)) s1).
    assert (S2 : searchInv M s2) by (apply si_tick; auto). assert (F2 : Fr s s2) by (apply (fr_trans s s1 s2 F1 (fr_tick _ s1)); apply P1). assert (C2 : conflict s2 = conflict s) by exact C1. assert (Q2 : qhead s2 = length (trail s2)) by exact Q1.
    destruct (o_restart o (tick s1)).
    { clearbody s2. apply wp_bind, wp_modify, wp_ret. destruct (cancel0_ok M s2 S2) as (Y1 & Y2 & Y3 & Y4). split; [apply (fr_trans s s2 _ F2 Y2); apply S2|]. split; auto. split; auto. congruence. }
    clearbody s2. clear s1 S1 F1 C1 Q1 P1 X1 Pr1. apply wp_bind. unfold wp at 1. set (s1 := with_tick (S (tick s2)) s2).
    assert (S1 : searchInv M s1) by (apply si_tick; auto). assert (F1 : Fr s s1) by (apply (fr_trans s s2 s1 F2 (fr_tick _ s2)); apply S2). assert (C1 : conflict s1 = conflict s) by exact C2. assert (Q1 : qhead s1 = length (trail s1)) by exact Q2.
    set (b := o_reduce o (tick s2)). clearbody s1 b. clear s2 S2 F2 C2 Q2. apply wp_bind.
    assert (Y : wp (if b then fun s => match learnts s with [] => Ret tt s | _ => reduceDB o s end else ret tt) s1 (fun _ s' => searchInv M s' /\ Fr s1 s' /\ sameTr s1 s')).
    { assert (Z : searchInv M s1 /\ Fr s1 s1 /\ sameTr s1 s1) by (split; [auto|split; [apply fr_refl|repeat split]]). destruct b; [|exact Z]. unfold wp. destruct (learnts s1); [exact Z|]. apply (reduceDB_ok o M s1); auto. }
    eapply wp_mono; [exact Y|]. clear Y. cbv beta. intros _ s2 (S2 & F2 & T1 & T2 & T3 & T4). assert (F02 : Fr s s2) by (apply (fr_trans s s1 s2 F1 F2); apply S1). assert (Q2 : qhead s2 = length (trail s2)) by congruence. assert (C2 : conflict s2 = conflict s) by congruence.
    clear s1 S1 F1 C1 Q1 F2 T1 T2 T3 T4.
    match goal with |- wp _ _ ?R => change (wp (a <-- nextAssumption (skipn (dl s2) (assumps s2)) ;;
           match a with
           | inl p => analyzeFinal (neg p) ;;; ret StFalse
           | inr (Some p) => newLevel ;;; enqueue p None ;;; searchLoop o cm n
           | inr None => fun s => (p <-- pickBranch o (S (length (heap s))) ;;
                          match p with None => ret StTrue | Some p => newLevel ;;; enqueue p None ;;; searchLoop o cm n end) s
           end) s2 R) end.
    apply wp_bind. eapply wp_mono; [apply (nextAssumption_ok M _ s2 S2 Q2 eq_refl)|]. intros a s3 (S3 & F3 & C3 & Q3 & H3). assert (F03 : Fr s s3) by (apply (fr_trans s s2 s3 F02 F3); apply S2). assert (C03 : conflict s3 = conflict s) by congruence. clear S2 F02 Q2 C2 F3 C3 s2.
    assert (As3 : assumpsOK s3) by (eapply ass_fr; eauto). assert (N3 : NA cm s3) by (eapply na_fr; eauto).
    destruct a as [p|[p|]].
    + destruct H3 as (Ip & Fp & D). apply wp_bind. eapply wp_mono; [apply (analyzeFinal_ok M p s3 S3 Ip Fp D)|]. cbv beta. intros _ s4 (S4 & F4 & FC4 & E1 & E2). apply wp_ret. split; [apply (fr_trans s s3 s4 F03 F4); apply S3|]. right. split; auto. split; auto. congruence.
    + destruct H3 as (Np & Vp). destruct S3 as (P3 & X3 & Pr3).
      assert (X3' : Ex (with_heap (fst p :: heap s3) s3)). { pose proof (As3 p (nth_error_In _ _ Np)). destruct X3 as [E1 E2 E3 E4 E5 E6]. constructor; auto; [intros v L N; right; apply E3; auto|intros v [<-|I0]; auto]. }
      destruct (decide_ok M p s3 P3 Pr3 X3' Q3 Vp) as [S4 F4]; [apply As3; eapply nth_error_In; eauto|auto|].
      apply wp_bind, wp_modify. change (with_tlim (tlim s3 ++ [length (trail s3)]) s3) with (lvlup s3). apply wp_bind, wp_modify.
      assert (F04 : Fr s (enq p None (lvlup s3))) by (apply (fr_trans s s3 _ F03 F4); apply P3). eapply wp_mono; [apply IH; [exact S4|eapply na_fr; [exact Na|exact F04]|eapply ass_fr; [exact As|exact F04]]|].
      intros r u. apply post_trans; auto. apply S4.
    + destruct S3 as (P3 & X3 & Pr3). unfold wp.
      change (wp (p <-- pickBranch o (S (length (heap s3))) ;; match p with None => ret StTrue | Some p => newLevel ;;; enqueue p None ;;; searchLoop o cm n end) s3 (searchPost M s)). apply wp_bind.
      destruct X3 as [E1 E2 E3 E4 E5 E6]. eapply wp_mono; [apply (pickBranch_ok o _ s3); auto|]. cbv beta. intros r s4 (h & t & E & Ih & Hr & Hh). destruct (si_heap M h t s3 P3 Pr3) as [P4 Pr4].
      assert (F4 : Fr s s4) by (rewrite E; apply (fr_trans s s3 _ F03 (fr_heap h t s3)); apply P3). assert (C4 : conflict s4 = conflict s) by (rewrite E; exact C03).
      destruct r as [p|].
      * destruct Hr as (Vp & Lp & Hr). assert (X4 : Ex (with_heap (fst p :: heap s4) s4)). { rewrite E. constructor; auto; [intros v L N; destruct (Hr v L N); [left|right]; auto|intros v [<-|I0]; auto; apply E4, Ih; auto]. }
        destruct (decide_ok M p s4) as [S5 F5]; [rewrite E; exact P4|rewrite E; exact Pr4|exact X4|rewrite E; exact Q3|rewrite E; exact Vp|rewrite E; exact Lp|rewrite E; intros Y; exfalso; change (dl s3 < length (assumps s3)) in Y; lia|].
        apply wp_bind, wp_modify. change (with_tlim (tlim s4 ++ [length (trail s4)]) s4) with (lvlup s4). apply wp_bind, wp_modify. assert (W4 : Wat s4) by (rewrite E; apply P4).
        assert (F05 : Fr s (enq p None (lvlup s4))) by (apply (fr_trans s s4 _ F4 F5); auto). eapply wp_mono; [apply IH; [exact S5|eapply na_fr; [exact Na|exact F05]|eapply ass_fr; [exact As|exact F05]]|].
        intros r u. apply post_trans; auto. apply S5.
      * apply wp_ret. split; auto. specialize (Hh eq_refl). subst h. assert (Ha : forall v, v < nvars s3 -> val_ s3 v <> None) by (intros v L N; apply (Hr v L N)). split; [split; [|split]|].
        -- rewrite E; exact P4.
        -- rewrite E. constructor; auto; try (intros v L N; exfalso; apply (Ha v); auto; fail).
        -- rewrite E; exact Pr4.
        -- split; [rewrite E; exact Q3|]. split; [rewrite E; exact Ha|]. rewrite E. intros p Ip. apply In_nth_error in Ip as (i & Hi). apply (as_ass _ _ _ (pi_asg _ _ P3) i p Hi). apply Nat.lt_le_trans with (length (assumps s3)); auto. apply nth_error_Some. intros Z. change (nth_error (assumps s3) i = Some p) in Hi. rewrite Z in Hi. discriminate.
Qed.
End Loop.
