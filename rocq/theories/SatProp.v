(** * Unit propagation keeps the invariants *)
From Coq Require Import List Bool Arith Lia ZArith Permutation.
From Verif Require Import Sat SatInv.
Import ListNotations.

Lemma occ_app : forall {A} c (l m : list (nat * A)), occ c (l ++ m) = occ c l + occ c m.
Proof. induction l as [|[d x] l]; cbn; intros; auto. rewrite IHl; lia. Qed.
Lemma occ_in : forall {A} c (l : list (nat * A)), In c (map fst l) <-> 0 < occ c l.
Proof. induction l as [|[d x] l]; cbn; [split; [intros []|lia]|]. rewrite IHl. destruct (Nat.eqb_spec d c); split; intros; auto; try lia; tauto. Qed.
Lemma occ_0 : forall {A} c (l : list (nat * A)), ~ In c (map fst l) <-> occ c l = 0.
Proof. intros; rewrite occ_in; lia. Qed.
Lemma In_map_fst : forall {A} (c : nat) (b : A) (l : list (nat * A)), In (c, b) l -> In c (map fst l).
Proof. intros; change c with (fst (c, b)); apply in_map; auto. Qed.
Lemma map_fst_In : forall {A} c (l : list (nat * A)), In c (map fst l) -> exists b, In (c, b) l.
Proof. intros A c l I. apply in_map_iff in I as ([d b] & <- & I). exists b; auto. Qed.
Lemma updl_same : forall {A} (m : slit -> A) i a, updl m i a i = a.
Proof. unfold updl; intros; rewrite slit_eqb_refl; auto. Qed.
Lemma updl_other : forall {A} (m : slit -> A) i j a, j <> i -> updl m i a j = m j.
Proof. unfold updl; intros. apply slit_eqb_neq in H; rewrite H; auto. Qed.
Lemma upd_same : forall {A} (m : nat -> A) i a, upd m i a i = a.
Proof. unfold upd; intros; rewrite Nat.eqb_refl; auto. Qed.
Lemma upd_other : forall {A} (m : nat -> A) i j a, j <> i -> upd m i a j = m j.
Proof. unfold upd; intros. apply Nat.eqb_neq in H; rewrite H; auto. Qed.

(** ** Changing the order of the literals of a clause *)
Definition setL (c : nat) (ls : list slit) (s : sat) : sat := with_db (upd (db s) c (Clause ls (c_atm (db s c)) (c_w (db s c)) (c_st (db s c)))) s.
Definition setW (p : slit) (l : list (nat * option slit)) (s : sat) : sat := with_wat (updl (wat s) p l) s.
Lemma setL_cperm : forall c ls s d, Permutation ls (c_lits (db s c)) -> cperm (db s d) (db (setL c ls s) d).
Proof. intros. cbn. unfold upd. destruct (Nat.eqb_spec d c); [subst; repeat split; cbn; auto; symmetry; auto|apply cperm_refl]. Qed.
Lemma setL_same : forall c ls s, db (setL c ls s) c = Clause ls (c_atm (db s c)) (c_w (db s c)) (c_st (db s c)).
Proof. intros; cbn; apply upd_same. Qed.
Lemma setL_other : forall c ls s d, d <> c -> db (setL c ls s) d = db s d.
Proof. intros; cbn; apply upd_other; auto. Qed.
Lemma setL_asg : forall M E c ls s, Asg M E s -> Permutation ls (c_lits (db s c)) ->
  (forall l, tru s l -> rsn s (fst l) = Some c -> c_atm (db s c) = false -> 2 < length (c_lits (db s c)) -> hd0 (c_lits (db s c)) = l -> hd0 ls = l) -> Asg M E (setL c ls s).
Proof.
  intros M E c ls s A P H. destruct A. constructor; try assumption.
  intros pre l post d X Er. assert (Tl : tru s l). { apply as_val. cbn in X. rewrite X; apply in_elt. } assert (R := as_rsn pre l post d X Er). revert R. apply reasonOK_mono; auto.
  - intros _. apply setL_cperm; auto.
  - intros _ At L Hd. destruct (Nat.eq_dec d c); [subst d; rewrite setL_same; cbn; apply H; auto|rewrite setL_other; auto].
Qed.
Lemma filter_incl : forall {A} (P Q : A -> bool) l m, NoDup l -> (forall x, In x l -> P x = true -> In x m /\ Q x = true) -> length (filter P l) <= length (filter Q m).
Proof. intros A P Q l m ND H. apply NoDup_incl_length; [apply NoDup_filter; auto|]. intros x I. apply filter_In in I as [I1 I2]. apply filter_In. auto. Qed.
Lemma firstn_NoDup : forall {A} n (l : list A), NoDup l -> NoDup (firstn n l).
Proof. intros A n l H. rewrite <- (firstn_skipn n l) in H. revert H. generalize (firstn n l) (skipn n l). clear. induction l; cbn; intros m H; [constructor|]. inversion H; subst. constructor; [intros I; apply H2; apply in_or_app; auto|eapply IHl; eauto]. Qed.
Lemma wok_cperm : forall s s' q c, cperm (db s c) (db s' c) -> (forall l, val s' l = val s l) -> (forall l, lev s' l = lev s l) ->
  NoDup (c_lits (db s c)) -> (c_atm (db s c) = true -> forall l, In l (firstn (c_w (db s c)) (c_lits (db s c))) -> fls s l -> In l (firstn (c_w (db s c)) (c_lits (db s' c)))) ->
  (c_atm (db s c) = false -> forall t, tru s t -> blk s q c t -> blk s' q c t) -> wok s q c -> wok s' q c.
Proof.
  intros s s' q c P V L ND HA HB. unfold wok. pose proof P as (P1 & P2 & P3 & _). rewrite <- P2, <- P3. destruct (c_atm (db s c)).
  - intros W. etransitivity; [apply W|]. apply filter_incl; [apply firstn_NoDup; auto|]. intros x I X. split.
    + apply HA; auto. apply andb_true_iff in X as [X _]. apply isF_fls; auto.
    + unfold isF in *. rewrite V, !L; auto.
  - intros (t & I & T & X). exists t. split; [apply HB; auto|]. unfold tru. rewrite V, !L. auto.
Qed.
Lemma wok_same : forall s s' q c, db s' c = db s c -> (forall l, val s' l = val s l) -> (forall l, lev s' l = lev s l) ->
  (forall t, In (c, Some t) (wat s q) -> In (c, Some t) (wat s' q)) -> wok s q c -> wok s' q c.
Proof.
  intros s s' q c D V L HB. unfold wok. rewrite D. destruct (c_atm (db s c)).
  - intros W. etransitivity; [apply W|]. apply filter_le. intros x _. unfold isF. rewrite V, !L; auto.
  - intros (t & I & T & X). exists t. split; [|unfold tru; rewrite V, !L; auto]. unfold blk in *. rewrite D. destruct I; auto.
Qed.
Lemma wat_entry : forall s q c, Wat s -> In c (map fst (wat s q)) \/ In c (map fst (wbin s q)) -> In c (att s) /\ In q (wset (db s c)).
Proof.
  intros s q c W [I|I]; apply map_fst_In in I as [b I].
  - destruct (wt_bw _ W q c b I) as (X1 & _ & X2 & _); auto.
  - destruct (wt_bwb _ W q c b I) as (X1 & _ & X2 & _); auto.
Qed.
(** the same literals of clause [c] are watched after the change *)
Lemma setL_wat : forall c ls s, Wat s -> Permutation ls (c_lits (db s c)) -> (forall x, In x (wset (db (setL c ls s) c)) <-> In x (wset (db s c))) -> (forall t, c_atm (db s c) = false -> In t (firstn 2 (c_lits (db s c))) -> In t (firstn 2 ls)) -> Wat (setL c ls s).
Proof.
  intros c ls s W P H H2. destruct W.
  assert (B : forall d, big (db (setL c ls s) d) <-> big (db s d)).
  { intros d. unfold big. pose proof (setL_cperm c ls s d P) as Q. rewrite (cperm_len _ _ Q). destruct Q as (_ & -> & _). tauto. }
  assert (WS : forall d x, In x (wset (db (setL c ls s) d)) <-> In x (wset (db s d))).
  { intros d x. destruct (Nat.eq_dec d c); [subst; auto|rewrite setL_other; tauto]. }
  assert (IL : forall d x, In x (c_lits (db (setL c ls s) d)) <-> In x (c_lits (db s d))).
  { intros d x. symmetry. apply cperm_in, setL_cperm; auto. }
  constructor; try assumption.
  - intros d I. apply (clauseOK_cperm _ (db s d)); auto. apply setL_cperm; auto.
  - intros d p I Bg Ip. apply (wt_fw d p); auto; [apply B|apply WS]; auto.
  - intros d p I Bg Ip. apply (wt_fwb d p); auto; [rewrite <- B|apply WS]; auto.
  - intros p d b I. destruct (wt_bw p d b I) as (X1 & X2 & X3 & X4). split; auto. split; [apply B; auto|]. split; [apply WS; auto|].
    pose proof (setL_cperm c ls s d P) as (_ & <- & _). destruct (c_atm (db s d)); auto. destruct X4 as (t & -> & T). exists t; split; auto. apply IL; auto.
  - intros p d i I. destruct (wt_bwb p d i I) as (X1 & X2 & X3 & X4 & X5). split; auto. split; [rewrite B; auto|]. split; [apply WS; auto|]. split; [apply IL; auto|auto].
  - intros d I At L. pose proof (setL_cperm c ls s d P) as Q. rewrite <- (cperm_len _ _ Q) in L. destruct Q as (_ & Q & _). rewrite <- Q in At. destruct (wt_blk d I At L) as (p & t & X1 & X2 & X3 & X4). exists p, t. split; auto.
    destruct (Nat.eq_dec d c); [subst d; rewrite setL_same; cbn [c_lits]; auto|rewrite setL_other; auto].
Qed.
Lemma setL_proc : forall c ls s X, Wat s -> Permutation ls (c_lits (db s c)) -> c_atm (db s c) = false -> (forall t, In t (firstn 2 (c_lits (db s c))) -> In t (firstn 2 ls)) -> Proc s X -> Proc (setL c ls s) X.
Proof.
  intros c ls s X Wt P At H2 H q d I W. destruct (H q d I W) as [|Y]; auto. right. destruct (wat_entry s q d Wt W) as [Id _].
  destruct (Nat.eq_dec d c) as [->|N]; [|apply (wok_same s); auto; apply setL_other; auto].
  revert Y. apply wok_cperm; auto; [apply setL_cperm; auto|apply (wt_cl _ Wt c Id)|congruence|]. intros _ t _ [B|B]; [left; exact B|right]. rewrite setL_same. apply H2; auto.
Qed.
(** another blocker *)
Lemma setW_wat : forall p kept c b b' r s, Wat s -> wat s p = kept ++ (c, b) :: r -> (if c_atm (db s c) then b' = None else exists t, b' = Some t /\ In t (firstn 2 (c_lits (db s c))) /\ t <> neg p) ->
  Wat (setW p (kept ++ (c, b') :: r) s).
Proof.
  intros p kept c b b' r s W E H.
  assert (H' : if c_atm (db s c) then b' = None else exists t, b' = Some t /\ In t (c_lits (db s c))). { destruct (c_atm (db s c)); auto. destruct H as (t & X & Y & _). exists t. split; auto. eapply In_firstn; eauto. }
  assert (Q : forall q d, In d (map fst (wat (setW p (kept ++ (c, b') :: r) s) q)) <-> In d (map fst (wat s q))).
  { intros q d. cbn. destruct (slit_dec q p); [subst; rewrite updl_same, E, !map_app; cbn; tauto|rewrite updl_other; tauto]. }
  destruct W. constructor; try assumption.
  - intros d q I Bg Iq. apply map_fst_In. apply Q. destruct (wt_fw d q I Bg Iq) as [x X]. eapply In_map_fst; eauto.
  - intros q d x I. cbn in I. destruct (slit_dec q p); [subst q; rewrite updl_same in I|rewrite updl_other in I by auto; apply (wt_bw q d x); auto].
    apply in_app_iff in I as [I|[I|I]].
    + apply (wt_bw p d x). rewrite E. apply in_or_app; auto.
    + inversion I; subst d x. destruct (wt_bw p c b) as (X1 & X2 & X3 & X4); [rewrite E; apply in_elt|]. repeat (split; [assumption|]). exact H'.
    + apply (wt_bw p d x). rewrite E. apply in_or_app; right; right; auto.
  - intros q d. cbn. destruct (slit_dec q p); [subst q; rewrite updl_same|rewrite updl_other by auto; auto]. specialize (wt_once p d). rewrite E in wt_once. rewrite occ_app in *. auto.
  - intros d I At L. change (db (setW p (kept ++ (c, b') :: r) s)) with (db s) in *. destruct (wt_bw p c b) as (X1 & X2 & X3 & X4); [rewrite E; apply in_elt|]. destruct (Nat.eq_dec d c).
    + subst d. unfold wset in X3. rewrite At in H, X3. destruct H as (t & -> & It & Nt). exists p, t. split; [cbn; rewrite updl_same; apply in_elt|]. split; auto.
      apply in_map_iff in X3 as (y & <- & Y). rewrite neg_neg; auto.
    + destruct (wt_blk d I At L) as (q & t & Y1 & Y2). exists q, t. split; auto. cbn. destruct (slit_dec q p); [subst q; rewrite updl_same|rewrite updl_other by auto; auto].
      rewrite E in Y1. apply in_app_iff in Y1 as [Y1|[Y1|Y1]]; apply in_or_app; auto; [congruence|]. right; right; auto.
Qed.
Lemma setW_proc : forall p kept c b b' r s (X : slit -> nat -> Prop), wat s p = kept ++ (c, b) :: r -> X p c -> Proc s X -> Proc (setW p (kept ++ (c, b') :: r) s) X.
Proof.
  intros p kept c b b' r s X E Xc H q d I W. destruct (slit_dec q p); [subst q; destruct (Nat.eq_dec d c); [subst d; auto|]|].
  - assert (W' : In d (map fst (wat s p)) \/ In d (map fst (wbin s p))).
    { destruct W as [W|W]; auto. left. cbn in W. rewrite updl_same in W. rewrite E, map_app in *. exact W. }
    destruct (H p d I W') as [|Y]; auto. right. revert Y. apply wok_same; auto. intros t T. cbn. rewrite updl_same. rewrite E in T.
    apply in_app_iff in T as [T|[T|T]]; apply in_or_app; auto; [congruence|]. right; right; auto.
  - assert (W' : In d (map fst (wat s q)) \/ In d (map fst (wbin s q))). { destruct W as [W|W]; auto. left. cbn in W. rewrite updl_other in W; auto. }
    destruct (H q d I W') as [|Y]; auto. right. revert Y. apply wok_same; auto. intros t T. cbn. rewrite updl_other; auto.
Qed.
(** clause [c] is watched by [n] instead of [p] *)
Definition moveW (p n : slit) (c : nat) (b : option slit) (ls : list slit) (l : list (nat * option slit)) (s : sat) : sat := addW n (c, b) (setW p l (setL c ls s)).
Lemma moveW_wat : forall p n kept c b b' r ls s, Wat s -> wat s p = kept ++ (c, b) :: r -> Permutation ls (c_lits (db s c)) -> n <> p -> ~ In n (wset (db s c)) ->
  (forall x, In x (wset (db (setL c ls s) c)) <-> x = n \/ (In x (wset (db s c)) /\ x <> p)) ->
  (if c_atm (db s c) then b' = None else exists t, b' = Some t /\ In t (firstn 2 ls) /\ t <> neg n) ->
  Wat (moveW p n c b' ls (kept ++ r) s).
Proof.
  intros p n kept c b b' r ls s W E P NP NI H HB'.
  assert (HB : if c_atm (db s c) then b' = None else exists t, b' = Some t /\ In t (c_lits (db s c))).
  { destruct (c_atm (db s c)); auto. destruct HB' as (t & X & Y & _). exists t. split; auto. eapply Permutation_in; [exact P|]. eapply In_firstn; eauto. }
  destruct W.
  destruct (wt_bw p c b) as (C1 & C2 & C3 & C4); [rewrite E; apply in_elt|].
  assert (O : occ c kept = 0 /\ occ c r = 0). { pose proof (wt_once p c) as O. rewrite E, occ_app in O. cbn in O. rewrite Nat.eqb_refl in O. lia. }
  assert (B : forall d, big (db (setL c ls s) d) <-> big (db s d)).
  { intros d. unfold big. pose proof (setL_cperm c ls s d P) as Q. rewrite (cperm_len _ _ Q). destruct Q as (_ & -> & _). tauto. }
  assert (WS : forall d x, d <> c -> In x (wset (db (setL c ls s) d)) <-> In x (wset (db s d))).
  { intros d x N. rewrite setL_other; tauto. }
  assert (IL : forall d x, In x (c_lits (db (setL c ls s) d)) <-> In x (c_lits (db s d))).
  { intros d x. symmetry. apply cperm_in, setL_cperm; auto. }
  assert (AT : forall d, c_atm (db (setL c ls s) d) = c_atm (db s d)). { intros d. pose proof (setL_cperm c ls s d P) as (_ & -> & _). auto. }
  assert (WA : forall q, wat (moveW p n c b' ls (kept ++ r) s) q = if slit_eqb q n then wat s n ++ [(c, b')] else if slit_eqb q p then kept ++ r else wat s q).
  { intros q. cbn. unfold updl. destruct (slit_eqb q n) eqn:En; auto. destruct (slit_eqb n p) eqn:Ep; auto. apply slit_eqb_eq in Ep; contradiction. }
  assert (NC : ~ In c (map fst (wat s n))).
  { intros I. apply map_fst_In in I as [x I]. apply wt_bw in I. tauto. }
  constructor; try assumption.
  - intros d I. apply (clauseOK_cperm _ (db s d)); auto. apply (setL_cperm c ls s d P).
  - intros d q I Bg Iq. change (db (moveW p n c b' ls (kept ++ r) s)) with (db (setL c ls s)) in Bg, Iq. rewrite WA. apply B in Bg. destruct (Nat.eq_dec d c).
    + subst d. apply H in Iq as [->|[Iq Nq]].
      * rewrite slit_eqb_refl. exists b'. apply in_or_app; right; left; auto.
      * destruct (slit_eqb q n) eqn:En; [apply slit_eqb_eq in En; subst; contradiction|]. apply slit_eqb_neq in Nq; rewrite Nq. eapply wt_fw; eauto.
    + apply WS in Iq; auto. destruct (wt_fw d q I Bg Iq) as [x X]. destruct (slit_eqb q n) eqn:En.
      * apply slit_eqb_eq in En; subst q. exists x. apply in_or_app; auto.
      * destruct (slit_eqb q p) eqn:Ep; [|eauto]. apply slit_eqb_eq in Ep; subst q. rewrite E in X. exists x. apply in_app_iff in X as [X|[X|X]]; [apply in_or_app; auto|congruence|apply in_or_app; auto].
  - intros d q I Bg Iq. change (db (moveW p n c b' ls (kept ++ r) s)) with (db (setL c ls s)) in Bg, Iq. assert (d <> c). { intros ->. rewrite B in Bg. contradiction. }
    apply (wt_fwb d q); auto; [rewrite <- B; auto|apply WS; auto].
  - intros q d x I. change (db (moveW p n c b' ls (kept ++ r) s)) with (db (setL c ls s)). rewrite AT. rewrite WA in I.
    assert (G : In (d, x) (wat s q) -> d <> c \/ q <> p -> d <> c \/ In q (wset (db (setL c ls s) c)) -> In d (att s) /\ big (db (setL c ls s) d) /\ In q (wset (db (setL c ls s) d)) /\ (if c_atm (db s d) then x = None else exists t, x = Some t /\ In t (c_lits (db (setL c ls s) d)))).
    { intros I2 N1 N2. destruct (wt_bw q d x I2) as (X1 & X2 & X3 & X4). split; auto. split; [apply B; auto|]. split.
      - destruct (Nat.eq_dec d c); [subst d; tauto|apply WS; auto].
      - destruct (c_atm (db s d)); auto. destruct X4 as (t & -> & T). exists t; split; auto. apply IL; auto. }
    destruct (slit_eqb q n) eqn:En.
    + apply slit_eqb_eq in En; subst q. apply in_app_iff in I as [I|[I|[]]].
      * assert (d <> c). { intros ->. apply NC. eapply In_map_fst; eauto. } apply G; auto.
      * inversion I; subst d x. split; auto. split; [apply B; auto|]. split; [apply H; auto|]. destruct (c_atm (db s c)); auto. destruct HB as (t & -> & T). exists t; split; auto. apply IL; auto.
    + destruct (slit_eqb q p) eqn:Ep.
      * apply slit_eqb_eq in Ep; subst q. assert (d <> c). { intros ->. apply In_map_fst in I. apply occ_in in I. rewrite occ_app in I. lia. }
        apply G; auto. rewrite E. apply in_app_iff in I as [I|I]; apply in_or_app; auto. right; right; auto.
      * apply slit_eqb_neq in En, Ep. apply G; auto. destruct (Nat.eq_dec d c); auto. subst d. right. apply H. right; split; auto. apply (wt_bw q c x I).
  - intros q d i I. destruct (wt_bwb q d i I) as (X1 & X2 & X3 & X4 & X5). change (db (moveW p n c b' ls (kept ++ r) s)) with (db (setL c ls s)). assert (d <> c) by (intros ->; contradiction).
    split; auto. split; [rewrite B; auto|]. split; [apply WS; auto|]. split; [apply IL; auto|auto].
  - intros q d. rewrite WA. destruct (slit_eqb q n) eqn:En.
    + apply slit_eqb_eq in En; subst q. rewrite occ_app. cbn. destruct (Nat.eqb_spec c d); [subst d; apply occ_0 in NC; lia|]. specialize (wt_once n d). lia.
    + destruct (slit_eqb q p) eqn:Ep; auto. apply slit_eqb_eq in Ep; subst q. specialize (wt_once p d). rewrite E, occ_app in wt_once. cbn in wt_once. rewrite occ_app. lia.
  - intros d I At L. change (db (moveW p n c b' ls (kept ++ r) s)) with (db (setL c ls s)) in *. rewrite AT in At. destruct (Nat.eq_dec d c).
    + subst d. assert (Hn : In n (wset (db (setL c ls s) c))) by (apply H; auto). unfold wset in Hn. rewrite AT in Hn. rewrite At in HB', Hn. destruct HB' as (t & -> & It & Nt). exists n, t. rewrite WA, slit_eqb_refl. split; [apply in_or_app; right; left; auto|].
      rewrite setL_same in *. cbn [c_lits] in *. apply in_map_iff in Hn as (y & <- & Y). rewrite neg_neg in *. auto.
    + rewrite setL_other in * by auto. destruct (wt_blk d I At L) as (q & t & Y1 & Y2). exists q, t. split; auto. rewrite WA. destruct (slit_eqb q n) eqn:En.
      * apply slit_eqb_eq in En; subst q. apply in_or_app; auto.
      * destruct (slit_eqb q p) eqn:Ep; auto. apply slit_eqb_eq in Ep; subst q. rewrite E in Y1. apply in_app_iff in Y1 as [Y1|[Y1|Y1]]; apply in_or_app; auto. congruence.
Qed.
Lemma moveW_proc : forall p n kept c b b' r ls s, Wat s -> wat s p = kept ++ (c, b) :: r -> Permutation ls (c_lits (db s c)) -> n <> p -> ~ In n (firstn (qhead s) (trail s)) ->
  (c_atm (db s c) = true -> forall l, In l (firstn (c_w (db s c)) (c_lits (db s c))) -> fls s l -> In l (firstn (c_w (db s c)) ls)) ->
  (c_atm (db s c) = false -> forall l, In l (firstn 2 (c_lits (db s c))) -> tru s l -> In l (firstn 2 ls)) ->
  Proc s (fun q d => q = p /\ In d (c :: map fst r)) -> Proc (moveW p n c b' ls (kept ++ r) s) (fun q d => q = p /\ In d (map fst r)).
Proof.
  intros p n kept c b b' r ls s W E P NP NI HA HC H q d I X. change (In q (firstn (qhead s) (trail s))) in I.
  assert (X' : (In d (map fst (wat s q)) \/ In d (map fst (wbin s q))) /\ (q = p -> d = c -> False)).
  { destruct X as [X|X].
    - cbn in X. destruct (slit_dec q n); [subst; contradiction|]. rewrite updl_other in X by auto. destruct (slit_dec q p); [|rewrite updl_other in X by auto; split; [auto|tauto]].
      subst q. rewrite updl_same in X. pose proof (wt_once _ W p c) as O. rewrite E, occ_app in O. cbn in O. rewrite Nat.eqb_refl in O. split.
      + left. rewrite E. rewrite map_app in *. cbn. apply in_app_iff in X as [X|X]; apply in_or_app; auto. right; right; auto.
      + intros _ ->. apply occ_in in X. rewrite occ_app in X. lia.
    - change (In d (map fst (wbin s q))) in X. split; auto. intros -> ->. apply map_fst_In in X as [i X]. apply (wt_bwb _ W) in X.
      destruct (wt_bw _ W p c b) as (_ & C2 & _); [rewrite E; apply in_elt|]. tauto. }
  destruct X' as [X1 X2]. destruct (H q d I X1) as [[-> [<-|Y]]|Y]; [exfalso; auto|auto|]. right.
  assert (WA : forall t, In (d, Some t) (wat s q) -> In (d, Some t) (wat (moveW p n c b' ls (kept ++ r) s) q)).
  { intros t T. cbn. destruct (slit_dec q n); [subst; contradiction|]. rewrite updl_other by auto. destruct (slit_dec q p); [|rewrite updl_other; auto]. subst q. rewrite updl_same. rewrite E in T.
    apply in_app_iff in T as [T|[T|T]]; apply in_or_app; auto. inversion T; subst. exfalso; auto. }
  destruct (Nat.eq_dec d c) as [->|N]; [|revert Y; apply wok_same; auto; apply setL_other; auto].
  destruct (wat_entry s q c W X1) as [Ic _]. revert Y. apply wok_cperm; auto; [apply (setL_cperm c ls s c P)|apply (wt_cl _ W c Ic)| |].
  - intros At l I1 F. change (db (moveW p n c b' ls (kept ++ r) s) c) with (db (setL c ls s) c). rewrite setL_same. apply HA; auto.
  - intros At t T [B|B]; [left; auto|right]. change (db (moveW p n c b' ls (kept ++ r) s) c) with (db (setL c ls s) c). rewrite setL_same. apply HC; auto.
Qed.

(** ** Reasons are sound *)
Lemma reason_sound : forall M E s pre l c a, reasonOK M E s pre l c -> ~ In (neg l) pre -> M a ->
  (forall q, In q pre -> In (if c_atm (db s c) then q else neg q) (c_lits (db s c)) -> alit a q = true) -> alit a l = true.
Proof.
  intros M E s pre l c a (R1 & R2 & R3) N Ma H. specialize (R2 a Ma). unfold csat in R2. destruct (c_atm (db s c)).
  - destruct R3 as (R3 & R4 & R5). destruct (alit a l) eqn:Al; auto. exfalso.
    assert (X : length (filter (fun q => inL q pre) (c_lits (db s c))) < length (filter (alit a) (c_lits (db s c)))); [|lia].
    apply filter_lt with (neg l); auto.
    + intros x Ix P. apply inL_in in P. auto.
    + destruct (inL (neg l) pre) eqn:P; auto. apply inL_in in P; contradiction.
    + rewrite alit_neg, Al; auto.
  - destruct R3 as (R3 & R4 & R5). destruct R2 as (q & Iq & Aq). destruct (R4 q Iq) as [->|P]; auto.
    exfalso. specialize (H (neg q) P). rewrite neg_neg, alit_neg, Aq in H. specialize (H Iq). discriminate.
Qed.
Lemma not_in_neg : forall M E s l, Asg M E s -> val s l = None -> ~ In (neg l) (trail s) /\ ~ In l (trail s).
Proof. intros M E s l A V. rewrite !(as_val _ _ _ A). unfold tru. rewrite val_neg, V. cbn. split; discriminate. Qed.
Lemma enq_asg_r : forall M E l c s, Asg M E s -> val s l = None -> fst l < nvars s -> reasonOK M E (enq l (Some c) s) (trail s) l c -> Asg M E (enq l (Some c) s).
Proof.
  intros M E l c s A V Vl R. apply enq_asg; auto; try discriminate.
  - intros d X; inversion X; subst; auto.
  - intros D a Ma. apply (reason_sound M E (enq l (Some c) s) (trail s) l c a R); auto; [apply (not_in_neg M E s l A V)|].
    intros q Iq _. apply (as_l0 _ _ _ A); auto. pose proof (as_lev _ _ _ A q Iq). lia.
Qed.

(** what propagation leaves unchanged *)
Record Pkeep (s s' : sat) : Prop := {
  pk_same : (ok s', units s', clauses s', learnts s', nextc s', nvars s', pol s', dec s', heap s', tlim s', seen s', model s', conflict s', assumps s', tick s', ev s', stateId s', validStates s')
          = (ok s, units s, clauses s, learnts s, nextc s, nvars s, pol s, dec s, heap s, tlim s, seen s, model s, conflict s, assumps s, tick s, ev s, stateId s, validStates s);
  pk_db : forall c, cperm (db s c) (db s' c);
  pk_trail : exists ext, trail s' = trail s ++ ext /\ forall l, In l ext -> exists c, rsn s' (fst l) = Some c /\ In c (att s);
  pk_val : forall l, tru s l -> tru s' l;
  pk_lev : forall l, tru s l -> lev s' l = lev s l /\ rsn s' (fst l) = rsn s (fst l) }.
Ltac pk H := let E := fresh in pose proof (pk_same _ _ H) as E; inversion E; clear E.
Lemma pk_refl : forall s, Pkeep s s.
Proof. intros s; constructor; auto. - intros; apply cperm_refl. - exists []. rewrite app_nil_r; split; auto. intros l []. Qed.
Lemma pk_trans : forall s t u, Pkeep s t -> Pkeep t u -> (forall l, In l (trail t) -> tru t l) -> Pkeep s u.
Proof.
  intros s t u [A1 A2 (e1 & A3 & A3') A4 A5] [B1 B2 (e2 & B3 & B3') B4 B5] V. constructor.
  - congruence.
  - intros c. eapply cperm_trans; eauto.
  - exists (e1 ++ e2). split; [rewrite B3, A3, app_assoc; auto|]. intros l I. apply in_app_iff in I as [I|I].
    + destruct (A3' l I) as (c & X & Y). exists c. split; auto. destruct (B5 l) as [_ ->]; auto. apply V. rewrite A3. apply in_or_app; auto.
    + destruct (B3' l I) as (c & X & Y). exists c. split; auto. unfold att in *. inversion A1. congruence.
  - auto.
  - intros l T. destruct (A5 l T) as [X Y], (B5 l (A4 l T)) as [X' Y']. split; congruence.
Qed.
Lemma pk_enq : forall l c s, val s l = None -> In c (att s) -> Pkeep s (enq l (Some c) s).
Proof.
  intros l c s V I. constructor; auto.
  - intros; apply cperm_refl.
  - exists [l]. split; auto. intros m [<-|[]]. exists c. split; auto. cbn; apply upd_same.
  - intros m T. apply tru_enq; auto.
  - intros m T. assert (N : fst m <> fst l). { intros X. pose proof (val_fst _ _ _ X V). unfold tru in T; congruence. } split; [apply lev_enq_old; auto|cbn; apply upd_other; auto].
Qed.
Lemma pk_setL : forall c ls s, Permutation ls (c_lits (db s c)) -> Pkeep s (setL c ls s).
Proof. intros c ls s P. constructor; auto; [intros; apply setL_cperm; auto|]. exists []. rewrite app_nil_r; split; auto. intros l []. Qed.
Lemma pk_setW : forall p l s, Pkeep s (setW p l s).
Proof. intros. constructor; auto; [intros; apply cperm_refl|]. exists []. rewrite app_nil_r; split; auto. intros x []. Qed.
Lemma pk_moveW : forall p n c b ls l s, Permutation ls (c_lits (db s c)) -> Pkeep s (moveW p n c b ls l s).
Proof. intros. constructor; auto; [intros; change (db (moveW p n c b ls l s)) with (db (setL c ls s)); apply setL_cperm; auto|]. exists []. rewrite app_nil_r; split; auto. intros x []. Qed.

(** the state of the solver between the steps of propagation *)
Definition E0 : nat -> slit -> Prop := fun _ _ => False.
Definition entAll (M : (nat -> bool) -> Prop) (s : sat) : Prop := forall c, In c (att s) -> ent M (db s c).
Record PI (M : (nat -> bool) -> Prop) (s : sat) : Prop := { pi_asg : Asg M E0 s; pi_wat : Wat s; pi_ent : entAll M s }.
Lemma ent_cperm : forall M d e, cperm d e -> ent M d -> ent M e.
Proof. intros M d e P H a Ma. eapply cperm_csat; eauto. Qed.
Lemma pk_att : forall s s', Pkeep s s' -> att s' = att s.
Proof. intros s s' P. pk P. unfold att; congruence. Qed.
Lemma entAll_pk : forall M s s', entAll M s -> Pkeep s s' -> entAll M s'.
Proof. intros M s s' H P c I. rewrite (pk_att _ _ P) in I. eapply ent_cperm; [apply (pk_db _ _ P)|]. apply H; auto. Qed.
(** a clause that is violated *)
Definition conflOK (s : sat) (c : nat) : Prop :=
  In c (att s) /\ (if c_atm (db s c) then maxT (db s c) < length (filter (isT s) (c_lits (db s c))) else forall q, In q (c_lits (db s c)) -> fls s q) /\
  exists q, In q (c_lits (db s c)) /\ (c_atm (db s c) = true -> tru s q) /\ lev s q = dl s.

(** ** Binary clauses *)
Lemma bin_lits : forall s p c i, Wat s -> In (c, i) (wbin s p) -> In c (att s) /\ c_atm (db s c) = false /\ (c_lits (db s c) = [neg p; i] \/ c_lits (db s c) = [i; neg p]).
Proof.
  intros s p c i W I. destruct (wt_bwb _ W p c i I) as (X1 & X2 & X3 & X4 & X5). destruct (wt_cl _ W c X1) as (_ & C2 & _).
  unfold big in X2. destruct (c_atm (db s c)) eqn:At; [tauto|]. split; auto. split; auto. unfold wset in X3. rewrite At in X3.
  destruct (c_lits (db s c)) as [|a [|b [|]]]; cbn in *; try lia.
  destruct X3 as [X3|[X3|[]]]; subst p; rewrite neg_neg in *; destruct X4 as [X4|[X4|[]]]; subst; auto; contradiction.
Qed.
Lemma propBin_ok : forall M p r s, PI M s -> In p (firstn (qhead s) (trail s)) -> lev s p = dl s -> (forall c i, In (c, i) r -> In (c, i) (wbin s p)) ->
  Proc s (fun q d => q = p /\ (In d (map fst r) \/ In d (map fst (wat s p)))) ->
  wp (propBin r) s (fun x s' => PI M s' /\ Pkeep s s' /\ qhead s' = qhead s /\ wat s' = wat s /\
    match x with None => Proc s' (fun q d => q = p /\ In d (map fst (wat s p))) | Some c => conflOK s' c /\ Proc s' (fun q _ => lev s' q = dl s') end).
Proof.
  intros M p r. induction r as [|[c i] r IH]; intros s I Ip Lp Hr P.
  { apply wp_ret. split; auto. split; [apply pk_refl|]. split; auto. split; auto. intros q d Iq W. destruct (P q d Iq W) as [(-> & [[]|X])|X]; auto. }
  destruct I as [A W En]. destruct (bin_lits s p c i W (Hr _ _ (or_introl eq_refl))) as (Ic & At & L).
  assert (Tp : tru s p) by (apply (as_val _ _ _ A); eapply In_firstn; eauto).
  assert (Ii : In i (c_lits (db s c))) by (destruct L as [-> | ->]; cbn; auto).
  assert (I2 : In i (firstn 2 (c_lits (db s c)))) by (destruct L as [-> | ->]; cbn; auto).
  cbn [propBin]. unfold wp. cbv beta. destruct (val s i) as [[]|] eqn:V; fold (wp (propBin r) s).
  - apply IH; auto; [constructor; auto|intros; apply Hr; right; auto|]. intros q d Iq Wq. destruct (P q d Iq Wq) as [(-> & [[X|X]|X])|X]; auto. cbn in X; subst d. right.
    unfold wok. rewrite At. exists i. split; [right; exact I2|]. split; auto. rewrite Lp. apply (as_lev _ _ _ A). apply (as_val _ _ _ A); auto.
  - split; [constructor; auto|]. split; [apply pk_refl|]. split; auto. split; auto. split.
    + split; auto. rewrite At. split; [|exists (neg p); split; [destruct L as [-> | ->]; cbn; auto|split; [discriminate|exact Lp]]].
      intros q Iq. destruct L as [L|L]; rewrite L in Iq; cbn in Iq; destruct Iq as [<-|[<-|[]]]; auto; apply fls_neg; auto.
    + intros q d Iq Wq. destruct (P q d Iq Wq) as [(-> & _)|X]; auto.
  - set (s1 := enq i (Some c) s).
    assert (A1 : Asg M E0 s1).
    { apply enq_asg_r; auto; [destruct (wt_cl _ W c Ic) as (_ & _ & X & _); auto|]. split; [apply (wt_lt _ W); auto|]. split; [apply En; auto|].
      change (db (enq i (Some c) s)) with (db s). rewrite At. split; auto. split.
      - intros q Iq. destruct L as [L|L]; rewrite L in Iq; cbn in Iq; destruct Iq as [<-|[<-|[]]]; auto; right; rewrite neg_neg; apply (as_val _ _ _ A); auto.
      - split; [destruct L as [-> | ->]; cbn; lia|]. apply (wt_cl _ W c Ic). }
    assert (K : Pkeep s s1) by (apply pk_enq; auto).
    fold (wp (propBin r) s1). change (wp (propBin r) s1 (fun x s' => PI M s' /\ Pkeep s s' /\ qhead s' = qhead s /\ wat s' = wat s /\
      match x with None => Proc s' (fun q d => q = p /\ In d (map fst (wat s p))) | Some c => conflOK s' c /\ Proc s' (fun q _ => lev s' q = dl s') end)).
    eapply wp_mono; [apply IH|].
    + constructor; auto. apply enq_wat; auto.
    + cbn. rewrite firstn_app_le; auto. apply (as_q _ _ _ A).
    + unfold s1. rewrite lev_enq_old; auto.
    + intros d j J. apply Hr; right; auto.
    + intros q d Iq Wq. assert (Iq' : In q (firstn (qhead s) (trail s))). { cbn in Iq. rewrite firstn_app_le in Iq; auto. apply (as_q _ _ _ A). }
      destruct (P q d Iq' Wq) as [(-> & [[X|X]|X])|X]; auto; [|right; apply wok_enq; auto; apply (as_val _ _ _ A); eapply In_firstn; eauto].
      cbn in X; subst d. right. unfold wok. change (db s1) with (db s). rewrite At. exists i. split; [right; exact I2|]. split; [apply tru_enq; auto|].
      unfold s1. rewrite (lev_enq_old _ _ _ p) by auto. rewrite lev_enq, Nat.eqb_refl. lia.
    + intros x s' (X1 & X2 & X3 & X4 & X5). split; auto. split; [eapply pk_trans; eauto; apply (as_val _ _ _ A1)|]. auto.
Qed.

(** ** At-most constraints *)
Lemma findNext_ok : forall s ls i, match findNext s ls i with Some j => i <= j < i + length ls /\ ~ tru s (nth (j - i) ls (0, false)) | None => forall q, In q ls -> tru s q end.
Proof.
  induction ls; cbn [findNext]; intros i; [intros q []|]. destruct (isT s a) eqn:T.
  - specialize (IHls (S i)). destruct (findNext s ls (S i)) as [j|].
    + destruct IHls as [H1 H2]. cbn [length]. split; [lia|]. replace (j - i) with (S (j - S i)) by lia. auto.
    + intros q [<-|I]; auto. apply isT_tru; auto.
  - cbn [length]. split; [lia|]. rewrite Nat.sub_diag. cbn. rewrite <- isT_tru, T. discriminate.
Qed.
Lemma nth_firstn_app : forall {A} (l : list A) w pre x post d, firstn w l = pre ++ x :: post -> length pre < w /\ length pre < length l /\ nth (length pre) l d = x.
Proof.
  intros A l w pre x post d E. assert (L := f_equal (@length A) E). rewrite firstn_length, app_length in L. cbn in L. split; [lia|]. split; [lia|].
  rewrite <- (firstn_skipn w l), E, <- app_assoc. rewrite app_nth2 by lia. rewrite Nat.sub_diag. auto.
Qed.
Lemma findNew_ok : forall s d p ws pre nf nt, firstn (c_w d) (c_lits d) = pre ++ ws -> nf = length (filter (isF s) pre) -> nt = length (filter (isT s) pre) -> tru s p ->
  (In p pre -> forall q, In q (skipn (c_w d) (c_lits d)) -> tru s q) -> In p (firstn (c_w d) (c_lits d)) -> c_w d <= length (c_lits d) ->
  match findNew s d p ws (length pre) nf nt with
  | NwKeep => c_w d - 1 <= length (filter (isF s) (firstn (c_w d) (c_lits d)))
  | NwUndef => length (filter (isT s) (firstn (c_w d) (c_lits d))) <= 1 /\ (forall q, In q (skipn (c_w d) (c_lits d)) -> tru s q)
  | NwError => maxT d < length (filter (isT s) (c_lits d))
  | NwNew l ls => exists q nx, q < c_w d /\ nth q (c_lits d) (0, false) = p /\ c_w d <= nx < length (c_lits d) /\ l = nth nx (c_lits d) (0, false) /\ ~ tru s l /\ ls = swapn (c_lits d) q nx
  end.
Proof.
  intros s d p ws. induction ws as [|l ws IH]; intros pre nf nt E F T Tp U Ip Lw.
  - cbn [findNew]. rewrite app_nil_r in E. rewrite E in *. specialize (U Ip). destruct (Nat.ltb_spec 1 nt); [|split; auto; lia].
    rewrite <- (firstn_skipn (c_w d) (c_lits d)) at 1. rewrite filter_app, app_length, E, <- T.
    assert (X : length (filter (isT s) (skipn (c_w d) (c_lits d))) = length (c_lits d) - c_w d); [|unfold maxT; lia].
    rewrite <- skipn_length. f_equal. rewrite <- (filter_eq (fun _ => true)); [clear; induction (skipn (c_w d) (c_lits d)); cbn; congruence|]. intros x Ix. symmetry. apply isT_tru; auto.
  - assert (E' : firstn (c_w d) (c_lits d) = (pre ++ [l]) ++ ws) by (rewrite <- app_assoc; auto).
    assert (FL : length (filter (isF s) (pre ++ [l])) = (if isF s l then S nf else nf)) by (rewrite filter_app, app_length, <- F; cbn; destruct (isF s l); cbn; lia).
    assert (TL : length (filter (isT s) (pre ++ [l])) = (if isT s l then S nt else nt)) by (rewrite filter_app, app_length, <- T; cbn; destruct (isT s l); cbn; lia).
    assert (LL : S (length pre) = length (pre ++ [l])) by (rewrite app_length; cbn; lia).
    cbn [findNew]. rewrite LL. destruct (val s l) as [[]|] eqn:V.
    + assert (Tl : isT s l = true) by (apply isT_tru; auto). assert (Fl : isF s l = false) by (unfold isF; rewrite V; auto). rewrite Tl, Fl in *.
      destruct (Nat.ltb_spec (length (c_lits d) - c_w d + 1) (S nt)).
      { unfold maxT. rewrite <- (firstn_skipn (c_w d) (c_lits d)) at 2. rewrite E', !filter_app, !app_length, <- T. cbn. rewrite Tl. cbn. lia. }
      destruct (slit_eqb l p) eqn:Lp.
      * apply slit_eqb_eq in Lp; subst l. pose proof (findNext_ok s (skipn (c_w d) (c_lits d)) (c_w d)) as FN. destruct (findNext s (skipn (c_w d) (c_lits d)) (c_w d)) as [nx|].
        -- destruct FN as [N1 N2]. rewrite skipn_length in N1. destruct (nth_firstn_app _ _ _ _ _ (0, false) E) as (Q1 & Q2 & Q3).
           exists (length pre), nx. split; auto. split; auto. split; [lia|]. split; auto. split; auto.
           intros X. apply N2. revert X. rewrite <- (firstn_skipn (c_w d) (c_lits d)) at 1. rewrite app_nth2 by (rewrite firstn_length; lia). rewrite firstn_length. replace (min (c_w d) (length (c_lits d))) with (c_w d) by lia. auto.
        -- apply IH; auto.
      * apply IH; auto. intros X. apply U. apply in_app_iff in X as [X|[X|[]]]; auto. subst. rewrite slit_eqb_refl in Lp. discriminate.
    + assert (Tl : isT s l = false) by (unfold isT; rewrite V; auto). assert (Fl : isF s l = true) by (unfold isF; rewrite V; auto). rewrite Tl, Fl in *.
      destruct (Nat.leb_spec (c_w d - 1) (S nf)).
      * rewrite E', filter_app, app_length, FL. lia.
      * apply IH; auto. intros X. apply U. apply in_app_iff in X as [X|[X|[]]]; auto. subst. exfalso. eapply tru_fls; eauto.
    + assert (Tl : isT s l = false) by (unfold isT; rewrite V; auto). assert (Fl : isF s l = false) by (unfold isF; rewrite V; auto). rewrite Tl, Fl in *.
      apply IH; auto. intros X. apply U. apply in_app_iff in X as [X|[X|[]]]; auto. subst. unfold tru in Tp. congruence.
Qed.

(** making the other watched literals false *)
Definition Eam (c : nat) (p : slit) (ls : list slit) : nat -> slit -> Prop := fun d q => d = c /\ In q ls /\ q <> p.
Lemma asg_weaken : forall M (E E' : nat -> slit -> Prop) s, (forall pre l post c q, trail s = pre ++ l :: post -> rsn s (fst l) = Some c -> In q (c_lits (db s c)) -> E c q -> lev s l = dl s -> In q pre \/ (fls s q /\ lev s q <= lev s l) \/ E' c q) ->
  Asg M E s -> Asg M E' s.
Proof.
  intros M E E' s H A. destruct A. constructor; auto. intros pre l post c X R. generalize (as_rsn pre l post c X R). apply reasonOK_mono; auto; [intros; apply cperm_refl|].
  intros q Iq At [Y|[Y|[Y Z]]]; auto. destruct (H pre l post c q X R Iq Y Z) as [Q|[Q|Q]]; auto.
Qed.
Lemma enqAtMost_ok : forall M c p ls s, Asg M (Eam c p ls) s -> Wat s -> entAll M s -> In c (att s) -> c_atm (db s c) = true -> tru s p ->
  In p (c_lits (db s c)) -> incl ls (c_lits (db s c)) ->
  (forall q, In q (c_lits (db s c)) -> tru s q \/ fls s q \/ In q ls) -> (forall q, In q ls -> q = p \/ ~ tru s q) -> NoDup ls ->
  maxT (db s c) <= length (filter (isT s) (c_lits (db s c))) ->
  wp (enqAtMost c p ls) s (fun _ s' => Asg M E0 s' /\ Pkeep s s' /\ qhead s' = qhead s /\ wat s' = wat s /\ Wat s' /\ db s' = db s /\ (forall q, In q ls -> q = p \/ fls s' q) /\ (forall E, Proc s E -> Proc s' E)).
Proof.
  intros M c p ls. induction ls as [|l ls IH]; intros s A W En Ic At Tp Ip Il Hq Hl ND Mx.
  { apply wp_ret. split.
    - revert A. apply asg_weaken. intros pre l post d q _ _ _ (_ & [] & _).
    - split; [apply pk_refl|]. repeat (split; [solve [auto]|]). split; auto. intros q []. }
  inversion ND; subst. cbn [enqAtMost]. unfold wp; cbv beta. destruct (negb (slit_eqb l p) && negb (isF s l)) eqn:B.
  - apply andb_true_iff in B as [B1 B2]. apply negb_true_iff in B1, B2. apply slit_eqb_neq in B1.
    assert (Vl : val s l = None). { destruct (val s l) as [[]|] eqn:V; auto; [destruct (Hl l (or_introl eq_refl)); contradiction|]. unfold isF in B2; rewrite V in B2; discriminate. }
    assert (Vn : val s (neg l) = None) by (rewrite val_neg, Vl; auto).
    set (s1 := enq (neg l) (Some c) s).
    assert (R1 : reasonOK M (Eam c p ls) s1 (trail s) (neg l) c).
    { split; [apply (wt_lt _ W); auto|]. split; [apply En; auto|]. change (db s1) with (db s). rewrite At. rewrite neg_neg. split; [apply Il; left; auto|].
      assert (LD : lev s1 (neg l) = dl s) by (unfold s1; rewrite lev_enq, Nat.eqb_refl; auto). split.
      - intros q Iq. destruct (slit_dec q l); [subst q; right; left; split; [apply fls_enq; auto; rewrite neg_neg; auto|unfold s1, lev; cbn; lia]|].
        destruct (Hq q Iq) as [X|[X|[X|X]]]; [left; apply (as_val _ _ _ A); auto| |congruence|].
        + right; left. split; [apply fls_enq; auto|]. rewrite LD. unfold s1. rewrite lev_enq_old by auto. change (lev s q) with (lev s (neg q)). apply (as_lev _ _ _ A). apply (as_val _ _ _ A), tru_neg; auto.
        + destruct (slit_dec q p); [subst; left; apply (as_val _ _ _ A); auto|]. right; right. split; auto. repeat split; auto.
      - etransitivity; [apply Mx|]. apply filter_le. intros x _ T. apply inL_in. apply (as_val _ _ _ A). apply isT_tru; auto. }
    assert (A1 : Asg M (Eam c p ls) s1).
    { assert (A' : Asg M (Eam c p (l :: ls)) s1).
      { apply enq_asg_r; auto; [cbn; destruct (wt_cl _ W c Ic) as (_ & _ & X & _); apply X; apply Il; left; auto|]. revert R1. apply reasonOK_mono; auto; [intros; apply cperm_refl|].
        intros q _ _ [X|[X|[(X1 & X2 & X3) Y]]]; auto. right; right. split; auto. repeat split; auto. right; auto. }
      revert A'. apply asg_weaken. intros pre m post d q X Rm Iq (-> & [<-|Y] & N) Lm; [|right; right; repeat split; auto].
      right; left. split; [apply fls_enq; auto; rewrite neg_neg; auto|]. rewrite Lm. unfold s1, lev; cbn. rewrite upd_same. auto. }
    assert (K : Pkeep s s1) by (apply pk_enq; auto).
    change (wp (enqAtMost c p ls) s1 (fun _ s' => Asg M E0 s' /\ Pkeep s s' /\ qhead s' = qhead s /\ wat s' = wat s /\ Wat s' /\ db s' = db s /\ (forall q, In q (l :: ls) -> q = p \/ fls s' q) /\ (forall E, Proc s E -> Proc s' E))).
    eapply wp_mono; [apply IH|]; auto.
    + apply enq_wat; auto.
    + apply tru_enq; auto.
    + intros q I; apply Il; right; auto.
    + intros q Iq. destruct (Hq q Iq) as [X|[X|[<-|X]]]; [left; apply tru_enq; auto|right; left; apply fls_enq; auto|right; left; apply fls_enq; auto; rewrite neg_neg; auto|auto].
    + intros q Iq. destruct (slit_dec q (neg l)); [subst; exfalso|].
      * destruct (wt_cl _ W c Ic) as (_ & _ & _ & X). destruct (X At) as [_ X']. apply (X' l); apply Il; [left|right]; auto.
      * destruct (Hl q (or_intror Iq)) as [X|X]; auto. right. intros Y. apply tru_enq in Y; auto. destruct Y; auto.
    + etransitivity; [apply Mx|]. apply filter_le. intros x _ T. rewrite isT_tru in *. apply tru_enq; auto.
    + intros _ s' (X1 & X2 & X3 & X4 & X5 & X8 & X6 & X7). split; auto. split; [eapply pk_trans; eauto; apply (as_val _ _ _ A1)|]. repeat (split; [solve [auto]|]).
      split; [|intros E P; apply X7; apply (enq_proc M (Eam c p (l :: ls))); auto].
      intros q [<-|Iq]; auto. right. apply tru_neg. apply (pk_val _ _ X2). apply tru_enq; auto.
  - fold (wp (enqAtMost c p ls) s). change (wp (enqAtMost c p ls) s (fun _ s' => Asg M E0 s' /\ Pkeep s s' /\ qhead s' = qhead s /\ wat s' = wat s /\ Wat s' /\ db s' = db s /\ (forall q, In q (l :: ls) -> q = p \/ fls s' q) /\ (forall E, Proc s E -> Proc s' E))).
    assert (B' : l = p \/ fls s l). { apply andb_false_iff in B as [B|B]; apply negb_false_iff in B; [left; apply slit_eqb_eq; auto|right; apply isF_fls; auto]. }
    eapply wp_mono; [apply IH|]; auto.
    + generalize A. apply asg_weaken. intros pre m post d q X Rm Iq (-> & [<-|Y] & N) Lm; [|right; right; repeat split; auto].
      destruct B' as [->|B']; [congruence|]. right; left. split; auto. rewrite Lm. change (lev s l) with (lev s (neg l)). apply (as_lev _ _ _ A). apply (as_val _ _ _ A), tru_neg; auto.
    + intros q I; apply Il; right; auto.
    + intros q Iq. destruct (Hq q Iq) as [X|[X|[<-|X]]]; auto. destruct B' as [-> |]; auto.
    + intros q Iq; apply Hl; right; auto.
    + intros _ s' (X1 & X2 & X3 & X4 & X5 & X8 & X6 & X7). split; auto. split; auto. repeat (split; [solve [auto]|]). split; auto.
      intros q [<-|Iq]; auto. destruct B' as [B'|B']; auto. right. apply tru_neg. apply (pk_val _ _ X2). apply tru_neg; auto.
Qed.

(** ** Longer clauses *)
Lemma findW_ok : forall s ls i, match findW s ls i with Some j => i <= j < i + length ls /\ ~ fls s (nth (j - i) ls (0, false)) | None => forall q, In q ls -> fls s q end.
Proof.
  induction ls; cbn [findW]; intros i; [intros q []|]. destruct (isF s a) eqn:T.
  - specialize (IHls (S i)). destruct (findW s ls (S i)) as [j|].
    + destruct IHls as [H1 H2]. cbn [length]. split; [lia|]. replace (j - i) with (S (j - S i)) by lia. auto.
    + intros q [<-|I]; auto. apply isF_fls; auto.
  - cbn [length]. split; [lia|]. rewrite Nat.sub_diag. cbn. rewrite <- isF_fls, T. discriminate.
Qed.
Lemma others_count : forall (ls : list slit) p (P : slit -> bool), NoDup ls -> (forall q, In q ls -> q = p \/ P q = true) -> length ls - 1 <= length (filter P ls).
Proof.
  induction ls; cbn; intros p P ND H; [lia|]. inversion ND; subst. destruct (slit_dec a p).
  - subst a. assert (X : length (filter P ls) = length ls).
    { f_equal. rewrite <- (filter_eq (fun _ => true)); [clear; induction ls; cbn; congruence|]. intros x Ix. destruct (H x (or_intror Ix)); auto. subst; contradiction. }
    destruct (P p); cbn; lia.
  - destruct (H a (or_introl eq_refl)) as [|Pa]; [contradiction|]. rewrite Pa. cbn. specialize (IHls p P H3 (fun q I => H q (or_intror I))). lia.
Qed.
Lemma qEnd_pi : forall M s, PI M s -> PI M (with_qhead (length (trail s)) s).
Proof.
  intros M s [[] [] En]. constructor; [constructor; try assumption|constructor; assumption|assumption].
  cbn. split; auto. intros l I. rewrite skipn_all in I. destruct I.
Qed.
Lemma pk_qhead : forall s n, Pkeep s (with_qhead n s).
Proof. intros. constructor; auto; [intros; apply cperm_refl|]. exists []. rewrite app_nil_r; split; auto. intros x []. Qed.
Lemma conflict_end : forall M s p c X, PI M s -> lev s p = dl s -> Proc s (fun q d => q = p /\ X d) -> conflOK s c ->
  PI M (with_qhead (length (trail s)) s) /\ conflOK (with_qhead (length (trail s)) s) c /\ Proc (with_qhead (length (trail s)) s) (fun q _ => lev s q = dl s).
Proof.
  intros M s p c X I L P C. split; [apply qEnd_pi; auto|]. split; [exact C|]. intros q d Iq W. change (In q (firstn (length (trail s)) (trail s))) in Iq. rewrite firstn_all in Iq.
  rewrite <- (firstn_skipn (qhead s) (trail s)) in Iq. apply in_app_iff in Iq as [Iq|Iq].
  - destruct (P q d Iq W) as [[-> _]|Y]; auto.
  - left. apply (as_q _ _ _ (pi_asg _ _ I)); auto.
Qed.
Lemma NoDup_disj : forall {A} (l m : list A) x, NoDup (l ++ m) -> In x l -> In x m -> False.
Proof. induction l; cbn; intros m x H I J; auto. inversion H; subst. destruct I as [->|I]; [apply H2; apply in_or_app; auto|eapply IHl; eauto]. Qed.
Lemma swapn_firstn : forall l i j w x, i < w -> w <= j < length l -> NoDup l -> In x (firstn w (swapn l i j)) <-> x = nth j l (0, false) \/ (In x (firstn w l) /\ x <> nth i l (0, false)).
Proof.
  intros l i j w x H1 H2 ND. set (z := (0, false)).
  assert (N : forall m : list slit, w <= length m -> forall y, In y (firstn w m) <-> exists k, k < w /\ nth k m z = y).
  { intros m L y. split.
    - intros I. destruct (In_nth _ _ z I) as (k & K1 & K2). rewrite firstn_length in K1. exists k. split; [lia|]. rewrite <- K2. rewrite <- (firstn_skipn w m) at 1. rewrite app_nth1; auto. rewrite firstn_length; lia.
    - intros (k & K1 & <-). rewrite <- (firstn_skipn w m) at 1. rewrite app_nth1 by (rewrite firstn_length; lia). apply nth_In. rewrite firstn_length; lia. }
  assert (SN : forall k, nth k (swapn l i j) z = if k =? j then nth i l z else if k =? i then nth j l z else nth k l z).
  { intros k. unfold swapn. rewrite nth_setn by (rewrite setn_length; apply H2). rewrite nth_setn by (eapply Nat.lt_le_trans; [apply H1|]; etransitivity; [apply H2|]; apply Nat.lt_le_incl, H2). auto. }
  assert (Ls : length (swapn l i j) = length l) by (unfold swapn; rewrite !setn_length; auto).
  assert (Lw : w <= length l) by lia. rewrite N by (rewrite Ls; auto). rewrite N by auto. split.
  - intros (k & K1 & <-). rewrite SN. destruct (Nat.eqb_spec k j); [lia|]. destruct (Nat.eqb_spec k i); auto. right. split; eauto.
    intros X. apply n0. apply (proj1 (NoDup_nth l z) ND); auto; lia.
  - intros [->|[(k & K1 & <-) X]].
    + exists i. split; auto. rewrite SN. destruct (Nat.eqb_spec i j); [lia|]. rewrite Nat.eqb_refl; auto.
    + exists k. split; auto. rewrite SN. destruct (Nat.eqb_spec k j); [lia|]. destruct (Nat.eqb_spec k i); auto. subst. contradiction.
Qed.
Lemma moveW_asg : forall M E p n c b ls l s, Asg M E (setL c ls s) -> Asg M E (moveW p n c b ls l s).
Proof. intros. destruct H. constructor; assumption. Qed.
Lemma setW_asg : forall M E p l s, Asg M E s -> Asg M E (setW p l s).
Proof. intros. destruct H. constructor; assumption. Qed.

Lemma In_len : forall {A} (x : A) l, In x l -> 1 <= length l.
Proof. destruct l; cbn; [tauto|lia]. Qed.
Definition pwPost M s (x : option nat) s' := PI M s' /\ Pkeep s s' /\
  match x with None => qhead s' = qhead s /\ Proc s' (fun _ _ => False) | Some c => conflOK s' c /\ Proc s' (fun q _ => lev s' q = dl s') end.
Lemma pw_next : forall M s s1 x s', PI M s1 -> Pkeep s s1 -> qhead s1 = qhead s -> pwPost M s1 x s' -> pwPost M s x s'.
Proof.
  intros M s s1 x s' I K Q (X1 & X2 & X3). split; auto. split; [eapply pk_trans; eauto; apply (as_val _ _ _ (pi_asg _ _ I))|]. destruct x; auto. rewrite <- Q; auto.
Qed.
Lemma propWat_ok : forall M p ws kept s, PI M s -> In p (firstn (qhead s) (trail s)) -> lev s p = dl s -> wat s p = kept ++ ws -> Proc s (fun q d => q = p /\ In d (map fst ws)) ->
  wp (propWat p ws kept) s (pwPost M s).
Proof.
  intros M p ws. induction ws as [|[c b] r IH]; intros kept s I Ip Lp Ew P.
  { apply wp_ret. split; auto. split; [apply pk_refl|]. split; auto. intros q d Iq W. destruct (P q d Iq W) as [[_ []]|X]; auto. }
  pose proof I as [A W En].
  assert (Tp : tru s p) by (apply (as_val _ _ _ A); eapply In_firstn; eauto).
  assert (Lx : forall t, tru s t \/ fls s t -> lev s t <= lev s p).
  { intros t T. rewrite Lp. destruct T as [T|T]; [|change (lev s t) with (lev s (neg t)); apply tru_neg in T]; apply (as_lev _ _ _ A), (as_val _ _ _ A); auto. }
  destruct (wt_bw _ W p c b) as (Ic & Bg & Iw & Hb); [rewrite Ew; apply in_elt|].
  destruct (wt_cl _ W c Ic) as (C1 & C2 & C3 & C4).
  (* the entry stays *)
  assert (KEEP : wok s p c -> wp (propWat p r (kept ++ [(c, b)])) s (pwPost M s)).
  { intros Wc. apply IH; auto; [rewrite <- app_assoc; auto|]. intros q d Iq Wd. destruct (P q d Iq Wd) as [[-> [X|X]]|X]; auto. cbn in X; subst; auto. }
  cbn [propWat]. unfold wp; cbv beta.
  destruct (match b with Some b => isT s b | None => false end) eqn:Bl.
  { apply KEEP. destruct b as [t|]; [|discriminate]. apply isT_tru in Bl. unfold wok. destruct (c_atm (db s c)); [discriminate|]. exists t; split; auto. left. rewrite Ew; apply in_elt. }
  destruct (c_atm (db s c)) eqn:At.
  - (* at most *)
    destruct (C4 eq_refl) as [C5 C6]. unfold wset in Iw. rewrite At in Iw.
    pose proof (findNew_ok s (db s c) p (firstn (c_w (db s c)) (c_lits (db s c))) [] 0 0 eq_refl eq_refl eq_refl Tp (fun H => match H with end) Iw (proj2 C5)) as FN. cbn [length] in FN.
    destruct (findNew s (db s c) p (firstn (c_w (db s c)) (c_lits (db s c))) 0 0 0) as [| | |l ls].
    + destruct FN as [F1 F2]. change (wp (enqAtMost c p (firstn (c_w (db s c)) (c_lits (db s c))) ;;; propWat p r (kept ++ [(c, b)])) s (pwPost M s)).
      apply wp_bind. eapply wp_mono; [apply enqAtMost_ok with (M := M)|]; auto.
      * revert A. apply asg_weaken. intros pre l post d q _ _ _ [].
      * eapply In_firstn; eauto.
      * intros q Iq; eapply In_firstn; eauto.
      * intros q Iq. rewrite <- (firstn_skipn (c_w (db s c)) (c_lits (db s c))) in Iq. apply in_app_iff in Iq as [Iq|Iq]; auto.
      * intros q Iq. destruct (slit_dec q p); auto. right. intros T.
        assert (X : 2 <= length (filter (isT s) (firstn (c_w (db s c)) (c_lits (db s c))))); [|lia].
        assert (X : 1 <= length (filter (fun x => slit_eqb x p) (firstn (c_w (db s c)) (c_lits (db s c))))).
        { assert (Y : In p (filter (fun x => slit_eqb x p) (firstn (c_w (db s c)) (c_lits (db s c))))) by (apply filter_In; split; auto; apply slit_eqb_refl). apply In_len in Y; auto. }
        assert (Y : length (filter (fun x => slit_eqb x p) (firstn (c_w (db s c)) (c_lits (db s c)))) < length (filter (isT s) (firstn (c_w (db s c)) (c_lits (db s c))))); [|lia].
        apply filter_lt with q; auto; [intros x _ Y; apply slit_eqb_eq in Y; subst; apply isT_tru; auto|apply slit_eqb_neq; auto|apply isT_tru; auto].
      * apply firstn_NoDup; auto.
      * unfold maxT. rewrite <- (firstn_skipn (c_w (db s c)) (c_lits (db s c))) at 2. rewrite filter_app, app_length.
        assert (X : length (filter (isT s) (skipn (c_w (db s c)) (c_lits (db s c)))) = length (c_lits (db s c)) - c_w (db s c)).
        { rewrite <- skipn_length. f_equal. rewrite <- (filter_eq (fun _ => true)); [clear; induction (skipn (c_w (db s c)) (c_lits (db s c))); cbn; congruence|]. intros x Ix. symmetry. apply isT_tru; auto. }
        assert (Y : In p (filter (isT s) (firstn (c_w (db s c)) (c_lits (db s c))))) by (apply filter_In; split; auto; apply isT_tru; auto). apply In_len in Y. lia.
      * intros _ s1 (X1 & X2 & X3 & X4 & X5 & X6 & X7 & X8). assert (I1 : PI M s1) by (constructor; auto; eapply entAll_pk; eauto).
        assert (Tp1 := pk_val _ _ X2 p Tp). destruct (pk_lev _ _ X2 p Tp) as [L1 _]. assert (D1 : dl s1 = dl s) by (pk X2; unfold dl; congruence).
        eapply wp_mono; [apply IH|intros x s' Y; eapply pw_next; eauto]; auto.
        -- rewrite X3. destruct (pk_trail _ _ X2) as (ext & -> & _). rewrite firstn_app_le; auto. apply (as_q _ _ _ A).
        -- congruence.
        -- rewrite X4, Ew, <- app_assoc; auto.
        -- intros q d Iq Wd. destruct (X8 _ P q d Iq Wd) as [[-> [Y|Y]]|Y]; auto. cbn in Y; subst d. right. unfold wok. rewrite X6, At.
           replace (c_w (db s c)) with (length (firstn (c_w (db s c)) (c_lits (db s c)))) at 1 by (rewrite firstn_length; lia).
           apply others_count with p; [apply firstn_NoDup; auto|]. intros q Iq'. destruct (X7 q Iq') as [Y|Y]; auto. right.
           apply andb_true_iff. split; [apply isF_fls; auto|]. apply Nat.leb_le. rewrite L1, Lp, <- D1. change (lev s1 q) with (lev s1 (neg q)). apply (as_lev _ _ _ X1). apply (as_val _ _ _ X1), tru_neg; auto.
    + cbn [bind qToEnd modify ret]. unfold bind, qToEnd, modify, ret.
      destruct (conflict_end M s p c _ I Lp P) as (X1 & X2 & X3); [split; auto; rewrite At; split; auto; exists p; split; [eapply In_firstn; eauto|auto]|]. split; auto. split; [apply pk_qhead|]. split; auto.
    + apply KEEP. unfold wok. rewrite At. etransitivity; [apply FN|]. apply filter_le. intros x _ F. rewrite F. cbn. apply Nat.leb_le. apply Lx. right; apply isF_fls; auto.
    + destruct FN as (q0 & nx & Q1 & Q2 & Q3 & El & Nl & Els). subst l ls. set (n := nth nx (c_lits (db s c)) (0, false)) in *. set (ls := swapn (c_lits (db s c)) q0 nx).
      assert (Pm : Permutation ls (c_lits (db s c))) by (apply swapn_perm; lia).
      assert (Np : n <> p) by (intros ->; contradiction).
      set (s1 := moveW p n c None ls (kept ++ r) s). change (wp (propWat p r kept) s1 (pwPost M s)).
      assert (I1 : PI M s1).
      { constructor.
        - apply moveW_asg. apply setL_asg; auto. intros l _ _ X. rewrite At in X; discriminate.
        - eapply moveW_wat; eauto; [| |rewrite At; auto].
          + unfold wset. rewrite At. intros X. rewrite <- (firstn_skipn (c_w (db s c)) (c_lits (db s c))) in C1. apply (NoDup_disj _ _ n C1 X).
            unfold n. rewrite <- (firstn_skipn (c_w (db s c)) (c_lits (db s c))) at 1. rewrite app_nth2 by (rewrite firstn_length; lia). apply nth_In. rewrite firstn_length, skipn_length; lia.
          + intros x. unfold wset. rewrite setL_same. cbn [c_atm c_w c_lits]. rewrite At. unfold ls. rewrite swapn_firstn by (auto; lia). rewrite Q2. tauto.
        - eapply entAll_pk; eauto. apply pk_moveW; auto. }
      eapply wp_mono; [apply IH|intros x s' Y; apply (pw_next M s s1); auto; apply pk_moveW; auto]; auto.
      * cbn. destruct (slit_dec p n); [subst; congruence|]. rewrite !updl_other, updl_same by auto. auto.
      * apply (moveW_proc p n kept c b); auto; [| |congruence].
        -- intros X. apply Nl. apply (as_val _ _ _ A). eapply In_firstn; eauto.
        -- intros _ l Il Fl. unfold ls. rewrite swapn_firstn by (auto; lia). right. split; auto. rewrite Q2. intros ->. eapply tru_fls; eauto.
  - (* clauses with more than two literals *)
    assert (L3 : 2 < length (c_lits (db s c))) by (destruct Bg; congruence || auto).
    set (ls := if slit_eqb (hd0 (c_lits (db s c))) (neg p) then setn (setn (c_lits (db s c)) 0 (hd1 (c_lits (db s c)))) 1 (neg p) else c_lits (db s c)).
    assert (LS : exists x rest, ls = x :: neg p :: rest /\ Permutation ls (c_lits (db s c)) /\ (forall y, In y (firstn 2 ls) <-> In y (firstn 2 (c_lits (db s c)))) /\ (hd0 (c_lits (db s c)) <> neg p -> ls = c_lits (db s c))).
    { unfold wset in Iw. rewrite At in Iw. unfold ls. destruct (c_lits (db s c)) as [|a0 [|a1 rest]]; cbn in L3; try lia. unfold hd0, hd1. cbn [nth setn]. destruct (slit_eqb a0 (neg p)) eqn:Ea.
      - apply slit_eqb_eq in Ea. subst a0. exists a1, rest. split; auto. split; [apply perm_swap|]. split; [cbn; tauto|]. intros X; exfalso; apply X; auto.
      - apply slit_eqb_neq in Ea. cbn in Iw. destruct Iw as [X|[X|[]]]; [exfalso; apply Ea; rewrite <- X, neg_neg; auto|]. exists a0, rest. rewrite <- X, neg_neg. split; auto. split; auto. split; [tauto|auto]. }
    destruct LS as (x & rest & Els & Pm & F2 & Hd).
    set (s1 := setL c ls s). assert (D1 : c_lits (db s1 c) = ls) by (unfold s1; rewrite setL_same; auto). assert (At1 : c_atm (db s1 c) = false) by (unfold s1; rewrite setL_same; auto).
    assert (K1 : Pkeep s s1) by (apply pk_setL; auto).
    assert (I1 : PI M s1).
    { constructor.
      - apply setL_asg; auto. intros l Tl Rl _ _ Hl. rewrite Hd; auto. rewrite Hl. intros ->. apply tru_neg in Tl. eapply tru_fls; eauto.
      - apply setL_wat; auto. intros y. unfold wset. rewrite setL_same. cbn [c_atm c_lits]. rewrite At, !in_map_iff. split; intros (z & <- & Z); exists z; split; auto; apply F2; auto.
        intros t _ T. apply F2; auto.
      - eapply entAll_pk; eauto. }
    assert (P1 : Proc s1 (fun q d => q = p /\ In d (map fst ((c, b) :: r)))) by (apply setL_proc; auto; intros t T; apply F2; auto).
    assert (Fp : fls s1 (neg p)) by (apply fls_neg; auto).
    destruct (wt_cl _ (pi_wat _ _ I1) c Ic) as (N1 & _ & V1 & _). rewrite D1 in N1, V1.
    assert (H0x : hd0 ls = x) by (rewrite Els; auto).
    change (wp (fun s => let first := hd0 ls in
         if negb match b with Some b => slit_eqb first b | None => false end && isT s first then
           (setWat p (kept ++ (c, Some first) :: r) ;;; propWat p r (kept ++ [(c, Some first)])) s
         else match findW s (skipn 2 ls) 2 with
              | Some k => (setLits c (setn (setn ls 1 (nth k ls (0, false))) k (neg p)) ;;; setWat p (kept ++ r) ;;;
                           modify (addW (neg (nth k ls (0, false))) (c, Some first)) ;;; propWat p r kept) s
              | None => (setWat p (kept ++ (c, Some first) :: r) ;;; fun s =>
                         if isF s first then (qToEnd ;;; ret (Some c)) s
                         else (enqueue first (Some c) ;;; propWat p r (kept ++ [(c, Some first)])) s) s
              end) s1 (pwPost M s)).
    rewrite H0x. unfold wp; cbv beta zeta.
    set (s2 := setW p (kept ++ (c, Some x) :: r) s1).
    assert (I2 : PI M s2).
    { destruct I1 as [A1 W1 E1]. constructor; [apply setW_asg; auto| |eapply entAll_pk; eauto; apply pk_setW].
      eapply setW_wat; eauto. rewrite At1. exists x; split; auto. rewrite D1, Els. split; [left; auto|]. rewrite Els in N1. intros ->. inversion N1; subst. apply H1; left; auto. }
    assert (K2 : Pkeep s s2). { eapply pk_trans; [apply K1|apply pk_setW|]. apply (as_val _ _ _ (pi_asg _ _ I1)). }
    assert (P2 : Proc s2 (fun q d => q = p /\ In d (map fst ((c, b) :: r)))). { apply (setW_proc p kept c b); auto. split; auto. left; auto. }
    (* the entry stays with another blocker *)
    assert (KEEP2 : forall s3, PI M s3 -> Pkeep s s3 -> qhead s3 = qhead s -> wat s3 p = kept ++ (c, Some x) :: r -> Proc s3 (fun q d => q = p /\ In d (map fst ((c, b) :: r))) -> wok s3 p c -> wp (propWat p r (kept ++ [(c, Some x)])) s3 (pwPost M s)).
    { intros s3 I3 K3 Q3 E3 P3 W3. eapply wp_mono; [apply IH|intros y s' Y; eapply pw_next; eauto]; auto.
      - rewrite Q3. destruct (pk_trail _ _ K3) as (ext & -> & _). rewrite firstn_app_le; auto. apply (as_q _ _ _ A).
      - destruct (pk_lev _ _ K3 p Tp) as [-> _]. assert (dl s3 = dl s) by (pk K3; unfold dl; congruence). congruence.
      - rewrite E3, <- app_assoc; auto.
      - intros q d Iq Wd. destruct (P3 q d Iq Wd) as [[-> [X|X]]|X]; auto. cbn in X; subst; auto. }
    destruct (negb match b with Some b => slit_eqb x b | None => false end && isT s1 x) eqn:T1.
    { apply andb_true_iff in T1 as [_ T1]. apply isT_tru in T1. change (wp (propWat p r (kept ++ [(c, Some x)])) s2 (pwPost M s)). apply KEEP2; auto.
      - cbn. apply updl_same.
      - unfold wok. change (db s2) with (db s1). rewrite At1. exists x. split; [right; change (db s2) with (db s1); rewrite D1, Els; left; auto|]. split; auto. apply Lx; auto. }
    assert (Nt : ~ tru s1 x).
    { intros T. assert (isT s1 x = true) by (apply isT_tru; auto). rewrite H, andb_true_r in T1. apply negb_false_iff in T1. destruct b as [b|]; [|discriminate]. apply slit_eqb_eq in T1; subst b.
      change (isT s x = true) in H. congruence. }
    pose proof (findW_ok s1 (skipn 2 ls) 2) as FW. destruct (findW s1 (skipn 2 ls) 2) as [k|].
    + destruct FW as [Fk Nk]. rewrite Els in Fk, Nk. cbn [skipn] in Fk, Nk. set (n := nth k ls (0, false)).
      assert (En' : n = nth (k - 2) rest (0, false)). { unfold n. rewrite Els. destruct k as [|[|k]]; try lia. cbn. rewrite Nat.sub_0_r. auto. }
      assert (Lk : k < length ls) by (rewrite Els; cbn; lia).
      set (ls2 := setn (setn ls 1 n) k (neg p)).
      assert (E2 : ls2 = swapn ls 1 k). { unfold swapn. replace (nth 1 ls (0, false)) with (neg p) by (rewrite Els; auto). auto. }
      assert (Pm2 : Permutation ls2 ls) by (rewrite E2; apply swapn_perm; auto; rewrite Els; cbn; lia).
      set (s3 := moveW p (neg n) c (Some x) ls2 (kept ++ r) s1). change (wp (propWat p r kept) s3 (pwPost M s)).
      assert (Nn : ~ fls s1 n) by (rewrite En'; auto).
      assert (Np : neg n <> p) by (intros X; apply Nn; rewrite <- X in Fp; rewrite neg_neg in Fp; auto).
      assert (Pm3 : Permutation ls2 (c_lits (db s1 c))) by (rewrite D1; auto).
      assert (In2 : In n rest) by (rewrite En'; apply nth_In; lia).
      assert (I3 : PI M s3).
      { destruct I1 as [A1 W1 E1]. constructor.
        - apply moveW_asg. apply setL_asg; auto. intros l Tl Rl _ _ Hl. rewrite D1 in Hl. rewrite <- Hl, E2. unfold hd0, swapn. rewrite Els. destruct k as [|[|k]]; try lia. auto.
        - eapply moveW_wat; eauto.
          + unfold wset. rewrite At1, D1, Els. cbn. rewrite neg_neg. rewrite Els in N1. inversion N1; subst. inversion H2; subst.
            intros [X|[X|[]]]; [apply neg_inj in X; apply H1; right; rewrite X; auto|]. apply Np; auto.
          + intros y. unfold wset. rewrite setL_same. cbn [c_atm c_lits]. rewrite At1, D1, E2. rewrite !in_map_iff. split.
            * intros (z & <- & Z). apply swapn_firstn in Z; [|lia|lia|auto]. destruct Z as [Z|[Z1 Z2]]; [left; fold n in Z; congruence|]. right. split; [exists z; auto|].
              intros X. apply Z2. rewrite Els. cbn. rewrite <- X, neg_neg; auto.
            * intros [->|[(z & <- & Z) X]]; [exists n|exists z]; split; auto; apply swapn_firstn; try lia; auto. right. split; auto. rewrite Els. cbn. intros ->. apply X, neg_neg.
          + rewrite At1. exists x. split; auto. rewrite neg_neg. split.
            * rewrite E2. apply swapn_firstn; [lia|lia|auto|]. right. rewrite Els. split; [left; auto|]. cbn. rewrite Els in N1. apply NoDup_cons_iff in N1 as [N1 _]. intros X. apply N1; left; auto.
            * rewrite Els in N1. apply NoDup_cons_iff in N1 as [N1 _]. intros X. apply N1. right. rewrite X; auto.
        - eapply entAll_pk; eauto. apply pk_moveW; auto. }
      eapply wp_mono; [apply IH|intros y s' Y; eapply pw_next; [apply I3| | |apply Y]; auto; eapply pk_trans; [apply K1|apply pk_moveW; auto|apply (as_val _ _ _ (pi_asg _ _ I1))]]; auto.
      * cbn. rewrite updl_other, updl_same by auto. auto.
      * apply (moveW_proc p (neg n) kept c b); auto; [apply (pi_wat _ _ I1)| |congruence|].
        -- intros X. apply Nn. apply tru_neg. apply (as_val _ _ _ (pi_asg _ _ I1)). eapply In_firstn; eauto.
        -- intros _ l Il Tl. rewrite D1 in Il. rewrite E2. apply swapn_firstn; [lia|lia|auto|]. right. split; auto. rewrite Els. cbn. intros ->. eapply tru_fls; eauto.
    + change (wp (fun s => if isF s x then (qToEnd ;;; ret (Some c)) s else (enqueue x (Some c) ;;; propWat p r (kept ++ [(c, Some x)])) s) s2 (pwPost M s)).
      assert (Rf : forall q, In q ls -> q = x \/ fls s2 q). { rewrite Els in *. intros q [<-|[<-|Iq]]; auto. right. apply FW; auto. }
      unfold wp; cbv beta. destruct (isF s2 x) eqn:Fx.
      * unfold bind, qToEnd, modify, ret. destruct (conflict_end M s2 p c _ I2 Lp P2) as (X1 & X2 & X3).
        { split; auto. change (db s2) with (db s1). rewrite At1, D1. split; [|exists (neg p); split; [rewrite Els; right; left; auto|split; [discriminate|exact Lp]]]. intros q Iq. destruct (Rf q Iq) as [-> |]; auto. apply isF_fls; auto. }
        split; auto. split; [eapply pk_trans; [apply K2|apply pk_qhead|apply (as_val _ _ _ (pi_asg _ _ I2))]|]. split; auto.
      * assert (Vx : val s2 x = None). { destruct (val s2 x) as [[]|] eqn:V; auto; [exfalso; apply Nt; auto|]. unfold isF in Fx; rewrite V in Fx; discriminate. }
        set (s3 := enq x (Some c) s2). change (wp (propWat p r (kept ++ [(c, Some x)])) s3 (pwPost M s)). destruct I2 as [A2 W2 E2].
        assert (A3 : Asg M E0 s3).
        { apply enq_asg_r; auto; [apply V1; rewrite Els; left; auto|]. split; [apply (wt_lt _ W2); auto|]. split; [apply E2; auto|]. change (db (enq x (Some c) s2)) with (db s1). rewrite At1, D1.
          split; [rewrite Els; left; auto|]. split; [|split; [intros _; rewrite Els; auto|auto]]. intros q Iq. destruct (Rf q Iq) as [-> |F]; auto. right. apply (as_val _ _ _ A2), tru_neg; auto. }
        apply KEEP2; auto.
        -- constructor; auto. apply enq_wat; auto.
        -- eapply pk_trans; [apply K2|apply pk_enq; auto|apply (as_val _ _ _ A2)].
        -- cbn. apply updl_same.
        -- apply (enq_proc M E0); auto.
        -- unfold wok. change (db s3) with (db s1). rewrite At1. exists x. split; [right; change (db s3) with (db s1); rewrite D1, Els; left; auto|]. split; [apply tru_enq; auto|].
           unfold s3. rewrite lev_enq, Nat.eqb_refl. rewrite lev_enq_old by auto. change (dl s2) with (dl s). rewrite <- Lp. auto.
Qed.

(** ** All pending literals *)
Definition NoE : slit -> nat -> Prop := fun _ _ => False.
Definition propPost M s (x : option nat) s' := PI M s' /\ Pkeep s s' /\
  match x with None => qhead s' = length (trail s') /\ Proc s' NoE | Some c => conflOK s' c /\ Proc s' (fun q _ => lev s' q = dl s') end.
Lemma firstn_S_nth : forall {A} n (l : list A) x, nth_error l n = Some x -> firstn (S n) l = firstn n l ++ [x].
Proof. induction n; destruct l; cbn; intros; try discriminate; [congruence|]. f_equal. rewrite <- IHn; auto. Qed.
Lemma propagate_ok : forall M n s, PI M s -> Proc s NoE -> wp (propagate n) s (propPost M s).
Proof.
  intros M n. induction n as [|n IH]; intros s I P; [exact Logic.I|]. cbn [propagate]. unfold wp; cbv beta.
  destruct (nth_error (trail s) (qhead s)) as [p|] eqn:Ep.
  2:{ split; auto. split; [apply pk_refl|]. split; auto. apply nth_error_None in Ep. destruct (as_q _ _ _ (pi_asg _ _ I)). lia. }
  set (s1 := with_qhead (S (qhead s)) s).
  assert (Lp : lev s p = dl s).
  { apply (as_q _ _ _ (pi_asg _ _ I)). apply nth_error_split in Ep as (l1 & l2 & E1 & E2). rewrite E1, <- E2, skipn_app, Nat.sub_diag. apply in_or_app; right; left; auto. }
  assert (Ip : In p (firstn (qhead s1) (trail s1))). { cbn [qhead trail s1 with_qhead]. unfold s1; cbn [qhead trail with_qhead]. rewrite (firstn_S_nth _ _ _ Ep). apply in_or_app; right; left; auto. }
  assert (I1 : PI M s1).
  { destruct I as [[] [] En]. constructor; [constructor; try assumption|constructor; assumption|assumption]. cbn. destruct as_q as [Q1 Q2]. split; [apply nth_error_Some; congruence|].
    intros l Il. apply Q2. rewrite (skipn_nth (qhead s) (trail s) p); [right; exact Il|apply nth_error_Some; congruence]. }
  assert (K1 : Pkeep s s1) by apply pk_qhead.
  assert (P1 : Proc s1 (fun q d => q = p /\ (In d (map fst (wbin s p)) \/ In d (map fst (wat s p))))).
  { intros q d Iq W. unfold s1 in Iq; cbn [qhead trail with_qhead] in Iq. rewrite (firstn_S_nth _ _ _ Ep) in Iq. apply in_app_iff in Iq as [Iq|[<-|[]]].
    - destruct (P q d Iq W) as [[]|X]; auto.
    - left. split; auto. destruct W; auto. }
  change (wp (c <-- propBin (wbin s p) ;; match c with Some c => ret (Some c) | None => fun s => (c <-- propWat p (wat s p) [] ;; match c with Some c => ret (Some c) | None => propagate n end) s end) s1 (propPost M s)).
  apply wp_bind. eapply wp_mono; [apply (propBin_ok M p (wbin s p) s1); auto|]. intros x s2 (I2 & K2 & Q2 & W2 & X2).
  assert (K2' : Pkeep s s2) by (eapply pk_trans; eauto; apply (as_val _ _ _ (pi_asg _ _ I1))).
  destruct x as [c|].
  { apply wp_ret. split; auto. }
  assert (Tp : tru s1 p) by (apply (as_val _ _ _ (pi_asg _ _ I1)); eapply In_firstn; eauto).
  change (wp (c <-- propWat p (wat s2 p) [] ;; match c with Some c => ret (Some c) | None => propagate n end) s2 (propPost M s)).
  apply wp_bind. eapply wp_mono; [apply (propWat_ok M p (wat s2 p) [] s2); auto|].
  - rewrite Q2. destruct (pk_trail _ _ K2) as (ext & -> & _). rewrite firstn_app_le; auto. apply (as_q _ _ _ (pi_asg _ _ I1)).
  - destruct (pk_lev _ _ K2 p Tp) as [-> _]. assert (dl s2 = dl s) by (pk K2; unfold dl; congruence). change (lev s p = dl s2). congruence.
  - rewrite W2. auto.
  - intros x s3 (I3 & K3 & X3). assert (K3' : Pkeep s s3) by (eapply pk_trans; [apply K2'|apply K3|apply (as_val _ _ _ (pi_asg _ _ I2))]). destruct x as [c|].
    + apply wp_ret. split; auto.
    + destruct X3 as [_ X3]. eapply wp_mono; [apply IH; auto|]. intros y s4 (Y1 & Y2 & Y3). split; auto. split; auto. eapply pk_trans; eauto. apply (as_val _ _ _ (pi_asg _ _ I3)).
Qed.
