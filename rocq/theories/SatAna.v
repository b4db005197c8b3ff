(** * Conflict analysis learns clauses that follow *)
From Coq Require Import List Bool Arith Lia ZArith Permutation.
From Verif Require Import Sat SatInv SatProp.
Import ListNotations.

(** what conflict analysis leaves unchanged: all but the marks and the order of the literals in binary clauses *)
Record Akeep (s s' : sat) : Prop := {
  ak_same : (ok s', qhead s', units s', clauses s', learnts s', nextc s', wat s', wbin s', nvars s', val_ s', lvl s', rsn s', (pol s', dec s', heap s', trail s', tlim s', model s', conflict s', assumps s', ev s', stateId s', validStates s'))
          = (ok s, qhead s, units s, clauses s, learnts s, nextc s, wat s, wbin s, nvars s, val_ s, lvl s, rsn s, (pol s, dec s, heap s, trail s, tlim s, model s, conflict s, assumps s, ev s, stateId s, validStates s));
  ak_db : forall c, cperm (db s c) (db s' c) }.
Ltac ak H := let E := fresh in pose proof (ak_same _ _ H) as E; inversion E; clear E.
Lemma ak_refl : forall s, Akeep s s. Proof. intros; constructor; auto. intros; apply cperm_refl. Qed.
Lemma ak_trans : forall s t u, Akeep s t -> Akeep t u -> Akeep s u.
Proof. intros s t u [A1 A2] [B1 B2]. constructor; [congruence|]. intros c; eapply cperm_trans; eauto. Qed.
Lemma ak_seen : forall x s, Akeep s (with_seen x s). Proof. intros; constructor; auto. intros; apply cperm_refl. Qed.
Lemma ak_tick : forall x s, Akeep s (with_tick x s). Proof. intros; constructor; auto. intros; apply cperm_refl. Qed.
Lemma ak_tru : forall s s' l, Akeep s s' -> tru s' l <-> tru s l.
Proof. intros s s' l K. ak K. unfold tru, val. replace (val_ s') with (val_ s) by congruence. tauto. Qed.
Lemma ak_trail : forall s s', Akeep s s' -> trail s' = trail s. Proof. intros s s' K. ak K. auto. Qed.
Lemma ak_rsn : forall s s', Akeep s s' -> rsn s' = rsn s. Proof. intros s s' K. ak K. auto. Qed.
Lemma ak_lev : forall s s' l, Akeep s s' -> lev s' l = lev s l. Proof. intros s s' l K. ak K. unfold lev; congruence. Qed.
Lemma ak_dl : forall s s', Akeep s s' -> dl s' = dl s. Proof. intros s s' K. ak K. unfold dl; congruence. Qed.

Record AI (M : (nat -> bool) -> Prop) (s : sat) : Prop := { ai_pi : PI M s; ai_proc : Proc s (fun q _ => lev s q = dl s) }.
Lemma pi_seen : forall M x s, PI M s -> PI M (with_seen x s).
Proof. intros M x s [[] [] En]. constructor; [constructor; assumption|constructor; assumption|assumption]. Qed.
Lemma pi_tick : forall M x s, PI M s -> PI M (with_tick x s).
Proof. intros M x s [[] [] En]. constructor; [constructor; assumption|constructor; assumption|assumption]. Qed.
Lemma ai_seen : forall M x s, AI M s -> AI M (with_seen x s).
Proof. intros M x s [I P]. constructor; [apply pi_seen; auto|exact P]. Qed.
Lemma ai_tick : forall M x s, AI M s -> AI M (with_tick x s).
Proof. intros M x s [I P]. constructor; [apply pi_tick; auto|exact P]. Qed.
(** turning a binary clause *)
Definition turned (c : nat) (s : sat) : sat := let ls := c_lits (db s c) in if (length ls =? 2) && isF s (hd0 ls) then setL c [hd1 ls; hd0 ls] s else s.
Lemma turn_eq : forall c s, turn c s = Ret tt (turned c s).
Proof. intros. unfold turn, turned. destruct ((length (c_lits (db s c)) =? 2) && isF s (hd0 (c_lits (db s c)))); auto. Qed.
Lemma setL_ak : forall c ls s, Permutation ls (c_lits (db s c)) -> Akeep s (setL c ls s).
Proof. intros. constructor; auto. intros; apply setL_cperm; auto. Qed.
Lemma turned_ok : forall M c s, AI M s -> c_atm (db s c) = false -> AI M (turned c s) /\ Akeep s (turned c s) /\ seen (turned c s) = seen s.
Proof.
  intros M c s [[A W En] P] At. unfold turned. destruct (Nat.eqb_spec (length (c_lits (db s c))) 2) as [L|L]; cbn [andb]; [|split; [constructor; auto; constructor; auto|split; [apply ak_refl|auto]]].
  destruct (isF s (hd0 (c_lits (db s c)))); [|split; [constructor; auto; constructor; auto|split; [apply ak_refl|auto]]].
  assert (Pm : Permutation [hd1 (c_lits (db s c)); hd0 (c_lits (db s c))] (c_lits (db s c))). { destruct (c_lits (db s c)) as [|a [|b [|]]]; cbn in L; try lia. apply perm_swap. }
  split; [|split; [apply setL_ak; auto|auto]]. constructor; [constructor|].
  - apply setL_asg; auto. intros; lia.
  - apply setL_wat; auto. intros x. unfold wset. rewrite setL_same. cbn [c_atm c_lits]. rewrite At. destruct (c_lits (db s c)) as [|a [|b [|]]]; cbn in L; try lia. cbn. tauto.
    intros t _ It. destruct (c_lits (db s c)) as [|a [|b [|]]]; cbn in L; try lia. cbn in *. tauto.
  - eapply entAll_pk; eauto. apply pk_setL; auto.
  - apply setL_proc; auto. intros t It. destruct (c_lits (db s c)) as [|a [|b [|]]]; cbn in L; try lia. cbn in *. tauto.
Qed.
Lemma fls_in : forall M E s q, Asg M E s -> fls s q <-> In (neg q) (trail s).
Proof. intros. rewrite (as_val _ _ _ H), tru_neg. tauto. Qed.

(** ** The literals a clause contributes *)
Lemma antecedents_confl : forall M c s, AI M s -> conflOK s c ->
  wp (antecedents c true) s (fun qs s' => s' = s /\ (forall q, In q qs -> fls s q) /\ (forall a, M a -> exists q, In q qs /\ alit a q = true) /\ exists q, In q qs /\ lev s q = dl s).
Proof.
  intros M c s [[A W En] P] (Ic & C & q0 & Iq0 & Tq0 & Lq0). unfold antecedents, wp. pose proof (En c Ic) as Ec. unfold ent, csat in Ec. destruct (c_atm (db s c)) eqn:At.
  - split; auto. split; [|split].
    + intros q Iq. apply in_map_iff in Iq as (t & <- & It). apply filter_In in It as [_ It]. apply fls_neg, isT_tru; auto.
    + intros a Ma. specialize (Ec a Ma). destruct (existsb (fun t => isT s t && negb (alit a t)) (c_lits (db s c))) eqn:X.
      * apply existsb_exists in X as (t & It & X). apply andb_true_iff in X as [X1 X2]. exists (neg t). split; [apply in_map, filter_In; auto|]. rewrite alit_neg; auto.
      * exfalso. assert (length (filter (isT s) (c_lits (db s c))) <= length (filter (alit a) (c_lits (db s c)))); [|lia]. apply filter_le. intros x Ix Tx.
        destruct (alit a x) eqn:Ax; auto. rewrite <- X. apply existsb_exists. exists x. rewrite Tx, Ax; auto.
    + exists (neg q0). split; auto. apply in_map, filter_In; split; auto. apply isT_tru; auto.
  - split; auto. split; [auto|]. split; [intros a Ma; apply Ec; auto|]. exists q0; auto.
Qed.
Lemma antecedents_rsn : forall M c p pre post s, AI M s -> trail s = pre ++ p :: post -> rsn s (fst p) = Some c ->
  wp (antecedents c false) s (fun qs s' => AI M s' /\ Akeep s s' /\ seen s' = seen s /\ (forall q, In q qs -> In (neg q) pre) /\ (forall a, M a -> alit a p = true \/ exists q, In q qs /\ alit a q = true)).
Proof.
  intros M c p pre post s I Et R. pose proof I as [[A W En] P]. pose proof (as_rsn _ _ _ A _ _ _ _ Et R) as RO. pose proof RO as (R1 & R2 & R3).
  assert (Tp : tru s p) by (apply (as_val _ _ _ A); rewrite Et; apply in_elt).
  assert (Np : ~ In (neg p) pre). { intros X. assert (In (neg p) (trail s)) by (rewrite Et; apply in_or_app; auto). apply (as_val _ _ _ A), tru_neg in H. eapply tru_fls; eauto. }
  assert (Pt : forall q, In q pre -> tru s q) by (intros q Iq; apply (as_val _ _ _ A); rewrite Et; apply in_or_app; auto).
  unfold antecedents, wp. destruct (c_atm (db s c)) eqn:At.
  - split; auto. split; [apply ak_refl|]. split; auto. destruct R3 as (R3 & R4 & R5). split.
    + intros q Iq. apply in_map_iff in Iq as (t & <- & It). apply filter_In in It as [It Tt]. apply isT_tru in Tt. rewrite neg_neg. destruct (R4 t It) as [X|[[X _]|[[] _]]]; auto. exfalso; eapply tru_fls; eauto.
    + intros a Ma. destruct (existsb (fun t => isT s t && negb (alit a t)) (c_lits (db s c))) eqn:X.
      * right. apply existsb_exists in X as (t & It & X). apply andb_true_iff in X as [X1 X2]. exists (neg t). split; [apply in_map, filter_In; auto|]. rewrite alit_neg; auto.
      * left. apply (reason_sound M E0 s pre p c a RO Np Ma). rewrite At. intros q Iq Iq2. destruct (alit a q) eqn:Aq; auto. rewrite <- X. apply existsb_exists. exists q. split; auto.
        rewrite Aq. replace (isT s q) with true; auto. symmetry. apply isT_tru; auto.
  - unfold bind. rewrite turn_eq. unfold gets. destruct (turned_ok M c s I At) as (I' & K' & S'). split; auto. split; auto. split; auto.
    pose proof I' as [[A' W' En'] P']. assert (Et' : trail (turned c s) = pre ++ p :: post) by (rewrite (ak_trail _ _ K'); auto).
    assert (R' : rsn (turned c s) (fst p) = Some c) by (rewrite (ak_rsn _ _ K'); auto).
    pose proof (as_rsn _ _ _ A' _ _ _ _ Et' R') as RO'. pose proof RO' as (Q1 & Q2 & Q3). assert (At' : c_atm (db (turned c s) c) = false). { destruct (ak_db _ _ K' c) as (_ & <- & _); auto. }
    rewrite At' in Q3. destruct Q3 as (Q3 & Q4 & Q5 & Q6).
    assert (H0 : exists rest, c_lits (db (turned c s) c) = p :: rest).
    { destruct (Nat.eq_dec (length (c_lits (db s c))) 2) as [L|L].
      - destruct R3 as (R3 & R4 & R5 & R6). unfold turned. rewrite L. cbn [Nat.eqb andb]. destruct (c_lits (db s c)) as [|x [|y [|]]] eqn:El; cbn in L; try lia. unfold hd0, hd1; cbn [nth]. destruct (isF s x) eqn:Fx.
        + rewrite setL_same. cbn. apply isF_fls in Fx. destruct R3 as [->|[->|[]]]; [exfalso; eapply tru_fls; eauto|eauto].
        + rewrite El. destruct R3 as [->|[->|[]]]; [eauto|]. exfalso. destruct (R4 x) as [X|X]; [left; auto|subst; inversion R6; subst; apply H1; left; auto|]. apply Pt, tru_neg in X. assert (isF s x = true) by (apply isF_fls; auto). congruence.
      - pose proof (cperm_len _ _ (ak_db _ _ K' c)) as CL. destruct (c_lits (db (turned c s) c)) as [|x [|y rest]] eqn:El; [destruct Q3|destruct Q3 as [->|[]]; eauto|]. cbn in CL. rewrite <- Q5 by (cbn; lia). eauto. }
    destruct H0 as (rest & El). rewrite El in *. cbn [skipn]. inversion Q6; subst. split.
    + intros q Iq. destruct (Q4 q (or_intror Iq)) as [->|X]; auto. contradiction.
    + intros a Ma. specialize (Q2 a Ma). unfold csat in Q2. rewrite At', El in Q2. destruct Q2 as (q & [<-|Iq] & Aq); auto. right; exists q; auto.
Qed.

(** ** Resolving back to the first unique implication point *)
Definition cnt (s : sat) (i : nat) : nat := length (filter (fun t => seen s (fst t) && (dl s <=? lev s t)) (firstn i (trail s))).
Record LI (M : (nat -> bool) -> Prop) (s : sat) (i : nat) (out : list slit) : Prop := {
  li_ai : AI M s;
  li_dl : 0 < dl s;
  li_i : i <= length (trail s);
  li_seen : forall v, seen s v = true -> (exists q, In q out /\ fst q = v) \/ (exists t, In t (firstn i (trail s)) /\ fst t = v /\ dl s <= lev s t);
  li_out : forall q, In q out -> fls s q /\ 0 < lev s q < dl s /\ seen s (fst q) = true;
  li_nd : NoDup (map fst out) }.
Lemma trail_unique : forall M E s i t, Asg M E s -> In t (firstn i (trail s)) -> 0 < lev s t -> exists l1 l2, firstn i (trail s) = l1 ++ t :: l2 /\ (forall x, In x l1 \/ In x l2 -> fst x <> fst t).
Proof.
  intros M E s i t A I L. destruct (in_split _ _ I) as (l1 & l2 & X). exists l1, l2. split; auto.
  assert (Et : trail s = l1 ++ t :: l2 ++ skipn i (trail s)) by (rewrite <- (firstn_skipn i (trail s)) at 1; rewrite X, <- app_assoc; auto).
  assert (Nt : nth_error (trail s) (length l1) = Some t) by (rewrite Et, nth_error_app2, Nat.sub_diag by lia; auto).
  intros x Ix Ef. assert (Ixt : In x (trail s)). { rewrite Et. destruct Ix; apply in_or_app; auto. right; right. apply in_or_app; auto. }
  assert (x = t). { destruct (same_var _ _ Ef) as [|Y]; auto. exfalso. apply (as_val _ _ _ A) in Ixt. apply In_firstn, (as_val _ _ _ A) in I. subst x. apply tru_neg in Ixt. eapply tru_fls; eauto. }
  subst x. assert (J : exists j, j <> length l1 /\ nth_error (trail s) j = Some t).
  { destruct Ix as [Ix|Ix]; apply In_nth_error in Ix as [j J].
    - assert (j < length l1) by (apply nth_error_Some; congruence). exists j. split; [lia|]. rewrite Et, nth_error_app1; auto.
    - exists (length l1 + S j). split; [lia|]. rewrite Et, nth_error_app2 by lia. replace (length l1 + S j - length l1) with (S j) by lia. cbn. rewrite nth_error_app1; auto. apply nth_error_Some; congruence. }
  destruct J as (j & J1 & J2). apply J1. eapply (as_nd _ _ _ A); eauto.
Qed.
Lemma cnt_upd : forall M E s i t b, Asg M E s -> 0 < dl s -> In t (firstn i (trail s)) -> dl s <= lev s t -> seen s (fst t) = negb b ->
  cnt (with_seen (upd (seen s) (fst t) b) s) i + (if b then 0 else 1) = cnt s i + (if b then 1 else 0).
Proof.
  intros M E s i t b A D I L S. destruct (trail_unique M E s i t A I) as (l1 & l2 & X & U); [lia|]. unfold cnt.
  change (trail (with_seen (upd (seen s) (fst t) b) s)) with (trail s). change (dl (with_seen (upd (seen s) (fst t) b) s)) with (dl s). rewrite X, !filter_app, !app_length. cbn [filter].
  change (seen (with_seen (upd (seen s) (fst t) b) s)) with (upd (seen s) (fst t) b). rewrite upd_same, S.
  change (lev (with_seen (upd (seen s) (fst t) b) s)) with (lev s). replace (dl s <=? lev s t) with true by (symmetry; apply Nat.leb_le; auto). rewrite !andb_true_r.
  assert (F : forall l, (forall x, In x l -> fst x <> fst t) -> filter (fun x => upd (seen s) (fst t) b (fst x) && (dl s <=? lev s x)) l = filter (fun x => seen s (fst x) && (dl s <=? lev s x)) l).
  { intros l N. apply filter_eq. intros x Ix. rewrite upd_other; auto. }
  rewrite !F by auto. unfold slit. destruct b; cbn [length negb]; lia.
Qed.
Lemma fst_fls : forall s q q', fst q = fst q' -> fls s q -> fls s q' -> q = q'.
Proof. intros s q q' E F F'. destruct (same_var _ _ E) as [|X]; auto. exfalso. subst q. apply fls_neg in F. eapply tru_fls; eauto. Qed.
Lemma NoDup_app_snoc : forall {A} (l : list A) x, NoDup l -> ~ In x l -> NoDup (l ++ [x]).
Proof. intros. apply (Permutation_NoDup (l := x :: l)); [apply Permutation_cons_append|constructor; auto]. Qed.
Lemma looks_ok : forall M qs i pc out s, LI M s i out -> pc = cnt s i -> (forall q, In q qs -> In (neg q) (firstn i (trail s))) ->
  wp (looks qs pc out) s (fun x s' => LI M s' i (snd x) /\ fst x = cnt s' i /\ Akeep s s' /\ db s' = db s /\ (forall v, seen s v = true -> seen s' v = true) /\ incl out (snd x) /\
    forall q, In q qs -> lev s q = 0 \/ In q (snd x) \/ (seen s' (fst q) = true /\ dl s <= lev s q)).
Proof.
  intros M qs. induction qs as [|q qs IH]; intros i pc out s LI0 Ep Hq.
  { apply wp_ret. cbn. split; auto. split; auto. split; [apply ak_refl|]. split; auto. split; auto. split; [apply incl_refl|]. intros q []. }
  cbn [looks]. apply wp_bind. pose proof LI0 as [I D Li Ls Lo Ln]. pose proof I as [[A W En] P].
  assert (Iq := Hq q (or_introl eq_refl)). assert (Fq : fls s q) by (apply (fls_in M E0 s q A); eapply In_firstn; eauto).
  unfold look, wp; cbv beta. destruct (seen s (fst q)) eqn:Sq; [|destruct (Nat.ltb_spec 0 (lev s q)) as [L|L]]; cbn [negb andb].
  - cbn [fst snd]. eapply wp_mono; [apply (IH i pc out s); auto; intros; apply Hq; right; auto|]. intros x s' (X1 & X2 & X3 & X4 & X5 & X6 & X7).
    repeat (split; [solve [auto]|]). intros r [<-|Ir]; auto. destruct (Ls _ Sq) as [(q' & Q1 & Q2)|(t & T1 & T2 & T3)].
    + right; left. apply X6. destruct (Lo q' Q1) as [F' _]. rewrite (fst_fls s q q'); auto.
    + right; right. split; auto. unfold lev in *. rewrite <- T2. auto.
  - destruct (Nat.leb_spec (dl s) (lev s q)) as [C|C]; cbn [fst snd].
    + set (s1 := with_seen (upd (seen s) (fst q) true) s). assert (L1 : LI M s1 i out).
      { constructor; auto.
        - apply ai_seen; auto.
        - intros v Sv. cbn in Sv. unfold upd in Sv. destruct (Nat.eqb_spec v (fst q)); [subst; right; exists (neg q); split; auto|apply Ls; auto].
        - intros r Ir. destruct (Lo r Ir) as (X1 & X2 & X3). split; auto. split; auto. cbn. unfold upd. destruct (fst r =? fst q); auto. }
      eapply wp_mono; [apply (IH i (S pc) out s1); auto|].
      * pose proof (cnt_upd M E0 s i (neg q) true A D Iq C Sq) as X. change (cnt s1 i + 0 = cnt s i + 1) in X. lia.
      * intros; apply Hq; right; auto.
      * intros x s' (X1 & X2 & X3 & X4 & X5 & X6 & X7). split; auto. split; auto. split; [eapply ak_trans; [apply ak_seen|apply X3]|]. split; [rewrite X4; auto|]. split; [intros v Sv; apply X5; cbn; unfold upd; destruct (v =? fst q); auto|]. split; auto.
        intros r [<-|Ir]; [|apply X7; auto]. right; right. split; auto. apply X5. cbn. apply upd_same.
    + set (s1 := with_seen (upd (seen s) (fst q) true) s). assert (L1 : LI M s1 i (out ++ [q])).
      { constructor; auto.
        - apply ai_seen; auto.
        - intros v Sv. cbn in Sv. unfold upd in Sv. destruct (Nat.eqb_spec v (fst q)); [subst; left; exists q; split; auto; apply in_or_app; right; left; auto|].
          destruct (Ls v Sv) as [(r & R1 & R2)|X]; auto. left. exists r; split; auto. apply in_or_app; auto.
        - intros r Ir. apply in_app_iff in Ir as [Ir|[<-|[]]].
          + destruct (Lo r Ir) as (X1 & X2 & X3). split; auto. split; auto. cbn. unfold upd. destruct (fst r =? fst q); auto.
          + split; auto. split; [split; auto|cbn; apply upd_same].
        - rewrite map_app. apply NoDup_app_snoc; auto. intros X. apply in_map_iff in X as (r & R1 & R2). destruct (Lo r R2) as (_ & _ & R3). congruence. }
      eapply wp_mono; [apply (IH i pc (out ++ [q]) s1); auto|].
      * rewrite Ep. unfold cnt. f_equal. change (trail s1) with (trail s). apply filter_eq. intros t It. change (dl s1) with (dl s). change (lev s1 t) with (lev s t). change (seen s1) with (upd (seen s) (fst q) true).
        unfold upd. destruct (Nat.eqb_spec (fst t) (fst q)); auto. replace (dl s <=? lev s t) with false; [rewrite !andb_false_r; auto|]. symmetry. apply Nat.leb_gt. unfold lev in *. rewrite e. auto.
      * intros; apply Hq; right; auto.
      * intros x s' (X1 & X2 & X3 & X4 & X5 & X6 & X7). split; auto. split; auto. split; [eapply ak_trans; [apply ak_seen|apply X3]|]. split; [rewrite X4; auto|]. split; [intros v Sv; apply X5; cbn; unfold upd; destruct (v =? fst q); auto|].
        split; [intros r Ir; apply X6; apply in_or_app; auto|]. intros r [<-|Ir]; [|apply X7; auto]. right; left. apply X6. apply in_or_app; right; left; auto.
  - cbn [fst snd]. eapply wp_mono; [apply (IH i pc out s); auto; intros; apply Hq; right; auto|]. intros x s' (X1 & X2 & X3 & X4 & X5 & X6 & X7).
    repeat (split; [solve [auto]|]). intros r [<-|Ir]; auto. left; lia.
Qed.
Lemma lastSeen_ok : forall s i, match lastSeen s i with
  | Some j => j < i /\ (exists l, nth_error (trail s) j = Some l /\ seen s (fst l) = true) /\ (forall k l, j < k < i -> nth_error (trail s) k = Some l -> seen s (fst l) = false)
  | None => forall k l, k < i -> nth_error (trail s) k = Some l -> seen s (fst l) = false end.
Proof.
  induction i; cbn [lastSeen]; [intros; lia|]. destruct (nth_error (trail s) i) as [l|] eqn:E.
  - destruct (seen s (fst l)) eqn:Sl.
    + split; [lia|]. split; eauto. intros; lia.
    + destruct (lastSeen s i) as [j|].
      * destruct IHi as (X1 & X2 & X3). split; [lia|]. split; auto. intros k m K Ek. destruct (Nat.eq_dec k i); [subst; congruence|]. apply (X3 k); auto; lia.
      * intros k m K Ek. destruct (Nat.eq_dec k i); [subst; congruence|]. apply (IHi k); auto; lia.
  - destruct (lastSeen s i) as [j|].
    + destruct IHi as (X1 & X2 & X3). split; [lia|]. split; auto. intros k m K Ek. destruct (Nat.eq_dec k i); [subst; congruence|]. apply (X3 k); auto; lia.
    + intros k m K Ek. destruct (Nat.eq_dec k i); [subst; congruence|]. apply (IHi k); auto; lia.
Qed.
Definition anaPost M s (x : slit * list slit) s' :=
  let p := fst x in let out := snd x in
  AI M s' /\ Akeep s s' /\ In p (trail s') /\ lev s' p = dl s' /\ (forall q, In q out -> fls s' q /\ 0 < lev s' q < dl s' /\ seen s' (fst q) = true) /\
  (forall v, seen s' v = true -> exists q, In q out /\ fst q = v) /\ NoDup (map fst out) /\ (forall a, M a -> exists q, In q (neg p :: out) /\ alit a q = true).
Definition inTrail (s : sat) (i : nat) (a : nat -> bool) : Prop := exists t, In t (firstn i (trail s)) /\ seen s (fst t) = true /\ dl s <= lev s t /\ alit a t = false.
Lemma nth_In_firstn : forall {A} (l : list A) i k x, nth_error l k = Some x -> k < i -> In x (firstn i l).
Proof. intros A l i k x E L. eapply nth_error_In with k. rewrite <- E. clear E. revert i l L. induction k; intros [|i] [|y l] L; cbn; try lia; auto. apply IHk; lia. Qed.
Lemma In_firstn_nth : forall {A} (l : list A) i x, In x (firstn i l) -> exists k, k < i /\ nth_error l k = Some x.
Proof.
  intros A l i x I. apply In_nth_error in I as [k K]. exists k. assert (k < length (firstn i l)) by (apply nth_error_Some; congruence). rewrite firstn_length in H. split; [lia|].
  rewrite <- (firstn_skipn i l), nth_error_app1; auto. rewrite firstn_length; lia.
Qed.
Lemma filter_none : forall {A} (f : A -> bool) l, (forall x, In x l -> f x = false) -> filter f l = [].
Proof. intros A f l H. induction l; cbn; auto. rewrite H; [apply IHl|left; auto]. intros; apply H; right; auto. Qed.
Lemma nth_error_skip : forall {A} (l : list A) n k, nth_error (skipn n l) k = nth_error l (n + k).
Proof. intros A l n. revert l. induction n; intros [|x l] k; cbn; auto. destruct k; auto. Qed.
Lemma nth_mid : forall {A} (l : list A) j x, nth_error l j = Some x -> l = firstn j l ++ x :: skipn (S j) l.
Proof. intros A l j. revert l. induction j; intros [|y l] x E; cbn in *; inversion E; subst; auto. f_equal; auto. Qed.
Lemma firstn_mid : forall {A} (l : list A) i j, j <= i -> firstn i l = firstn j l ++ firstn (i - j) (skipn j l).
Proof. intros A l i j. revert l i. induction j; intros l i L; cbn; [f_equal; lia|]. destruct i; [lia|]. destruct l; cbn; [rewrite firstn_nil; auto|]. f_equal. apply IHj; lia. Qed.
Lemma analyzeLoop_ok : forall M n c first i pc out s,
  wp (antecedents c first) s (fun qs s1 => LI M s1 i out /\ Akeep s s1 /\ pc = cnt s1 i /\ (forall q, In q qs -> In (neg q) (firstn i (trail s1))) /\
     (forall a, M a -> (exists q, In q out /\ alit a q = true) \/ inTrail s1 i a \/ (exists q, In q qs /\ alit a q = true)) /\ (1 <= pc \/ exists q, In q qs /\ dl s1 <= lev s1 q)) ->
  wp (analyzeLoop n c first i pc out) s (anaPost M s).
Proof.
  intros M n. induction n as [|n IH]; intros c first i pc out s H; [exact Logic.I|]. cbn [analyzeLoop]. apply wp_bind. eapply wp_mono; [apply H|]. clear H.
  intros qs s1 (L1 & K1 & Ep & Hq & Res & Pos). apply wp_bind. eapply wp_mono; [apply (looks_ok M qs i pc out s1); auto|].
  intros x s2 (L2 & E2 & K2 & D2 & S2 & I2 & Q2). destruct x as [pc2 out2]. cbn [fst snd] in *. pose proof L2 as [J2 Dl2 Li2 Ls2 Lo2 Ln2]. pose proof J2 as [[A2 W2 En2] P2].
  assert (DL : dl s2 = dl s1) by (apply ak_dl; auto). assert (LV : forall q, lev s2 q = lev s1 q) by (intros; apply ak_lev; auto). assert (TR : trail s2 = trail s1) by (apply ak_trail; auto).
  (* the clause so far *)
  assert (Res2 : forall a, M a -> (exists q, In q out2 /\ alit a q = true) \/ inTrail s2 i a).
  { intros a Ma. destruct (Res a Ma) as [(q & Q & Aq)|[(t & T1 & T2 & T3 & T4)|(q & Q & Aq)]].
    - left; exists q; auto.
    - right. exists t. rewrite TR, DL, LV. auto.
    - destruct (Q2 q Q) as [Z|[Z|[Z1 Z2]]].
      + exfalso. assert (alit a (neg q) = true). { apply (as_l0 _ _ _ A2); auto; [rewrite TR; eapply In_firstn; eauto|]. rewrite LV; auto. } rewrite alit_neg, Aq in H. discriminate.
      + left; exists q; auto.
      + right. exists (neg q). rewrite TR, DL, LV. split; auto. split; auto. split; auto. rewrite alit_neg, Aq; auto. }
  assert (Pos2 : 1 <= pc2).
  { assert (X : exists t, In t (firstn i (trail s2)) /\ seen s2 (fst t) = true /\ dl s2 <= lev s2 t).
    { destruct Pos as [Pos|(q & Iq & Lq)].
      - rewrite Ep in Pos. unfold cnt in Pos. destruct (filter _ _) as [|t l] eqn:F in Pos; [cbn in Pos; lia|]. assert (It : In t (t :: l)) by (left; auto). rewrite <- F in It. apply filter_In in It as [It X]. apply andb_true_iff in X as [X1 X2]. apply Nat.leb_le in X2.
        exists t. rewrite TR, DL, LV. auto.
      - exists (neg q). rewrite TR, DL, LV. split; auto. split; auto. destruct (Q2 q Iq) as [Z|[Z|[Z _]]]; auto; [rewrite DL in Dl2; lia|]. apply (Lo2 q Z). }
    destruct X as (t & T1 & T2 & T3). rewrite E2. unfold cnt. apply (In_len t). apply filter_In. split; auto. rewrite T2. apply Nat.leb_le; auto. }
  unfold wp; cbv beta. pose proof (lastSeen_ok s2 i) as LS. rewrite E2 in Pos2. unfold cnt in Pos2. destruct (filter _ _) as [|t0 l0] eqn:F in Pos2; [cbn in Pos2; lia|]. clear Pos2.
  assert (It : In t0 (t0 :: l0)) by (left; auto). rewrite <- F in It. clear F l0. apply filter_In in It as [It X]. apply andb_true_iff in X as [T2 T3]. apply Nat.leb_le in T3.
  destruct (In_firstn_nth _ _ _ It) as (k0 & K0 & N0).
  destruct (lastSeen s2 i) as [j|]; [|rewrite (LS k0 t0 K0 N0) in T2; discriminate]. destruct LS as (Lj & (p & Np & Sp) & Lnext).
  assert (Kj : k0 <= j). { destruct (Nat.le_gt_cases k0 j); auto. rewrite (Lnext k0 t0) in T2 by (auto; lia). discriminate. }
  assert (Nn : @nth slit j (trail s2) (0, false) = p) by (apply nth_error_nth; auto). change (@nth (nat * bool) j (trail s2) (0, false)) with (@nth slit j (trail s2) (0, false)). rewrite !Nn.
  destruct (nth_error (tlim s2) (dl s2 - 1)) as [m|] eqn:Em; [|apply nth_error_None in Em; unfold dl in *; lia]. destruct (as_lim _ _ _ A2 _ _ Em) as (M1 & M2 & M3).
  assert (Mk : m <= k0). { destruct (Nat.le_gt_cases m k0); auto. assert (lev s2 t0 <= dl s2 - 1) by (apply M2; eapply nth_In_firstn; eauto). lia. }
  assert (LP : lev s2 p = dl s2).
  { assert (X : dl s2 - 1 < lev s2 p). { apply M3. rewrite <- (firstn_skipn m (trail s2)) in Np. rewrite nth_error_app2 in Np by (rewrite firstn_length; lia). eapply nth_error_In; eauto. }
    pose proof (as_lev _ _ _ A2 p (nth_error_In _ _ Np)). lia. }
  assert (Ip : In p (firstn i (trail s2))) by (eapply nth_In_firstn; eauto).
  set (s3 := with_seen (upd (seen s2) (fst p) false) s2).
  assert (CI : cnt s3 i + 1 = cnt s2 i). { pose proof (cnt_upd M E0 s2 i p false A2 Dl2 Ip) as X. change (dl s2 <= lev s2 p -> seen s2 (fst p) = true -> cnt s3 i + 1 = cnt s2 i + 0) in X. rewrite Nat.add_0_r in X. apply X; auto. lia. }
  assert (CJ : cnt s3 (S j) = cnt s3 i).
  { unfold cnt. change (trail s3) with (trail s2). rewrite (firstn_mid (trail s2) i (S j)) by lia.
    rewrite filter_app, app_length. rewrite (filter_none _ (firstn (i - S j) (skipn (S j) (trail s2)))); [cbn [length]; symmetry; apply Nat.add_0_r|].
    intros x Ix. destruct (In_firstn_nth _ _ _ Ix) as (k & Kk & Nk). rewrite nth_error_skip in Nk. cbn. unfold upd. destruct (fst x =? fst p); auto. rewrite (Lnext (S j + k) x); auto; lia. }
  assert (J3 : AI M s3) by (apply ai_seen; auto).
  assert (K3 : Akeep s s3) by (eapply ak_trans; [apply K1|eapply ak_trans; [apply K2|apply ak_seen]]).
  assert (Lo3 : forall q, In q out2 -> fls s3 q /\ 0 < lev s3 q < dl s3 /\ seen s3 (fst q) = true).
  { intros q Iq. destruct (Lo2 q Iq) as (X1 & X2 & X3). split; auto. split; auto. cbn. rewrite upd_other; auto. intros X. unfold lev in *. rewrite X in X2. lia. }
  assert (Ls3 : forall v, seen s3 v = true -> (exists q, In q out2 /\ fst q = v) \/ (exists t, In t (firstn (S j) (trail s3)) /\ fst t = v /\ dl s3 <= lev s3 t)).
  { intros v Sv. cbn in Sv. unfold upd in Sv. destruct (v =? fst p); [discriminate|]. destruct (Ls2 v Sv) as [X|(t & X1 & X2 & X3)]; auto. right. exists t. split; auto. destruct (In_firstn_nth _ _ _ X1) as (k & Kk & Nk).
    destruct (Nat.le_gt_cases k j); [eapply nth_In_firstn; [apply Nk|lia]|]. subst v. rewrite (Lnext k t) in Sv by (auto; lia). discriminate. }
  destruct pc2 as [|[|pc3]].
  - rewrite <- E2 in CI. lia.
  - assert (C0 : cnt s3 (S j) = 0) by lia. split; auto. split; auto. split; [eapply nth_error_In; eauto|]. split; auto. split; auto. split.
    + intros v Sv. destruct (Ls3 v Sv) as [X|(t & T4 & T5 & T6)]; auto. exfalso. unfold cnt in C0. apply length_zero_iff_nil in C0.
      assert (X : In t (filter (fun t => seen s3 (fst t) && (dl s3 <=? lev s3 t)) (firstn (S j) (trail s3)))); [|rewrite C0 in X; destruct X]. apply filter_In. split; auto. rewrite T5, Sv. apply Nat.leb_le; auto.
    + split; auto. intros a Ma. destruct (Res2 a Ma) as [(q & Q & Aq)|(t & T4 & T5 & T6 & T7)]; [exists q; split; auto; right; auto|].
      destruct (Nat.eq_dec (fst t) (fst p)) as [X|X].
      * exists (neg p). split; [left; auto|]. destruct (same_var _ _ X) as [->|Y]; [rewrite alit_neg, T7; auto|]. exfalso. subst t. apply In_firstn, (as_val _ _ _ A2), tru_neg in T4. apply In_firstn, (as_val _ _ _ A2) in Ip. eapply tru_fls; eauto.
      * exfalso. assert (Y : In t (filter (fun t => seen s3 (fst t) && (dl s3 <=? lev s3 t)) (firstn i (trail s3)))); [apply filter_In; split; auto; cbn; rewrite upd_other, T5 by auto; apply Nat.leb_le; auto|].
        apply In_len in Y. change (1 <= cnt s3 i) in Y. lia.
  - assert (C1 : S pc3 = cnt s3 (S j)) by lia.
    assert (L3 : LI M s3 (S j) out2). { constructor; auto. change (trail s3) with (trail s2). apply nth_error_Some; congruence. }
    destruct (rsn s2 (fst p)) as [d|] eqn:Rp.
    + eapply wp_mono with (Q := anaPost M s3).
      * assert (Et : trail s3 = firstn j (trail s2) ++ p :: skipn (S j) (trail s2)).
        { apply nth_mid; auto. }
        apply IH. eapply wp_mono; [apply (antecedents_rsn M d p _ _ s3 J3 Et); auto|]. intros qs' s4 (J4 & K4 & S4 & Q4 & R4).
        assert (DL4 : dl s4 = dl s3) by (apply ak_dl; auto). assert (LV4 : forall q, lev s4 q = lev s3 q) by (intros; apply ak_lev; auto). assert (TR4 : trail s4 = trail s3) by (apply ak_trail; auto).
        assert (CN4 : cnt s4 (S j) = cnt s3 (S j)). { unfold cnt. rewrite TR4. f_equal. apply filter_eq. intros; rewrite S4, DL4, LV4; auto. }
        split; [|split; [auto|split; [congruence|split; [|split]]]].
        -- destruct L3. constructor; auto; [rewrite DL4; auto|rewrite TR4; auto| |].
           ++ intros v Sv. rewrite S4 in Sv. destruct (li_seen0 v Sv) as [X|(t & X1 & X2 & X3)]; auto. right. exists t. rewrite TR4, DL4, LV4. auto.
           ++ intros q Iq. destruct (li_out0 q Iq) as (X1 & X2 & X3). rewrite S4, DL4, LV4. split; auto. rewrite <- tru_neg in *. apply (ak_tru _ _ _ K4); auto.
        -- intros q Iq. rewrite TR4. apply Q4 in Iq. destruct (In_firstn_nth _ _ _ Iq) as (k & Kk & Nk). eapply nth_In_firstn; [apply Nk|lia].
        -- intros a Ma. destruct (Res2 a Ma) as [X|(t & T4 & T5 & T6 & T7)]; auto. destruct (Nat.eq_dec (fst t) (fst p)) as [X|X].
           ++ right; right. destruct (R4 a Ma) as [Y|Y]; auto. exfalso. destruct (same_var _ _ X) as [Z|Z]; subst t; [congruence|]. apply In_firstn, (as_val _ _ _ A2), tru_neg in T4. apply In_firstn, (as_val _ _ _ A2) in Ip. eapply tru_fls; eauto.
           ++ right; left. exists t. rewrite TR4, DL4, LV4, S4. destruct (In_firstn_nth _ _ _ T4) as (k & Kk & Nk). split; [|split; [cbn; rewrite upd_other; auto|auto]].
              destruct (Nat.le_gt_cases k j); [eapply nth_In_firstn; [apply Nk|lia]|]. rewrite (Lnext k t) in T5 by (auto; lia). discriminate.
        -- left. lia.
      * intros x s' (X1 & X2 & X3). split; auto. split; [eapply ak_trans; eauto|auto].
    + (* the first literal of the level would be the only one *)
      exfalso. destruct (as_dec _ _ _ A2 j p Np Rp) as [X _]; [lia|]. rewrite LP, Em in X. inversion X; subst j.
      assert (C2 : 1 <= cnt s3 (S m)) by lia. unfold cnt in C2. destruct (filter _ _) as [|t1 l1] eqn:F in C2; [cbn in C2; lia|].
      assert (It1 : In t1 (t1 :: l1)) by (left; auto). rewrite <- F in It1. apply filter_In in It1 as [It1 Y]. apply andb_true_iff in Y as [Y1 Y2]. apply Nat.leb_le in Y2.
      change (trail s3) with (trail s2) in It1. rewrite (firstn_S_nth _ _ _ Np) in It1. apply in_app_iff in It1 as [It1|[<-|[]]].
      * assert (lev s2 t1 <= dl s2 - 1) by (apply M2; auto). change (dl s2 <= lev s2 t1) in Y2. lia.
      * cbn in Y1. rewrite upd_same in Y1. discriminate.
Qed.
