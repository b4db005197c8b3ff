(** * The search of the core solver keeps its invariants *)
From Coq Require Import List Bool Arith Lia ZArith Permutation.
From Verif Require Import Sat SatInv SatProp SatAna SatMin.
Import ListNotations.

Record Ex (s : sat) : Prop := {
  ex_seen : forall v, seen s v = false;
  ex_dec : forall v, v < nvars s -> dec s v = true;
  ex_hp : forall v, v < nvars s -> val_ s v = None -> In v (heap s);
  ex_hv : forall v, In v (heap s) -> v < nvars s;
  ex_units : forall u, In u (units s) -> In u (trail s) /\ lev s u = 0;
  ex_st : forall c, In c (learnts s) -> (c_st (db s c) <= stateId s)%Z }.
(** the clauses and unit literals of the solver imply the constraints of the user *)
Definition Comp (M : (nat -> bool) -> Prop) (s : sat) : Prop :=
  forall a, (forall c, In c (clauses s) -> csat a (db s c)) -> (forall u, In u (units s) -> alit a u = true) -> M a.
(** what a search leaves unchanged *)
Record Fr (s s' : sat) : Prop := {
  fr_same : (ok s', clauses s', nvars s', dec s', assumps s', stateId s', validStates s') = (ok s, clauses s, nvars s, dec s, assumps s, stateId s, validStates s);
  fr_nc : nextc s <= nextc s';
  fr_db : forall c, c < nextc s -> cperm (db s c) (db s' c);
  fr_un : exists us, units s' = units s ++ us;
  fr_le : forall c, In c (learnts s') -> In c (learnts s) \/ c_st (db s' c) = stateId s;
  fr_na : forall P : clause -> Prop, (forall d d', cperm d d' -> P d -> P d') -> (forall d, c_atm d = false -> P d) -> (forall c, P (db s c)) -> forall c, P (db s' c) }.
Ltac fr H := let E := fresh in pose proof (fr_same _ _ H) as E; inversion E; clear E.
Lemma fr_trans : forall s t u, Fr s t -> Fr t u -> Wat t -> Fr s u.
Proof.
  intros s t u [A1 A2 A3 (us1 & A4) A5 A6] [B1 B2 B3 (us2 & B4) B5 B6] W. constructor; try congruence; try lia.
  - intros c L. eapply cperm_trans; [apply A3; auto|apply B3; lia].
  - exists (us1 ++ us2). rewrite B4, A4, app_assoc; auto.
  - intros c I. destruct (B5 c I) as [X|X]; [|right; inversion A1; congruence]. destruct (A5 c X) as [Y|Y]; auto. right. destruct (B3 c) as (_ & _ & _ & Z); [apply (wt_lt _ W); apply in_or_app; auto|]. congruence.
  - intros P H1 H2 H3. apply (B6 P H1 H2). apply (A6 P H1 H2). exact H3.
Qed.
Lemma pk_fr : forall s s', Pkeep s s' -> Fr s s'.
Proof.
  intros s s' K. pose proof (pk_db _ _ K) as D. pk K. constructor; try congruence; auto; try lia.
  - exists []. rewrite app_nil_r; congruence.
  - intros c I. left. congruence.
  - intros P HP _ X c. eapply HP; eauto.
Qed.
Lemma ak_fr : forall s s', Akeep s s' -> Fr s s'.
Proof.
  intros s s' K. pose proof (ak_db _ _ K) as D. ak K. constructor; try congruence; auto; try lia.
  - exists []. rewrite app_nil_r; congruence.
  - intros c I. left. congruence.
  - intros P HP _ X c. eapply HP; eauto.
Qed.
Lemma comp_fr : forall M s s', Wat s -> Fr s s' -> Comp M s -> Comp M s'.
Proof.
  intros M s s' W F C a H1 H2. apply C.
  - intros c I. eapply cperm_csat; [apply cperm_sym; apply (fr_db _ _ F); apply (wt_lt _ W); apply in_or_app; auto|]. apply H1. fr F. congruence.
  - intros u I. apply H2. destruct (fr_un _ _ F) as (us & ->). apply in_or_app; auto.
Qed.
Ltac same s' s := assert (Snv : nvars s' = nvars s) by congruence; assert (Sdc : dec s' = dec s) by congruence; assert (Shp : heap s' = heap s) by congruence; assert (Sun : units s' = units s) by congruence;
  assert (Sle : learnts s' = learnts s) by congruence; assert (Sst : stateId s' = stateId s) by congruence.
Lemma ex_pk : forall s s', Ex s -> Pkeep s s' -> (forall l, In l (trail s) -> tru s l) -> Ex s'.
Proof.
  intros s s' [E1 E2 E3 E4 E5 E6] K V. pose proof (pk_db _ _ K) as D. pose proof (pk_val _ _ K) as Vl. pose proof (pk_lev _ _ K) as Lv. destruct (pk_trail _ _ K) as (ext & Et & _). pk K. same s' s. constructor.
  - congruence.
  - intros v. rewrite Snv, Sdc. auto.
  - intros v L N. rewrite Shp. apply E3; [congruence|]. destruct (val_ s v) as [b|] eqn:X; auto. exfalso.
    assert (T : tru s (v, negb b)) by (unfold tru, val; cbn; rewrite X; destruct b; auto). apply Vl in T. unfold tru, val in T. cbn in T. rewrite N in T. discriminate.
  - intros v I. rewrite Snv. apply E4. congruence.
  - intros u I. rewrite Sun in I. destruct (E5 u I) as [X Y]. split; [rewrite Et; apply in_or_app; auto|]. destruct (Lv u) as [Z _]; auto. congruence.
  - intros c I. destruct (D c) as (_ & _ & _ & X). rewrite <- X. rewrite Sst. apply E6. congruence.
Qed.
Lemma ex_ak : forall s s', Ex s -> Akeep s s' -> (forall v, seen s' v = false) -> Ex s'.
Proof.
  intros s s' [E1 E2 E3 E4 E5 E6] K Sn. pose proof (ak_db _ _ K) as D. pose proof (fun l => ak_lev _ _ l K) as Lv. ak K. same s' s. assert (Str : trail s' = trail s) by congruence. assert (Svl : val_ s' = val_ s) by congruence. constructor; auto.
  - intros v. rewrite Snv, Sdc. auto.
  - intros v. rewrite Snv, Svl, Shp. auto.
  - intros v. rewrite Shp, Snv. auto.
  - intros u. rewrite Sun, Str, Lv. auto.
  - intros c I. destruct (D c) as (_ & _ & _ & X). rewrite <- X. rewrite Sst. apply E6. congruence.
Qed.
(** a violated clause at level 0 *)
Lemma confl_unsat : forall M s c, PI M s -> conflOK s c -> dl s = 0 -> forall a, ~ M a.
Proof.
  intros M s c [A W En] (Ic & C & _) D a Ma. pose proof (En c Ic a Ma) as X. unfold csat in X.
  assert (T : forall l, tru s l -> alit a l = true). { intros l T. apply (as_val _ _ _ A) in T. apply (as_l0 _ _ _ A); auto. pose proof (as_lev _ _ _ A l T). lia. }
  destruct (c_atm (db s c)).
  - pose proof (filter_le (isT s) (alit a) (c_lits (db s c))) as Y. assert (length (filter (isT s) (c_lits (db s c))) <= length (filter (alit a) (c_lits (db s c)))) by (apply Y; intros x _ Z; apply T, isT_tru; auto). lia.
  - destruct X as (l & I & Al). specialize (C l I). apply tru_neg in C. apply T in C. rewrite alit_neg, Al in C. discriminate.
Qed.

(** ** Backtracking *)
Lemma unassign_all : forall ls s, exists h p vl, fold_right unassign s ls = with_heap h (with_pol p (with_val vl s)) /\
  (forall v, vl v = if existsb (fun l => fst l =? v) ls then None else val_ s v) /\ incl (heap s) h /\ (forall v, In v h -> In v (heap s) \/ exists l, In l ls /\ fst l = v) /\ (forall l, In l ls -> dec s (fst l) = true -> In (fst l) h).
Proof.
  induction ls as [|x ls IH]; intros s.
  - exists (heap s), (pol s), (val_ s). split; [destruct s; auto|]. split; auto. split; [apply incl_refl|]. split; auto. intros l [].
  - destruct (IH s) as (h & p & vl & E & V & H1 & H2 & H3). cbn [fold_right]. rewrite E. unfold unassign, insertVarOrder.
    set (s1 := with_heap h (with_pol p (with_val vl s))).
    assert (V' : forall v, upd vl (fst x) None v = if existsb (fun l => fst l =? v) (x :: ls) then None else val_ s v).
    { intros v. cbn [existsb]. unfold upd. rewrite Nat.eqb_sym. destruct (fst x =? v); cbn; auto. }
    change (heap (with_pol (upd (pol s1) (fst x) (snd x)) (with_val (upd (val_ s1) (fst x) None) s1))) with h. change (dec (with_pol (upd (pol s1) (fst x) (snd x)) (with_val (upd (val_ s1) (fst x) None) s1)) (fst x)) with (dec s (fst x)).
    destruct (negb (inN (fst x) h) && dec s (fst x)) eqn:B.
    + exists (fst x :: h), (upd p (fst x) (snd x)), (upd vl (fst x) None). split; [reflexivity|]. split; [exact V'|]. split; [apply incl_tl; auto|]. split.
      * intros v [<-|I]; [right; exists x; split; auto; left; auto|]. destruct (H2 v I) as [Y|(l & Y & Z)]; auto. right. exists l. split; auto. right; auto.
      * intros l [<-|I] D; [left; auto|right; auto].
    + exists h, (upd p (fst x) (snd x)), (upd vl (fst x) None). split; [reflexivity|]. split; [exact V'|]. split; auto. split.
      * intros v I. destruct (H2 v I) as [Y|(l & Y & Z)]; auto. right. exists l. split; auto. right; auto.
      * intros l [<-|I] D; auto. rewrite D, andb_true_r in B. apply negb_false_iff, inN_in in B. auto.
Qed.
Record canceled (k : nat) (s s' : sat) : Prop := {
  ca_val : forall l, val s' l = if (lev s l <=? k) then val s l else None;
  ca_same : (ok s', units s', clauses s', learnts s', db s', nextc s', wat s', wbin s', nvars s', lvl s', rsn s', dec s', seen s', model s', conflict s', assumps s', tick s', ev s', stateId s', validStates s')
          = (ok s, units s, clauses s, learnts s, db s, nextc s, wat s, wbin s, nvars s, lvl s, rsn s, dec s, seen s, model s, conflict s, assumps s, tick s, ev s, stateId s, validStates s);
  ca_dl : dl s' = k;
  ca_tr : exists m, nth_error (tlim s) k = Some m /\ trail s' = firstn m (trail s) /\ (forall l, In l (trail s') <-> In l (trail s) /\ lev s l <= k);
  ca_q : qhead s' = length (trail s') }.
Ltac ca H := let E := fresh in pose proof (ca_same _ _ _ H) as E; inversion E; clear E.
Lemma cancelUntil_ok : forall M k s, PI M s -> Ex s -> Proc s (fun q _ => lev s q = dl s) -> k < dl s ->
  let s' := cancelUntil k s in canceled k s s' /\ PI M s' /\ Ex s' /\ Proc s' NoE /\ Fr s s'.
Proof.
  intros M k s [A W En] X P K s'. subst s'. unfold cancelUntil. destruct (nth_error (tlim s) k) as [m|] eqn:Em; [|apply nth_error_None in Em; unfold dl in K; lia].
  destruct (as_lim _ _ _ A k m Em) as (L1 & L2 & L3). destruct (unassign_all (skipn m (trail s)) s) as (h & p & vl & -> & V & H1 & H2 & H3).
  set (s' := with_tlim (firstn k (tlim s)) (with_trail (firstn m (trail s)) (with_qhead m (with_heap h (with_pol p (with_val vl s)))))).
  assert (Vv : forall l, val s' l = if lev s l <=? k then val s l else None).
  { intros l. unfold val at 1. change (val_ s' (fst l)) with (vl (fst l)). rewrite V. destruct (existsb (fun x => fst x =? fst l) (skipn m (trail s))) eqn:B.
    - apply existsb_exists in B as (x & Ix & Ex). apply Nat.eqb_eq in Ex. assert (k < lev s l) by (unfold lev in *; rewrite <- Ex; apply L3; auto). destruct (Nat.leb_spec (lev s l) k); auto. lia.
    - destruct (Nat.leb_spec (lev s l) k) as [L|L]; [reflexivity|]. destruct (val_ s (fst l)) as [b|] eqn:Vl; auto. exfalso.
      assert (T : In (fst l, negb b) (trail s)) by (apply (as_val _ _ _ A); unfold tru, val; cbn; rewrite Vl; destruct b; auto).
      rewrite <- (firstn_skipn m (trail s)) in T. apply in_app_iff in T as [T|T].
      + apply L2 in T. change (lev s l <= k) in T. lia.
      + assert (Y : existsb (fun x => fst x =? fst l) (skipn m (trail s)) = true); [|congruence]. apply existsb_exists. exists (fst l, negb b). split; auto. apply Nat.eqb_refl. }
  assert (Tr : forall l, In l (firstn m (trail s)) <-> In l (trail s) /\ lev s l <= k).
  { intros l. split; [intros I; split; [eapply In_firstn; eauto|auto]|]. intros [I L]. rewrite <- (firstn_skipn m (trail s)) in I. apply in_app_iff in I as [I|I]; auto. apply L3 in I. lia. }
  assert (D : dl s' = k) by (unfold dl; cbn; rewrite firstn_length; unfold dl in K; lia).
  assert (Tv : forall l, tru s' l <-> tru s l /\ lev s l <= k). { intros l. unfold tru. rewrite Vv. destruct (Nat.leb_spec (lev s l) k); split; try tauto; [discriminate|intros []; lia]. }
  assert (Fv : forall l, fls s' l <-> fls s l /\ lev s l <= k). { intros l. unfold fls. rewrite Vv. destruct (Nat.leb_spec (lev s l) k); split; try tauto; [discriminate|intros []; lia]. }
  assert (Lq : m <= qhead s).
  { destruct (as_q _ _ _ A) as [Q1 Q2]. destruct (Nat.le_gt_cases m (qhead s)); auto. exfalso. destruct (nth_error (trail s) (qhead s)) as [l|] eqn:El; [|apply nth_error_None in El; lia].
    assert (lev s l <= k) by (apply L2; eapply nth_In_firstn; eauto). assert (lev s l = dl s); [|lia]. apply Q2. apply nth_error_In with 0. rewrite nth_error_skip, Nat.add_0_r. auto. }
  assert (Lm : length (firstn m (trail s)) = m) by (rewrite firstn_length; lia).
  split; [|split; [|split; [|split]]].
  - constructor; auto. exists m. auto.
  - constructor; [|destruct W; constructor; assumption|exact En]. constructor.
    + intros l. change (trail s') with (firstn m (trail s)). rewrite Tr, Tv, (as_val _ _ _ A). tauto.
    + intros l I. apply Tr in I as [I _]. apply (as_vars _ _ _ A); auto.
    + intros l I. apply Tr in I as [I L]. rewrite D. exact L.
    + intros i n Y. change (tlim s') with (firstn k (tlim s)) in Y. assert (i < k). { assert (i < length (firstn k (tlim s))) by (apply nth_error_Some; congruence). rewrite firstn_length in H. lia. }
      assert (Y' : nth_error (tlim s) i = Some n). { rewrite <- (firstn_skipn k (tlim s)), nth_error_app1; auto. rewrite firstn_length. unfold dl in K. lia. }
      destruct (as_lim _ _ _ A i n Y') as (N1 & N2 & N3). change (trail s') with (firstn m (trail s)). change (lev s') with (lev s).
      assert (n <= m). { destruct (Nat.le_gt_cases n m) as [|G]; auto. exfalso. destruct (nth_error (trail s) m) as [l|] eqn:El; [|apply nth_error_None in El; lia].
        assert (lev s l <= i) by (apply N2; eapply nth_In_firstn; eauto). assert (k < lev s l); [|lia]. apply L3. apply nth_error_In with 0. rewrite nth_error_skip, Nat.add_0_r. auto. }
      split; [rewrite Lm; auto|]. split; intros l I.
      * rewrite firstn_firstn in I. replace (min n m) with n in I by lia. auto.
      * apply N3. rewrite skipn_firstn_comm in I. eapply In_firstn; eauto.
    + intros i j l Y Z L. change (trail s') with (firstn m (trail s)) in Y, Z. change (lev s' l) with (lev s l) in L.
      assert (N : forall i, nth_error (firstn m (trail s)) i = Some l -> nth_error (trail s) i = Some l). { intros i' Q. rewrite <- (firstn_skipn m (trail s)), nth_error_app1; auto. apply nth_error_Some; congruence. }
      apply (as_nd _ _ _ A i j l); auto.
    + intros pre l post c Y R. change (trail s') with (firstn m (trail s)) in Y. assert (Et : trail s = pre ++ l :: (post ++ skipn m (trail s))) by (rewrite <- (firstn_skipn m (trail s)) at 1; rewrite Y, <- app_assoc; auto).
      pose proof (as_rsn _ _ _ A _ _ _ _ Et R) as RO. revert RO. apply reasonOK_mono; auto; try (intros; apply cperm_refl).
      intros q Iq At [Z|[[Z1 Z2]|[[] _]]]; auto. right; left. assert (Ll : lev s l <= k) by (apply L2; rewrite Y; apply in_elt). split; [apply Fv; split; auto; lia|exact Z2].
    + intros i l Y R L. change (trail s') with (firstn m (trail s)) in Y. change (lev s' l) with (lev s l) in *. assert (Il := nth_error_In _ _ Y). apply Tr in Il as [Il Ll].
      assert (Y' : nth_error (trail s) i = Some l) by (rewrite <- (firstn_skipn m (trail s)), nth_error_app1; auto; apply nth_error_Some; congruence).
      destruct (as_dec _ _ _ A i l Y' R L) as [Z1 Z2]. split; auto. change (tlim s') with (firstn k (tlim s)). rewrite <- (firstn_skipn k (tlim s)), nth_error_app1 in Z1; auto. rewrite firstn_length. unfold dl in K. lia.
    + intros i l Y L. rewrite D in L. destruct (as_ass _ _ _ A i l Y) as [Z1 Z2]; [lia|]. split; auto. apply Tv. split; auto. lia.
    + intros l a I L Ma. apply Tr in I as [I _]. apply (as_l0 _ _ _ A l a); auto.
    + change (trail s') with (firstn m (trail s)). change (qhead s') with m. rewrite Lm. split; auto. rewrite skipn_all2 by lia. intros l [].
  - destruct X as [E1 E2 E3 E4 E5 E6]. constructor; auto.
    + intros v L N. change (heap s') with h. change (val_ s' v) with (vl v) in N. rewrite V in N. destruct (existsb (fun l => fst l =? v) (skipn m (trail s))) eqn:B; [|apply H1, E3; auto].
      apply existsb_exists in B as (l & I & El). apply Nat.eqb_eq in El. subst v. apply H3; auto.
    + intros v I. destruct (H2 v I) as [Y|(l & Y & <-)]; [apply E4; auto|]. apply In_skipn in Y. apply (as_vars _ _ _ A); auto.
    + intros u I. destruct (E5 u I) as [Y Z]. split; auto. apply Tr. split; auto. lia.
  - intros q c I Wc. right. change (qhead s') with m in I. change (trail s') with (firstn m (trail s)) in I. rewrite firstn_firstn, Nat.min_id in I. assert (I' := I). apply Tr in I' as [I' Lq'].
    destruct (P q c) as [Z|Z]; [|auto|lia|].
    { destruct (In_firstn_nth _ _ _ I) as (j & Hj & Nj). eapply nth_In_firstn; [exact Nj|lia]. }
    revert Z. unfold wok. change (db s') with (db s). change (lev s') with (lev s). destruct (c_atm (db s c)).
    + intros Z. etransitivity; [exact Z|]. apply filter_le. intros x _ Y. apply andb_true_iff in Y as [Y1 Y2]. rewrite Y2, andb_true_r. apply isF_fls, Fv. split; [apply isF_fls; auto|]. apply Nat.leb_le in Y2. lia.
    + intros (t & T1 & T2 & T3). exists t. split; auto. split; auto. apply Tv. split; auto. lia.
  - constructor; auto; [intros; apply cperm_refl|]. exists []. cbn. rewrite app_nil_r; auto.
Qed.
