(** * Adding variables and constraints to the core solver *)
From Coq Require Import List Bool Arith Lia ZArith Permutation.
From Verif Require Import Sat SatInv SatProp SatAna SatMin SatSearch SatAttach SatLoop SatFind SatSolve.
Import ListNotations.

(** ** What every operation except for loading a state keeps *)
Record Ext (s s' : sat) : Prop := {
  xt_cl : exists cl, clauses s' = clauses s ++ cl;
  xt_un : exists us, units s' = units s ++ us;
  xt_nv : nvars s <= nvars s';
  xt_nc : nextc s <= nextc s';
  xt_db : forall c, c < nextc s -> cperm (db s c) (db s' c);
  xt_le : forall c, In c (learnts s') -> In c (learnts s) \/ (stateId s <= c_st (db s' c))%Z;
  xt_id : (stateId s <= stateId s')%Z }.
Lemma xt_refl : forall s, Ext s s.
Proof. intros s. constructor; auto; try lia; try (exists []; rewrite app_nil_r; auto). intros; apply cperm_refl. Qed.
Lemma xt_trans : forall s t u, Ext s t -> Ext t u -> Wat t -> Ext s u.
Proof.
  intros s t u [(c1 & A1) (u1 & A2) A3 A4 A5 A6 A7] [(c2 & B1) (u2 & B2) B3 B4 B5 B6 B7] W. constructor; try lia.
  - exists (c1 ++ c2). rewrite B1, A1, app_assoc; auto.
  - exists (u1 ++ u2). rewrite B2, A2, app_assoc; auto.
  - intros c L. eapply cperm_trans; [apply A5; auto|apply B5; lia].
  - intros c I. destruct (B6 c I) as [X|X]; [|right; lia]. destruct (A6 c X) as [Y|Y]; auto. right. destruct (B5 c) as (_ & _ & _ & Z); [apply (wt_lt _ W); apply in_or_app; auto|]. rewrite <- Z. auto.
Qed.
Lemma xt_fr : forall s s', Fr s s' -> Ext s s'.
Proof.
  intros s s' F. pose proof (fr_same _ _ F) as E. inversion E. destruct F as [_ F2 F3 F4 F5 _]. constructor; auto; try lia.
  - exists []. rewrite app_nil_r; auto.
  - intros c I. destruct (F5 c I); auto. right. lia.
Qed.
Lemma xt_frok : forall s s', frOk s s' -> Ext s s'.
Proof. intros s s' F. pose proof (xt_fr _ _ F) as []. constructor; auto. Qed.

(** ** New variables *)
Lemma wat_heap : forall h s, Wat s -> Wat (with_heap h s). Proof. intros h s []. constructor; assumption. Qed.
Lemma asg_heap : forall M E h s, Asg M E s -> Asg M E (with_heap h s). Proof. intros M E h s []. constructor; assumption. Qed.
Lemma wset_var : forall nv d p, clauseOK nv d -> In p (wset d) -> fst p < nv.
Proof.
  intros nv d p (_ & _ & C & _) I. unfold wset in I. destruct (c_atm d); [apply C; eapply In_firstn; eauto|]. apply in_map_iff in I as (q & <- & I). rewrite fst_neg. apply C. eapply In_firstn; eauto.
Qed.
Definition new1 (sign : bool) (s : sat) : sat := let v := nvars s in
    (with_nvars (S v) (with_val (upd (val_ s) v None) (with_lvl (upd (lvl s) v 1) (with_rsn (upd (rsn s) v None) (with_pol (upd (pol s) v sign) (with_dec (upd (dec s) v true)
    (with_seen (upd (seen s) v false) (with_wat (updl (updl (wat s) (v, false) []) (v, true) []) (with_wbin (updl (updl (wbin s) (v, false) []) (v, true) []) s))))))))).
Section New.
Variables (s : sat) (sign : bool).
Hypothesis W : Wat s.
Let s1 := new1 sign s.
Lemma new_val : forall l, fst l < nvars s -> val s1 l = val s l /\ lev s1 l = lev s l /\ rsn s1 (fst l) = rsn s (fst l).
Proof. intros l L. unfold val, lev, s1, new1. cbn. rewrite !upd_other by lia. auto. Qed.
Lemma new_wat : forall p, wat s1 p = wat s p /\ wbin s1 p = wbin s p.
Proof.
  intros p. assert (H : fst p = nvars s -> wat s p = [] /\ wbin s p = []).
  { intros E. split; [destruct (wat s p) as [|[c b] r] eqn:X|destruct (wbin s p) as [|[c b] r] eqn:X]; auto; exfalso.
    - destruct (wt_bw _ W p c b) as (A & _ & B & _); [rewrite X; left; auto|]. apply (wset_var _ _ _ (wt_cl _ W c A)) in B. lia.
    - destruct (wt_bwb _ W p c b) as (A & _ & B & _); [rewrite X; left; auto|]. apply (wset_var _ _ _ (wt_cl _ W c A)) in B. lia. }
  unfold s1, new1. cbn. unfold updl. destruct (slit_eqb p (nvars s, true)) eqn:E1; [apply slit_eqb_eq in E1; subst p; destruct (H eq_refl) as [-> ->]; auto|].
  destruct (slit_eqb p (nvars s, false)) eqn:E2; [apply slit_eqb_eq in E2; subst p; destruct (H eq_refl) as [-> ->]; auto|]. auto.
Qed.
Lemma new_Wat : Wat s1.
Proof.
  destruct W as [N L C Fw Fwb Bw Bwb O Ob Bk]. constructor; auto.
  - intros c I. destruct (C c I) as (C1 & C2 & C3 & C4). split; auto. split; auto. split; auto. intros l Il. apply C3 in Il. unfold s1. cbn. lia.
  - intros c p. rewrite (proj1 (new_wat p)). auto.
  - intros c p. rewrite (proj2 (new_wat p)). auto.
  - intros p c b. rewrite (proj1 (new_wat p)). apply Bw.
  - intros p c b. rewrite (proj2 (new_wat p)). apply Bwb.
  - intros p c. rewrite (proj1 (new_wat p)). apply O.
  - intros p c. rewrite (proj2 (new_wat p)). apply Ob.
  - intros c I At Lc. destruct (Bk c I At Lc) as (p & t & X & Y). exists p, t. rewrite (proj1 (new_wat p)). auto.
Qed.
Lemma new_wok : forall q c, In c (att s) -> fst q < nvars s -> wok s q c -> wok s1 q c.
Proof.
  intros q c Ic Lq. destruct (wt_cl _ W c Ic) as (_ & _ & C3 & _). unfold wok. change (db s1) with (db s). destruct (c_atm (db s c)).
  - intros H. etransitivity; [exact H|]. apply filter_le. intros x Ix. apply In_firstn in Ix. unfold isF. destruct (new_val x (C3 x Ix)) as (-> & -> & _). destruct (new_val q Lq) as (_ & -> & _). auto.
  - intros (t & Bt & Tt & Lt). pose proof (blk_in _ _ _ _ W Bt) as It. exists t. split; [unfold blk; rewrite (proj1 (new_wat q)); exact Bt|]. unfold tru. destruct (new_val t (C3 t It)) as (-> & -> & _). destruct (new_val q Lq) as (_ & -> & _). auto.
Qed.
Lemma new_tru : forall M, Asg M E0 s -> forall l, tru s1 l <-> tru s l.
Proof.
  intros M A l. destruct (Nat.eq_dec (fst l) (nvars s)) as [E|E].
  - split; intros T; exfalso.
    + unfold tru, val, s1, new1 in T. cbn in T. rewrite E, upd_same in T. discriminate.
    + apply (as_val _ _ _ A) in T. apply (as_vars _ _ _ A) in T. lia.
  - unfold tru, val, s1, new1. cbn. rewrite upd_other by auto. tauto.
Qed.
Lemma new_asg : forall M, Asg M E0 s -> tlim s = [] -> Asg M E0 s1.
Proof.
  intros M A T. pose proof (new_tru M A) as Tr. destruct A as [A1 A2 A3 A4 A5 A6 A7 A8 A9 A10]. assert (Lv : forall l, In l (trail s) -> lev s1 l = lev s l) by (intros l I; apply new_val; auto).
  assert (D : dl s1 = 0) by (unfold dl; change (tlim s1) with (tlim s); rewrite T; auto). assert (D' : dl s = 0) by exact D.
  constructor; auto.
  - intros l. rewrite Tr. apply A1.
  - intros l I. apply A2 in I. unfold s1; cbn; lia.
  - intros l I. rewrite Lv by auto. apply A3; auto.
  - change (tlim s1) with (tlim s). rewrite T. intros [|k] m X; discriminate.
  - intros i j l Hi Hj. rewrite Lv by (eapply nth_error_In; eauto). eauto.
  - intros pre l post c Et R. change (trail s1) with (trail s) in Et. assert (Il : In l (trail s)) by (rewrite Et; apply in_elt). destruct (new_val l (A2 l Il)) as (_ & El & Er). rewrite Er in R. specialize (A6 pre l post c Et R). revert A6.
    apply reasonOK_mono; auto; try (intros; apply cperm_refl). intros q Iq At [Y|[[Y1 Y2]|[[] _]]]; auto. right; left.
    assert (Lq : fst q < nvars s). { apply tru_neg, A1, A2 in Y1. auto. } destruct (new_val q Lq) as (E1 & E2 & _). unfold fls. rewrite E1, E2, El. auto.
  - intros i l X R L. exfalso. pose proof (nth_error_In _ _ X) as Il. rewrite Lv in L by auto. apply A3 in Il. lia.
  - intros i l X L. rewrite D in L. lia.
  - intros l a Il. rewrite Lv by auto. auto.
  - change (qhead s1) with (qhead s). change (trail s1) with (trail s). destruct A10 as [Q1 Q2]. split; auto. intros l I. rewrite D. rewrite Lv by (eapply In_skipn; eauto). rewrite Q2 by auto. auto.
Qed.
Lemma new_ent : forall M, entAll M s -> entAll M s1.
Proof. intros M En c I. change (db s1 c) with (db s c). apply En. exact I. Qed.
Lemma new_Proc : forall M, Asg M E0 s -> Proc s NoE -> Proc s1 NoE.
Proof.
  intros M A Pr q c I Wc. right. change (In q (firstn (qhead s) (trail s))) in I. destruct (new_wat q) as [E E']. rewrite E, E' in Wc.
  destruct (Pr q c I Wc) as [[]|Y]. assert (Ic : In c (att s)). { destruct Wc as [X|X]; apply map_fst_In in X as (b & X); [apply (wt_bw _ W) in X|apply (wt_bwb _ W) in X]; tauto. }
  assert (Lq : fst q < nvars s) by (apply (as_vars _ _ _ A); eapply In_firstn; exact I). exact (new_wok q c Ic Lq Y).
Qed.
End New.
Lemma proc_heap : forall h s E, Proc s E -> Proc (with_heap h s) E. Proof. intros h s E H. exact H. Qed.
Lemma ent_heap : forall h s M, entAll M s -> entAll M (with_heap h s). Proof. intros h s M H. exact H. Qed.
(** what the new state's fields are *)
Lemma new_fields : forall s sign, let t := new1 sign s in
  seen t = upd (seen s) (nvars s) false /\ dec t = upd (dec s) (nvars s) true /\ nvars t = S (nvars s) /\ val_ t = upd (val_ s) (nvars s) None /\
  heap t = heap s /\ units t = units s /\ trail t = trail s /\ learnts t = learnts s /\ db t = db s /\ stateId t = stateId s.
Proof. intros s sign. repeat split. Qed.
Lemma new_ex : forall s t h, seen t = upd (seen s) (nvars s) false -> dec t = upd (dec s) (nvars s) true -> nvars t = S (nvars s) -> val_ t = upd (val_ s) (nvars s) None ->
  units t = units s -> trail t = trail s -> learnts t = learnts s -> db t = db s -> stateId t = stateId s ->
  (forall u, In u (units s) -> lev t u = lev s u) -> h = nvars s :: heap s -> Ex s -> Ex (with_heap h t).
Proof.
  intros s t h F1 F2 F3 F4 F5 F6 F7 F8 F9 Lv -> [E1 E2 E3 E4 E5 E6].
  constructor; cbn [with_heap seen dec nvars val_ heap units trail learnts db stateId]; rewrite ?F1, ?F2, ?F3, ?F4, ?F5, ?F6, ?F7, ?F8, ?F9; auto.
  - intros v. unfold upd. destruct (v =? nvars s); auto.
  - intros v. unfold upd. destruct (Nat.eqb_spec v (nvars s)); auto. intros; apply E2; lia.
  - intros v L N. unfold upd in N. destruct (Nat.eqb_spec v (nvars s)) as [|Nv]; [left; auto|right; apply E3; auto; lia].
  - intros v [<-|I]; [lia|apply E4 in I; lia].
  - intros u I. destruct (E5 u I) as [X Y]. split; auto. rewrite <- Y. change (lev (with_heap (nvars s :: heap s) t) u) with (lev t u). auto.
Qed.
Lemma new_inv : forall s sign, Wat s -> forall M, searchInv M s -> tlim s = [] -> searchInv M (with_heap (nvars s :: heap s) (new1 sign s)).
Proof.
  intros s sign W M ([A W0 En] & E & Pr) T. pose proof (new_asg s sign M A T) as A1. pose proof (new_Wat s sign W) as W1. pose proof (new_ent s sign M En) as En1. pose proof (new_Proc s sign W M A Pr) as Pr1.
  assert (Lv : forall u, In u (units s) -> lev (new1 sign s) u = lev s u) by (intros u I; apply new_val; apply (as_vars _ _ _ A); apply (ex_units _ E u I)).
  destruct (new_fields s sign) as (F1 & F2 & F3 & F4 & _ & F5 & F6 & F7 & F8 & F9). revert A1 W1 En1 Pr1 Lv F1 F2 F3 F4 F5 F6 F7 F8 F9.
  generalize (new1 sign s) as t. intros t. intros. split; [|split].
  - constructor; [apply asg_heap; exact A1|apply wat_heap; exact W1|apply ent_heap; exact En1].
  - apply (new_ex s t _ F1 F2 F3 F4 F5 F6 F7 F8 F9 Lv eq_refl E).
  - apply proc_heap. exact Pr1.
Qed.
Lemma insert_new : forall v s, inN v (heap s) = false -> dec s v = true -> insertVarOrder v s = with_heap (v :: heap s) s.
Proof. intros v s H D. unfold insertVarOrder. rewrite H, D. reflexivity. Qed.
Lemma newVar_eq : forall sign s, inN (nvars s) (heap s) = false -> newVar sign true s = Ret (nvars s) (with_heap (nvars s :: heap s) (new1 sign s)).
Proof.
  intros sign s H. transitivity (Ret (nvars s) (insertVarOrder (nvars s) (new1 sign s))); [reflexivity|]. rewrite insert_new; [reflexivity|exact H|]. change (upd (dec s) (nvars s) true (nvars s) = true). apply upd_same.
Qed.
Lemma new_base : forall sign s, Base s -> Base (with_heap (nvars s :: heap s) (new1 sign s)).
Proof.
  intros sign s [B1 B2 B3 B4 B5 B6 B7]. constructor; auto.
  - apply wat_heap, new_Wat; auto.
  - intros v. change (upd (seen s) (nvars s) false v = false). unfold upd. destruct (v =? nvars s); auto.
  - intros v L. change (upd (dec s) (nvars s) true v = true). change (v < S (nvars s)) in L. unfold upd. destruct (Nat.eqb_spec v (nvars s)); auto. apply B4; lia.
  - intros v I. change (v < S (nvars s)). destruct I as [<-|I]; [lia|apply B5 in I; lia].
  - intros v L. change (S (nvars s) <= v) in L. change (upd (val_ s) (nvars s) None v = None). rewrite upd_other by lia. apply B7. lia.
Qed.
Lemma new_ext : forall sign s, Ext s (with_heap (nvars s :: heap s) (new1 sign s)).
Proof.
  intros. constructor; auto.
  - exists []. symmetry. apply app_nil_r.
  - exists []. symmetry. apply app_nil_r.
  - change (nvars s <= S (nvars s)). lia.
  - intros; apply cperm_refl.
  - apply Z.le_refl.
Qed.
Lemma newVar_ok : forall M sign s, LInv M s -> wp (newVar sign true) s (fun v s' => v = nvars s /\ LInv M s' /\ Ext s s' /\ nvars s' = S (nvars s) /\ stateId s' = stateId s /\ validStates s' = validStates s /\ assumps s' = assumps s /\ db s' = db s).
Proof.
  intros M sign s [B H]. unfold wp. rewrite newVar_eq.
  2:{ destruct (inN (nvars s) (heap s)) eqn:X; auto. apply inN_in in X. apply (ba_hv _ B) in X. lia. }
  split; auto. split; [split; [apply new_base; auto|]|split; [apply new_ext|repeat split]].
  change (ok (with_heap (nvars s :: heap s) (new1 sign s))) with (ok s). destruct (ok s); auto. destruct H as (S1 & Q & C). split; [apply new_inv; auto; apply B|]. split; auto.
Qed.
(** ** Stronger constraints *)
Lemma reasonOK_m : forall (M M' : (nat -> bool) -> Prop) E s pre l c, (forall a, M' a -> M a) -> reasonOK M E s pre l c -> reasonOK M' E s pre l c.
Proof. intros M M' E s pre l c H (R1 & R2 & R3). split; auto. split; auto. intros a Ma. apply R2; auto. Qed.
Lemma si_mono : forall (M M' : (nat -> bool) -> Prop) s, (forall a, M' a -> M a) -> searchInv M s -> searchInv M' s.
Proof.
  intros M M' s H ([A W En] & X & Pr). split; [|split; auto]. constructor; auto; [|intros c I a Ma; apply En; auto].
  destruct A as [A1 A2 A3 A4 A5 A6 A7 A8 A9 A10]. constructor; auto. intros pre l post c Et R. eapply reasonOK_m; eauto.
Qed.
(** ** Sorting *)
Lemma leb_refl : forall l, slit_leb l l = true.
Proof. intros [v b]. unfold slit_leb. cbn. rewrite Nat.eqb_refl. destruct b; cbn; apply orb_true_r. Qed.
Lemma leb_spec : forall l m, slit_leb l m = true <-> fst l < fst m \/ (fst l = fst m /\ (snd l = false \/ snd m = true)).
Proof. intros [v b] [w c]. unfold slit_leb. cbn [fst snd]. rewrite orb_true_iff, andb_true_iff, orb_true_iff, Nat.ltb_lt, Nat.eqb_eq, negb_true_iff. tauto. Qed.
Lemma leb_trans : forall l m k, slit_leb l m = true -> slit_leb m k = true -> slit_leb l k = true.
Proof. intros [v b] [w c] [x d]. rewrite !leb_spec. cbn. destruct b, c, d; intuition (try lia; try discriminate). Qed.
Lemma leb_antisym : forall l m, slit_leb l m = true -> slit_leb m l = true -> l = m.
Proof. intros [v b] [w c]. rewrite !leb_spec. cbn. intros H1 H2. assert (v = w) by lia. subst. f_equal. destruct b, c; intuition (try lia; try discriminate). Qed.
Lemma leb_total : forall l m, slit_leb l m = false -> slit_leb m l = true.
Proof. intros [v b] [w c] H. rewrite <- not_true_iff_false, leb_spec in H. rewrite leb_spec. cbn in *. destruct b, c; lia || (destruct (Nat.lt_trichotomy v w) as [?|[?|?]]; intuition). Qed.
Fixpoint Srt (l : list slit) : Prop := match l with [] => True | x :: r => (forall y, In y r -> slit_leb x y = true) /\ Srt r end.
Lemma insertL_in : forall l ls x, In x (insertL l ls) <-> x = l \/ In x ls.
Proof. intros l. induction ls as [|m r IH]; cbn; [intuition|]. intros x. destruct (slit_leb l m); cbn; [intuition|]. rewrite IH. intuition. Qed.
Lemma sortL_in : forall ls x, In x (sortL ls) <-> In x ls.
Proof. induction ls as [|m r IH]; cbn; [tauto|]. intros x. rewrite insertL_in, IH. intuition. Qed.
Lemma insertL_srt : forall l ls, Srt ls -> Srt (insertL l ls).
Proof.
  intros l. induction ls as [|m r IH]; cbn; [intuition|]. intros [H1 H2]. destruct (slit_leb l m) eqn:E; cbn.
  - split; [intros y [<-|I]; auto; eapply leb_trans; eauto|auto].
  - split; [intros y I; apply insertL_in in I as [->|I]; auto; apply leb_total; auto|auto].
Qed.
Lemma sortL_srt : forall ls, Srt (sortL ls). Proof. induction ls; cbn; auto. apply insertL_srt; auto. Qed.
Lemma insertL_perm : forall l ls, Permutation (insertL l ls) (l :: ls).
Proof. intros l. induction ls as [|m r IH]; cbn; auto. destruct (slit_leb l m); auto. rewrite IH. apply perm_swap. Qed.
Lemma sortL_perm : forall ls, Permutation (sortL ls) ls.
Proof. induction ls; cbn; auto. rewrite insertL_perm. auto. Qed.
(** ** Clauses *)
Definition respects (a : nat -> bool) (s : sat) : Prop := forall l, tru s l -> alit a l = true.
Definition isP (p : option slit) (l : slit) : Prop := p = Some l.
Lemma simplifyNew_ok : forall s a ls p, respects a s ->
  match simplifyNew s ls p with
  | None => exists l, (In l ls \/ isP p l) /\ alit a l = true
  | Some ks => ((exists l, (In l ls \/ isP p l) /\ alit a l = true) <-> exists l, (In l ks \/ isP p l) /\ alit a l = true)
  end.
Proof.
  intros s a. induction ls as [|l r IH]; intros p R; cbn [simplifyNew]; [tauto|].
  destruct (isT s l) eqn:T; [exists l; cbn; split; auto; apply R, isT_tru; auto|].
  destruct (match p with Some p0 => slit_eqb l (neg p0) | None => false end) eqn:N; cbn [orb].
  { destruct p as [p|]; [|discriminate]. apply slit_eqb_eq in N. subst l. destruct (alit a p) eqn:Ap; [exists p; unfold isP; cbn; auto|]. exists (neg p). split; [left; left; auto|]. rewrite alit_neg, Ap; auto. }
  destruct (isF s l) eqn:F; cbn [negb andb].
  - specialize (IH p R). assert (Fl : alit a l = false). { apply isF_fls, tru_neg, R in F. rewrite alit_neg in F. destruct (alit a l); auto. }
    destruct (simplifyNew s r p); [rewrite <- IH|destruct IH as (x & [I|I] & A); exists x; cbn; auto]. split; intros (x & [I|I] & A); exists x; cbn; auto. destruct I as [<-|I]; [congruence|auto].
  - destruct (match p with Some p0 => slit_eqb l p0 | None => false end) eqn:P; cbn [negb].
    + destruct p as [p|]; [|discriminate]. apply slit_eqb_eq in P. subst l. specialize (IH (Some p) R). destruct (simplifyNew s r (Some p)); [rewrite <- IH|destruct IH as (x & [I|I] & A); exists x; cbn; auto].
      split; intros (x & [I|I] & A); exists x; cbn; auto. destruct I as [<-|I]; auto. unfold isP; auto.
    + specialize (IH (Some l) R). destruct (simplifyNew s r (Some l)) as [ks|]; cbn [option_map].
      * assert (X : forall x, isP (Some l) x <-> l = x) by (intros x; unfold isP; split; congruence). destruct IH as [I1 I2]. split.
        -- intros (x & [I|I] & A); [|exists x; auto]. destruct I1 as (y & Y & B); [exists x; rewrite X; cbn in I; split; auto; tauto|]. exists y. rewrite X in Y. cbn. split; auto; tauto.
        -- intros (x & [I|I] & A); [|exists x; auto]. destruct I2 as (y & Y & B); [exists x; rewrite X; cbn in I; split; auto; tauto|]. exists y. rewrite X in Y. cbn. split; auto; tauto.
      * destruct IH as (x & [I|I] & A); exists x; cbn; auto. inversion I; subst. auto.
Qed.
Lemma simplifyNew_lits : forall s ls p ks, Srt ls -> (forall q, p = Some q -> forall l, In l ls -> slit_leb q l = true) -> simplifyNew s ls p = Some ks ->
  NoDup ks /\ forall l, In l ks -> In l ls /\ val s l = None /\ p <> Some l.
Proof.
  intros s. induction ls as [|l r IH]; intros p ks HS Hp E; cbn [simplifyNew] in E; [inversion E; split; [constructor|intros l []]|]. destruct HS as [S1 S2].
  destruct (isT s l || _) eqn:T in E; [discriminate|]. apply orb_false_iff in T as [T _].
  destruct (negb (isF s l) && _) eqn:F in E.
  - apply andb_true_iff in F as [F1 F2]. destruct (simplifyNew s r (Some l)) as [ks'|] eqn:E'; [|discriminate]. cbn in E. inversion E; subst ks. clear E.
    destruct (IH (Some l) ks' S2) as [N K]; auto. { intros q X. inversion X; subst. auto. }
    split; [constructor; auto; intros I; apply K in I as (_ & _ & X); congruence|]. intros x [<-|I].
    + split; [left; auto|]. split; [unfold isT, isF in *; destruct (val s l) as [[]|]; auto; discriminate|]. destruct p as [p|]; [|discriminate]. intros X. inversion X; subst. rewrite slit_eqb_refl in F2. discriminate.
    + destruct (K x I) as (X1 & X2 & X3). split; [right; auto|]. split; auto. intros ->. apply X3. f_equal. apply leb_antisym; [apply S1; auto|apply (Hp x eq_refl); left; auto].
  - destruct (IH p ks S2) as [N K]; auto. { intros q X y Iy. apply (Hp q X). right; auto. } split; auto. intros x I. destruct (K x I) as (X1 & X2). split; [right; auto|auto].
Qed.
Lemma resp_top : forall (M : (nat -> bool) -> Prop) s a, Asg M E0 s -> tlim s = [] -> M a -> respects a s.
Proof. intros M s a A T Ma l Tl. apply (as_val _ _ _ A) in Tl. apply (as_l0 _ _ _ A); auto. apply (as_lev _ _ _ A) in Tl. unfold dl in Tl. rewrite T in Tl. cbn in Tl. lia. Qed.
Lemma si_enq0 : forall M l s, searchInv M s -> tlim s = [] -> val s l = None -> fst l < nvars s -> (forall a, M a -> alit a l = true) -> searchInv M (enq l None s).
Proof.
  intros M l s ([A W En] & X & Pr) T V L H. split; [constructor|split].
  - apply enq_asg; auto; [discriminate|]. intros _ D. unfold dl in D. rewrite T in D. cbn in D; lia.
  - apply enq_wat; auto.
  - exact En.
  - apply ex_enq; auto. intros m. apply (as_val _ _ _ A).
  - apply (enq_proc M E0 l None s NoE); auto.
Qed.
Lemma si_unit : forall M l s, searchInv M s -> In l (trail s) -> lev s l = 0 -> searchInv M (with_units (units s ++ [l]) s).
Proof. intros M l s (P & X & Pr) I L. split; [apply pi_units; auto|]. split; [apply ex_unit; auto|apply proc_units; auto]. Qed.
Lemma xt_unit : forall us s, Ext s (with_units (units s ++ us) s).
Proof. intros. constructor; auto; [exists []; symmetry; apply app_nil_r|exists us; auto|intros; apply cperm_refl|apply Z.le_refl]. Qed.
(** the fields that only concern the calls of the user *)
Definition meta (s : sat) := (nvars s, stateId s, validStates s, assumps s).
(** the end of adding unit literals: propagation, then the flag is set *)
Lemma flag_ok : forall M n s, searchInv M s -> tlim s = [] ->
  wp (c <-- propagate n ;; modify (with_ok (match c with Some _ => false | None => true end))) s
     (fun _ s' => exists t, s' = with_ok (ok s') t /\ Fr s t /\ Base t /\ trail t = trail t /\ (forall l, tru s l -> tru t l /\ lev t l = lev s l) /\ (if ok s' then searchInv M t /\ qhead t = length (trail t) else forall a, ~ M a)).
Proof.
  intros M n s (P & X & Pr) T. apply wp_bind. eapply wp_mono; [apply (propagate_ok M n s P Pr)|]. intros c t (P1 & K1 & H1). apply wp_modify. exists t. split; [reflexivity|]. split; [apply pk_fr; auto|].
  assert (X1 : Ex t). { eapply ex_pk; eauto. intros l Il. apply (as_val _ _ _ (pi_asg _ _ P)); auto. } assert (D : dl t = 0) by (unfold dl; pk K1; replace (tlim t) with (tlim s) by congruence; rewrite T; auto).
  split; [apply (base_inv M); auto|]. split; auto. split; [intros l Tl; split; [apply (pk_val _ _ K1); auto|apply (pk_lev _ _ K1); auto]|].
  destruct c as [c|].
  - change (forall a, ~ M a). eapply confl_unsat; [exact P1|apply H1|exact D].
  - destruct H1 as [Q1 Pr1]. split; auto. split; auto.
Qed.
Lemma frmeta : forall s t, Fr s t -> meta t = meta s. Proof. intros s t F. unfold meta. fr F. congruence. Qed.
Lemma comp_ok : forall M b s, Comp M s -> Comp M (with_ok b s). Proof. auto. Qed.
Lemma si_ok : forall M b s, searchInv M s -> searchInv M (with_ok b s).
Proof. intros M x s ([[] [] En] & [] & Pr). split; [constructor; [constructor; assumption|constructor; assumption|assumption]|]. split; [constructor; assumption|exact Pr]. Qed.
Lemma si_units : forall M us s, searchInv M s -> (forall l, In l us -> In l (trail s) /\ lev s l = 0) -> searchInv M (with_units us s).
Proof. intros M us s (P & [] & Pr) H. split; [apply pi_units; auto|]. split; [constructor; auto|apply proc_units; auto]. Qed.
Lemma xt_ok : forall b s, Ext s (with_ok b s).
Proof. intros. constructor; auto; try (exists []; symmetry; apply app_nil_r); [intros; apply cperm_refl|apply Z.le_refl]. Qed.
Definition grows (s s' : sat) : Prop := Ext s s' /\ meta s' = meta s.
(** a longer clause or an at-most constraint *)
Lemma grow_ok : forall (M M' : (nat -> bool) -> Prop) d s, searchInv M s -> tlim s = [] -> qhead s = length (trail s) -> Comp M s -> clauseOK (nvars s) d -> (forall l, In l (c_lits d) -> val s l = None) -> (c_st d <= stateId s)%Z ->
  (forall a, M' a -> M a) -> ent M' d -> (forall a, M a -> csat a d -> M' a) ->
  exists W B, attach (nextc s) (with_clauses (clauses s ++ [nextc s]) (added d s)) = Ret tt (grown W B (clauses s ++ [nextc s]) (learnts s) d s) /\
    let s' := grown W B (clauses s ++ [nextc s]) (learnts s) d s in searchInv M' s' /\ Comp M' s' /\ Ext s s' .
Proof.
  intros M M' d s H T Q Cm Cd Un Hs Hm Ed Hc. pose proof (si_mono M M' s Hm H) as ([A W0 En] & X & Pr).
  assert (Nn : ~ In (nextc s) (clauses s ++ learnts s)) by (intros Y; apply (wt_lt _ W0) in Y; lia).
  assert (Ha : forall x, In x ((clauses s ++ [nextc s]) ++ learnts s) <-> In x (att s) \/ x = nextc s). { intros x. unfold att. rewrite !in_app_iff. cbn. intuition. }
  destruct (attach_ok s d (clauses s ++ [nextc s]) (learnts s) W0 Cd Ha) as (W & B & Ea & Wn & Hwb & Hk); [apply NoDup_snoc2; auto; apply (wt_nd _ W0)|].
  exists W, B. split; [exact Ea|]. cbv zeta. assert (Old : forall c, In c (att s) -> db (grown W B (clauses s ++ [nextc s]) (learnts s) d s) c = db s c) by (intros c I; apply grown_old; apply (wt_lt _ W0) in I; lia).
  split; [split; [constructor|split]|split].
  - apply asg_grown; auto.
  - exact Wn.
  - apply ent_grown; auto.
  - apply ex_grown; auto.
  - intros q c I Wc. destruct (proc_grown W B (clauses s ++ [nextc s]) (learnts s) d s W0 Hwb Hk Pr q c I Wc) as [[-> Wq]|Y]; [|right; exact Y]. exfalso.
    assert (Tq : tru s q) by (apply (as_val _ _ _ A); eapply In_firstn; exact I). assert (N : val s q = None). { unfold wset in Wq. destruct (c_atm d); [apply Un; eapply In_firstn; eauto|]. apply in_map_iff in Wq as (w & <- & Iw). rewrite val_neg, Un; auto. eapply In_firstn; eauto. } unfold tru in Tq. congruence.
  - intros a H1 H2. apply Hc.
    + apply Cm; [|exact H2]. intros c I. rewrite <- Old by (apply in_or_app; auto). apply H1. apply in_or_app; auto.
    + rewrite <- (grown_new W B (clauses s ++ [nextc s]) (learnts s) d s). apply H1. apply in_or_app. right; left; auto.
  - constructor; auto.
    + exists [nextc s]. reflexivity.
    + exists []. symmetry; apply app_nil_r.
    + change (nextc s <= S (nextc s)). lia.
    + intros c L. rewrite grown_old by lia. apply cperm_refl.
    + apply Z.le_refl.
Qed.
Lemma linv_true : forall M s, Wat s -> dl s = 0 -> ok s = true -> searchInv M s -> qhead s = length (trail s) -> Comp M s -> LInv M s.
Proof. intros M s W D O H Q C. split; [apply (base_inv M); auto; apply H|]. rewrite O. auto. Qed.
Lemma linv_false : forall M s, Base s -> (forall a, ~ M a) -> LInv M (with_ok false s).
Proof. intros M s B U. split; [apply base_ok; auto|exact U]. Qed.
Lemma linv_sub : forall (M M' : (nat -> bool) -> Prop) s, LInv M s -> (forall a, M' a <-> M a) -> LInv M' s.
Proof.
  intros M M' s [B H] E. split; auto. destruct (ok s); [|intros a Ma; apply (H a), E; auto]. destruct H as (S1 & Q & C). split; [eapply si_mono; [|exact S1]; intros; apply E; auto|]. split; auto. intros a H1 H2. apply E. apply C; auto.
Qed.
Lemma base_units : forall us s, Base s -> Base (with_units us s).
Proof. intros us s [[] B2 B3 B4 B5 B6 B7]. constructor; auto. constructor; assumption. Qed.
Lemma wat_units : forall us s, Wat s -> Wat (with_units us s). Proof. intros us s []. constructor; assumption. Qed.
Lemma grows_refl : forall s, grows s s. Proof. intros; split; [apply xt_refl|auto]. Qed.
Lemma addClause_ok : forall (M M' : (nat -> bool) -> Prop) n ps s, LInv M s -> (0 <= stateId s)%Z -> (forall l, In l ps -> fst l < nvars s) -> (forall a, M' a <-> M a /\ exists l, In l ps /\ alit a l = true) ->
  wp (addClause n ps) s (fun b s' => LInv M' s' /\ grows s s' /\ b = ok s' /\ (forall P : clause -> Prop, (forall d d', cperm d d' -> P d -> P d') -> (forall d, c_atm d = false -> P d) -> (forall c, P (db s c)) -> forall c, P (db s' c))).
Proof.
  intros M M' n ps s L Id Hv HM. unfold addClause, wp. destruct (ok s) eqn:Ok; cbn [negb].
  2:{ destruct L as [B H]. rewrite Ok in H. split; [split; auto; rewrite Ok; intros a Ma; apply HM in Ma as [Ma _]; eapply H; eauto|]. split; [apply grows_refl|auto]. }
  pose proof L as [B H]. rewrite Ok in H. destruct H as (S0 & Q & C). pose proof (ba_tlim _ B) as T. pose proof (ba_wat _ B) as W. pose proof S0 as ([A _ _] & _ & _).
  assert (Sm : forall a, M' a -> M a) by (intros a Ma; apply HM in Ma; tauto).
  assert (Sp : forall a, M a -> match simplifyNew s (sortL ps) None with None => M' a | Some ks => M' a <-> exists l, In l ks /\ alit a l = true end).
  { intros a Ma. pose proof (simplifyNew_ok s a (sortL ps) None (resp_top M s a A T Ma)) as X.
    assert (E : (exists l, (In l (sortL ps) \/ isP None l) /\ alit a l = true) <-> exists l, In l ps /\ alit a l = true). { split; intros (l & I & Al); exists l; [destruct I as [I|I]; [|discriminate]; split; auto; apply sortL_in; auto|split; auto; left; apply sortL_in; auto]. }
    destruct (simplifyNew s (sortL ps) None) as [ks|]; [|apply HM; split; auto; apply E; auto]. rewrite HM, <- E, X. split; [intros (_ & l & [I|I] & Al); [exists l; auto|discriminate]|]. intros (l & I & Al). split; auto. exists l. auto. }
  pose proof (simplifyNew_lits s (sortL ps) None) as Ks. destruct (simplifyNew s (sortL ps) None) as [ks|] eqn:Es.
  2:{ split; [eapply linv_sub; [exact L|]; intros a; split; auto|]. split; [apply grows_refl|]. auto. }
  destruct (Ks ks (sortL_srt ps) ltac:(discriminate) eq_refl) as [Nd Kl]. assert (Kv : forall l, In l ks -> fst l < nvars s) by (intros l I; apply Hv, sortL_in, Kl; auto).
  destruct ks as [|l [|m r]].
  - split; [apply linv_false; auto; intros a Ma; apply (Sp a (Sm a Ma)) in Ma as (l & [] & _)|]. split; [split; [apply xt_ok|auto]|]. auto.
  - assert (Ml : forall a, M' a -> alit a l = true). { intros a Ma. apply (Sp a (Sm a Ma)) in Ma as (x & [<-|[]] & Ax). auto. }
    pose proof (si_mono M M' s Sm S0) as S0'. assert (Vl : val s l = None) by (apply Kl; left; auto). pose proof (si_enq0 M' l s S0' T Vl (Kv l (or_introl eq_refl)) Ml) as S1.
    unfold bind. unfold enqueue, modify. pose proof (flag_ok M' n (enq l None s) S1 T) as Y. unfold wp, bind, modify in Y. destruct (propagate n (enq l None s)) as [c s2| |]; auto.
    destruct Y as (t & E & F & Bt & _ & Tl & H). set (b := match c with Some _ => false | None => true end) in *. change (ok (with_ok b s2)) with b in *.
    unfold gets. change (ok (with_units (units (with_ok b s2) ++ [l]) (with_ok b s2))) with b. rewrite E. change (units (with_ok b t)) with (units t). assert (F0 : Fr s t) by (apply (fr_trans s (enq l None s) t (fr_enq l None s) F); apply enq_wat; auto).
    destruct (Tl l) as [Tt Lt]; [unfold tru; rewrite val_enq, Nat.eqb_refl, slit_eqb_refl; auto|].
    assert (Gr : grows s (with_units (units t ++ [l]) (with_ok b t))). { split; [|exact (frmeta s t F0)]. apply (xt_trans s (with_ok b t) _); [apply (xt_trans s t _ (xt_fr _ _ F0) (xt_ok b t)); apply Bt|exact (xt_unit [l] (with_ok b t))|apply (base_ok b t Bt)]. }
    split; [|split; [exact Gr|split; [reflexivity|exact (fr_na _ _ F0)]]].
    split; [apply base_units, base_ok; auto|]. change (ok (with_units (units t ++ [l]) (with_ok b t))) with b. destruct b; [|exact H]. destruct H as [St Qt]. split; [|split; [exact Qt|]].
    + apply (si_units M' (units t ++ [l]) (with_ok true t)); [apply si_ok; auto|]. pose proof St as ([At _ _] & Xt & _). intros x Ix. apply in_app_iff in Ix as [Ix|[<-|[]]]; [apply (ex_units _ Xt); auto|]. split; [apply (as_val _ _ _ At); auto|]. change (lev t l = 0). rewrite Lt, lev_enq, Nat.eqb_refl. unfold dl. rewrite T. auto.
    + intros a H1 H2. assert (Ma : M a). { apply (comp_fr M s t W F0 C); [exact H1|]. intros u Iu. apply H2. apply in_or_app; auto. } apply (Sp a Ma). exists l. split; [left; auto|]. apply H2. apply in_or_app. right; left; auto.
  - set (d := Clause (l :: m :: r) false 0 (-1)).
    destruct (grow_ok M M' d s S0 T Q C) as (Wt & Bn & Ea & S1 & C1 & X1); auto.
    + split; auto. split; [cbn; lia|]. split; auto. discriminate.
    + intros x Ix. apply Kl. exact Ix.
    + cbn; lia.
    + intros a Ma. apply (Sp a (Sm a Ma)) in Ma. exact Ma.
    + intros a Ma Hc. apply (Sp a Ma). exact Hc.
    + unfold bind, newClause, modify, ret. match goal with |- context [attach _ ?x] => change x with (with_clauses (clauses s ++ [nextc s]) (added d s)) end. rewrite Ea.
      set (g := grown Wt Bn (clauses s ++ [nextc s]) (learnts s) d s) in *. split; [apply linv_true; auto; [apply S1|unfold dl; change (tlim g) with (tlim s); rewrite T; auto]|]. split; [split; [exact X1|reflexivity]|]. split; [symmetry; exact Ok|]. intros P H1 H2 Na c. unfold g. destruct (Nat.eq_dec c (nextc s)) as [->|]; [rewrite grown_new; auto|rewrite grown_old; auto].
Qed.
(** ** At-most constraints *)
Definition cntA (a : nat -> bool) (ls : list slit) : Z := Z.of_nat (length (filter (alit a) ls)).
Lemma cntA_cons : forall a l r, cntA a (l :: r) = ((if alit a l then 1 else 0) + cntA a r)%Z.
Proof. intros. unfold cntA. cbn [filter]. destruct (alit a l); cbn [length]; lia. Qed.
Lemma cntA_nil : forall a, cntA a [] = 0%Z. Proof. auto. Qed.
Lemma cntA_app : forall a l r, cntA a (l ++ r) = (cntA a l + cntA a r)%Z.
Proof. intros. unfold cntA. rewrite filter_app, app_length. lia. Qed.
Lemma cntA_perm : forall a l r, Permutation l r -> cntA a l = cntA a r.
Proof. intros. unfold cntA. erewrite filter_plen; eauto. Qed.
Record atmInv (s : sat) (ls : list slit) (p : option slit) (acc : list slit) : Prop := {
  am_nd : NoDup acc; am_un : forall l, In l acc -> val s l = None; am_cf : forall l, In l acc -> ~ In (neg l) acc;
  am_out : forall l, In l acc -> ~ In l ls;
  am_next : forall l, In l acc -> In (neg l) ls -> p = Some l;
  am_last : forall q, p = Some q -> In (neg q) ls -> exists acc0, acc = acc0 ++ [q];
  am_p : forall q, p = Some q -> ~ In q ls;
  am_le : forall l x, In l acc -> In x ls -> slit_leb l x = true }.
Lemma same_between : forall y l, slit_leb y l = true -> slit_leb l (neg y) = true -> fst l = fst y.
Proof. intros [v b] [w c]. rewrite !leb_spec. cbn. lia. Qed.
Lemma simplifyAtMost_ok : forall s ls p acc k ks k', Srt ls -> NoDup ls -> atmInv s ls p acc -> simplifyAtMost s ls p acc k = (ks, k') ->
  NoDup ks /\ (forall l, In l ks -> val s l = None) /\ (forall l, In l ks -> ~ In (neg l) ks) /\ (forall l, In l ks -> In l acc \/ In l ls) /\
  (forall a, respects a s -> (cntA a acc + cntA a ls - k = cntA a ks - k')%Z).
Proof.
  intros s. induction ls as [|l r IH]; intros p acc k ks k' HS HN I E; cbn [simplifyAtMost] in E.
  - inversion E; subst. destruct I. repeat split; auto. intros a _. rewrite cntA_nil. lia.
  - destruct HS as [S1 S2]. inversion HN as [|? ? N1 N2]; subst. destruct I as [I1 I2 I3 I4 I5 I6 I7 I8].
    assert (Tail : atmInv s r p acc). { constructor; auto. - intros x Ix Y. apply (I4 x); auto; right; auto. - intros x Ix Y. apply I5; auto; right; auto. - intros q Eq Y. apply I6; auto; right; auto. - intros q Eq Y. apply (I7 q); auto; right; auto. - intros x y Ix Iy. apply I8; auto; right; auto. }
    destruct (isT s l) eqn:T.
    { destruct (IH p acc (k - 1)%Z ks k' S2 N2 Tail E) as (R1 & R2 & R3 & R4 & R5). split; auto. split; auto. split; auto. split; [intros x Ix; destruct (R4 x Ix); cbn; auto|]. intros a Ra. rewrite cntA_cons, (Ra l) by (apply isT_tru; auto). specialize (R5 a Ra). lia. }
    destruct (match p with Some p0 => slit_eqb l (neg p0) | None => false end) eqn:N.
    { destruct p as [q|]; [|discriminate]. apply slit_eqb_eq in N. subst l. destruct (I6 q eq_refl) as (acc0 & ->); [left; auto|]. rewrite removelast_last in E. apply NoDup_remove in I1 as [I1 I1']. rewrite app_nil_r in I1, I1'.
      assert (Old : forall x, In x acc0 -> In x (acc0 ++ [q])) by (intros; apply in_or_app; auto).
      assert (J : atmInv s r (Some (neg q)) acc0).
      { constructor; auto.
        - intros x Ix Y. apply (I3 x); auto.
        - intros x Ix Y. apply (I4 x); auto. right; auto.
        - intros x Ix Y. exfalso. assert (X : Some q = Some x) by (apply I5; auto; right; auto). inversion X; subst. auto.
        - intros x X Y. inversion X; subst. rewrite neg_neg in Y. exfalso. apply (I7 q); auto. right; auto.
        - intros x X Y. inversion X; subst. auto.
        - intros x y Ix Iy. apply I8; auto. right; auto. }
      destruct (IH (Some (neg q)) acc0 (k - 1)%Z ks k' S2 N2 J E) as (R1 & R2 & R3 & R4 & R5). split; auto. split; auto. split; auto. split; [intros x Ix; destruct (R4 x Ix); [left; auto|right; right; auto]|].
      intros a Ra. specialize (R5 a Ra). rewrite cntA_app, !cntA_cons, alit_neg. rewrite cntA_nil. destruct (alit a q); cbn [negb]; lia. }
    destruct (isF s l) eqn:F; cbn [negb] in E.
    + destruct (IH p acc k ks k' S2 N2 Tail E) as (R1 & R2 & R3 & R4 & R5). split; auto. split; auto. split; auto. split; [intros x Ix; destruct (R4 x Ix); cbn; auto|].
      intros a Ra. assert (Fl : alit a l = false). { apply isF_fls, tru_neg, Ra in F. rewrite alit_neg in F. destruct (alit a l); auto. } rewrite cntA_cons, Fl. specialize (R5 a Ra). lia.
    + assert (Vl : val s l = None) by (unfold isT, isF in *; destruct (val s l) as [[]|]; auto; discriminate).
      assert (Nl : ~ In (neg l) acc). { intros Y. assert (X : p = Some (neg l)) by (apply I5; auto; rewrite neg_neg; left; auto). subst p. rewrite neg_neg, slit_eqb_refl in N. discriminate. }
      assert (J : atmInv s r (Some l) (acc ++ [l])).
      { constructor.
        - apply NoDup_app_snoc; auto. intros Y. apply (I4 l Y). left; auto.
        - intros x Ix. apply in_app_iff in Ix as [Ix|[<-|[]]]; auto.
        - intros x Ix Y. apply in_app_iff in Ix as [Ix|[<-|[]]]; apply in_app_iff in Y as [Y|[Y|[]]]; [apply (I3 x); auto|subst l; apply Nl; rewrite neg_neg; auto|auto|apply (neg_neq l); auto].
        - intros x Ix Y. apply in_app_iff in Ix as [Ix|[<-|[]]]; [apply (I4 x Ix); right; auto|auto].
        - intros x Ix Y. apply in_app_iff in Ix as [Ix|[<-|[]]]; auto. exfalso. assert (E1 : fst l = fst x) by (apply same_between; [apply I8; auto; left; auto|apply S1; auto]).
          destruct (same_var l x E1) as [->| ->]; [apply (I4 x Ix); left; auto|auto].
        - intros q X Y. inversion X; subst. eauto.
        - intros q X Y. inversion X; subst. auto.
        - intros x y Ix Iy. apply in_app_iff in Ix as [Ix|[<-|[]]]; [apply I8; auto; right; auto|apply S1; auto]. }
      destruct (IH (Some l) (acc ++ [l]) k ks k' S2 N2 J E) as (R1 & R2 & R3 & R4 & R5). split; auto. split; auto. split; auto. split; [intros x Ix; destruct (R4 x Ix) as [Y|Y]; [apply in_app_iff in Y as [Y|[<-|[]]]; cbn; auto|cbn; auto]|].
      intros a Ra. specialize (R5 a Ra). rewrite cntA_app in R5. rewrite cntA_cons. rewrite cntA_cons in R5. rewrite cntA_nil in R5. lia.
Qed.
Lemma each_units : forall M ks s, searchInv M s -> tlim s = [] -> NoDup ks -> (forall l, In l ks -> val s l = None /\ fst l < nvars s /\ forall a, M a -> alit a (neg l) = true) -> (forall l, In l ks -> ~ In (neg l) ks) ->
  wp (each ks (fun l => enqueue (neg l) None ;;; modify (fun s => with_units (units s ++ [neg l]) s))) s
     (fun _ s' => searchInv M s' /\ Fr s s' /\ tlim s' = [] /\ units s' = units s ++ map neg ks /\ db s' = db s).
Proof.
  intros M. induction ks as [|l r IH]; intros s H T N K Cf; cbn [each].
  - apply wp_ret. split; auto. split; [apply fr_refl|]. rewrite app_nil_r. auto.
  - inversion N as [|? ? N1 N2]; subst. destruct (K l (or_introl eq_refl)) as (V & L & Ml). apply wp_bind, wp_bind, wp_modify, wp_modify. assert (Vn : val s (neg l) = None) by (rewrite val_neg, V; auto).
    pose proof (si_enq0 M (neg l) s H T Vn L Ml) as S1. set (s1 := enq (neg l) None s) in *. assert (S2 : searchInv M (with_units (units s1 ++ [neg l]) s1)). { apply si_unit; auto; [unfold s1; cbn; apply in_or_app; right; left; auto|]. unfold s1. rewrite lev_enq, Nat.eqb_refl. unfold dl. rewrite T; auto. }
    assert (W0 : Wat s) by apply H. assert (F1 : Fr s (with_units (units s1 ++ [neg l]) s1)) by exact (fr_unit (neg l) None s). assert (W2 : Wat (with_units (units s1 ++ [neg l]) s1)) by apply S2.
    eapply wp_mono; [apply (IH (with_units (units s1 ++ [neg l]) s1)); auto|].
    + intros x Ix. destruct (K x (or_intror Ix)) as (Vx & Lx & Mx). split; [|split; auto]. change (val (enq (neg l) None s) x = None). rewrite val_enq. cbn [fst neg]. destruct (Nat.eqb_spec (fst x) (fst l)) as [E|]; auto. exfalso. destruct (same_var x l E) as [->| ->]; auto. apply (Cf l); [left|right]; auto.
    + intros x Ix Y. apply (Cf x); right; auto.
    + cbv beta. intros _ s' (A1 & A2 & A3 & A4 & A5). split; auto. split; [apply (fr_trans s _ s' F1 A2 W2)|]. split; auto. split; [|rewrite A5; reflexivity]. rewrite A4. change (units (with_units (units s1 ++ [neg l]) s1)) with (units s ++ [neg l]). rewrite <- app_assoc. reflexivity.
Qed.
Lemma addAtMost_ok : forall (M M' : (nat -> bool) -> Prop) n ps k s, LInv M s -> (0 <= stateId s)%Z -> NoDup ps -> (forall l, In l ps -> fst l < nvars s) -> (forall a, M' a <-> M a /\ (cntA a ps <= k)%Z) ->
  wp (addAtMost n ps k) s (fun _ s' => LInv M' s' /\ grows s s' /\
    (forall P : clause -> Prop, (forall d d', cperm d d' -> P d -> P d') -> (forall d, c_atm d = false -> P d) -> (forall d, incl (c_lits d) ps -> P d) -> (forall c, P (db s c)) -> forall c, P (db s' c))).
Proof.
  intros M M' n ps k s L Id Nd Hv HM. unfold addAtMost, wp. destruct (ok s) eqn:Ok; cbn [negb].
  2:{ destruct L as [B H]. rewrite Ok in H. split; [split; auto; rewrite Ok; intros a Ma; apply HM in Ma as [Ma _]; eapply H; eauto|split; [apply grows_refl|auto]]. }
  pose proof L as [B H]. rewrite Ok in H. destruct H as (S0 & Q & C). pose proof (ba_tlim _ B) as T. pose proof (ba_wat _ B) as W. pose proof S0 as ([A _ _] & _ & _).
  assert (Sm : forall a, M' a -> M a) by (intros a Ma; apply HM in Ma; tauto).
  destruct (simplifyAtMost s (sortL ps) None [] k) as [ks k'] eqn:Es.
  destruct (simplifyAtMost_ok s (sortL ps) None [] k ks k' (sortL_srt ps)) as (R1 & R2 & R3 & R4 & R5); auto.
  { eapply Permutation_NoDup; [symmetry; apply sortL_perm|auto]. } { constructor; [constructor|intros ? []|intros ? []|intros ? []|intros ? []|discriminate|discriminate|intros ? ? []]. }
  assert (Kv : forall l, In l ks -> fst l < nvars s) by (intros l I; apply Hv, sortL_in; destruct (R4 l I) as [[]|]; auto).
  assert (Sp : forall a, M a -> (M' a <-> (cntA a ks <= k')%Z)). { intros a Ma. specialize (R5 a (resp_top M s a A T Ma)). rewrite HM. rewrite (cntA_perm a (sortL ps) ps (sortL_perm ps)) in R5. rewrite cntA_nil in R5. split; [intros [_ X]; lia|intros X; split; auto; lia]. }
  assert (Cl : forall a, (0 <= cntA a ks <= Z.of_nat (length ks))%Z). { intros a. unfold cntA. assert (X : length (filter (alit a) ks) <= length ks) by (clear; induction ks; cbn; auto; destruct (alit a a0); cbn; lia). lia. }
  destruct (Z.leb_spec (Z.of_nat (length ks)) k') as [Lk|Lk].
  { split; [|split; [apply grows_refl|auto]]. eapply linv_sub; [exact L|]. intros a. split; auto. intros Ma. apply (Sp a Ma). specialize (Cl a). lia. }
  destruct (Z.ltb_spec k' 0) as [Lz|Lz].
  { split; [|split; [split; [apply xt_ok|auto]|auto]]. apply linv_false; auto. intros a Ma. apply (Sp a (Sm a Ma)) in Ma. specialize (Cl a). lia. }
  destruct (Z.eqb_spec k' 0) as [Ez|Nz].
  - assert (Mn : forall a, M' a -> forall l, In l ks -> alit a (neg l) = true).
    { intros a Ma l Il. apply (Sp a (Sm a Ma)) in Ma. rewrite alit_neg. destruct (alit a l) eqn:Al; auto. exfalso. unfold cntA in Ma. assert (In l (filter (alit a) ks)) by (apply filter_In; auto). destruct (filter (alit a) ks); [destruct H|cbn in Ma; lia]. }
    pose proof (each_units M' ks s (si_mono M M' s Sm S0) T R1) as Y. specialize (Y ltac:(intros l Il; split; [apply R2; auto|split; auto; intros; apply Mn; auto]) R3).
    unfold wp in Y. unfold bind at 1. destruct (each ks _ s) as [[] s1| |]; auto. destruct Y as (S1 & F1 & T1 & U1 & D1).
    pose proof (flag_ok M' n s1 S1 T1) as Y. unfold wp in Y. destruct ((c <-- propagate n ;; _) s1) as [[] s2| |]; auto.
    destruct Y as (t & E & F & Bt & _ & Tl & H). set (b := ok s2) in *. clearbody b. rewrite E. assert (W1 : Wat s1) by apply S1. assert (F0 : Fr s t) by apply (fr_trans s s1 t F1 F W1).
    assert (Gr : grows s (with_ok b t)). { split; [|exact (frmeta s t F0)]. apply (xt_trans s t _ (xt_fr _ _ F0) (xt_ok b t)); apply Bt. }
    split; [|split; [exact Gr|intros P P1 P2 _; exact (fr_na _ _ F0 P P1 P2)]]. split; [apply base_ok; auto|]. change (ok (with_ok b t)) with b. destruct b; [|exact H]. destruct H as [St Qt]. split; [apply si_ok; auto|]. split; [exact Qt|].
    intros a H1 H2. assert (Ma : M a) by (apply (comp_fr M s t W F0 C); [exact H1|exact H2]). apply (Sp a Ma). rewrite Ez. unfold cntA. assert (X : filter (alit a) ks = []); [|rewrite X; cbn; lia].
    apply filter_none. intros x Ix. destruct (fr_un _ _ F) as (us & Eu). assert (Y : alit a (neg x) = true). { apply H2. change (units (with_ok true t)) with (units t). rewrite Eu, U1. apply in_or_app. left. apply in_or_app. right. apply in_map; auto. } rewrite alit_neg in Y. destruct (alit a x); auto.
  - set (d := Clause ks true (length ks - Z.to_nat k' + 1) (-1)). assert (Lks : 1 <= Z.to_nat k' < length ks) by lia.
    assert (Cd : forall a, csat a d <-> (cntA a ks <= k')%Z). { intros a. unfold csat, maxT, cntA, d. cbn [c_atm c_lits c_w]. lia. }
    destruct (grow_ok M M' d s S0 T Q C) as (Wt & Bn & Ea & S1 & C1 & X1); auto.
    + split; auto. split; [cbn [d c_lits]; lia|]. split; auto. intros _. split; [cbn [d c_w c_lits]; lia|exact R3].
    + cbn; lia.
    + intros a Ma. apply Cd. apply (Sp a (Sm a Ma)). exact Ma.
    + intros a Ma Hc. apply (Sp a Ma). apply Cd. exact Hc.
    + unfold bind, newClause, modify, ret. match goal with |- context [attach _ ?x] => change x with (with_clauses (clauses s ++ [nextc s]) (added d s)) end. rewrite Ea.
      set (g := grown Wt Bn (clauses s ++ [nextc s]) (learnts s) d s) in *. split; [apply linv_true; auto; [apply S1|unfold dl; change (tlim g) with (tlim s); rewrite T; auto]|]. split; [split; [exact X1|reflexivity]|]. intros P P1 P2 P3 P4 c. unfold g. destruct (Nat.eq_dec c (nextc s)) as [->|]; [rewrite grown_new; apply P3|rewrite grown_old; auto].
      intros l Il. apply sortL_in. destruct (R4 l Il) as [[]|]; auto.
Qed.
