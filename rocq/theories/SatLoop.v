(** * Learning, decisions and the search loop *)
From Coq Require Import List Bool Arith Lia ZArith Permutation.
From Verif Require Import Sat SatInv SatProp SatAna SatMin SatSearch SatAttach.
Import ListNotations.

(** ** Adding a clause *)
Definition grown (W : slit -> list (nat * option slit)) (B : slit -> list (nat * slit)) (cl ln : list nat) (d : clause) (s : sat) : sat := with_wat W (with_wbin B (lists cl ln (added d s))).
Lemma asg_grown : forall M E W B cl ln d s, Asg M E s -> Asg M E (grown W B cl ln d s).
Proof.
  intros M E W B cl ln d s [A1 A2 A3 A4 A5 A6 A7 A8 A9 A10]. constructor; try assumption. intros pre l post c Et R. specialize (A6 pre l post c Et R). pose proof A6 as (L & _). revert A6.
  assert (D : db (grown W B cl ln d s) c = db s c) by (apply added_old; lia).
  apply reasonOK_mono; rewrite ?D; auto; try (intros; apply cperm_refl). cbn; lia.
Qed.
Lemma proc_grown : forall W B cl ln d s, Wat s -> (forall p c, In c (map fst (W p)) \/ In c (map fst (B p)) -> (In c (map fst (wat s p)) \/ In c (map fst (wbin s p))) \/ (c = nextc s /\ In p (wset d))) -> (forall p x, In x (wat s p) -> In x (W p)) ->
  Proc s NoE -> Proc (grown W B cl ln d s) (fun q c => c = nextc s /\ In q (wset d)).
Proof.
  intros W B cl ln d s Hw H Hk P q c I Wc. destruct (H q c Wc) as [X|X]; auto. destruct (P q c I X) as [[]|Y]. right. revert Y.
  assert (c < nextc s). { apply (wt_lt _ Hw). destruct X as [X|X]; apply map_fst_In in X as (b & X); [apply (wt_bw _ Hw) in X|apply (wt_bwb _ Hw) in X]; tauto. }
  apply wok_same; auto. apply added_old; lia.
Qed.
Lemma ent_grown : forall M W B cl ln d s, Wat s -> entAll M s -> (forall x, In x (cl ++ ln) <-> In x (att s) \/ x = nextc s) -> ent M d -> entAll M (grown W B cl ln d s).
Proof.
  intros M W B cl ln d s Hw En H Ed c I. apply H in I as [I | ->]; [|replace (db (grown W B cl ln d s) (nextc s)) with d by (symmetry; apply added_new); auto].
  replace (db (grown W B cl ln d s) c) with (db s c) by (symmetry; apply added_old; apply (wt_lt _ Hw) in I; lia). auto.
Qed.
Lemma NoDup_snoc2 : forall (cl ln : list nat) c, NoDup (cl ++ ln) -> ~ In c (cl ++ ln) -> NoDup (cl ++ ln ++ [c]) /\ NoDup ((cl ++ [c]) ++ ln).
Proof.
  intros cl ln c N I. split; [rewrite app_assoc; apply NoDup_app_snoc; auto|]. rewrite <- app_assoc. cbn. apply NoDup_Add with (a := c) (l := cl ++ ln); [apply Add_app|auto].
Qed.
Definition searchInv M s := PI M s /\ Ex s /\ Proc s NoE.
Lemma ex_enq : forall l r s, Ex s -> val s l = None -> (forall m, In m (trail s) -> tru s m) -> Ex (enq l r s).
Proof.
  intros l r s [E1 E2 E3 E4 E5 E6] V T. constructor; auto.
  - intros v L N. cbn in N. unfold upd in N. destruct (v =? fst l); [discriminate|]. apply E3; auto.
  - intros u I. destruct (E5 u I) as [X Y]. split; [cbn; apply in_or_app; auto|]. rewrite lev_enq_old; auto.
Qed.

Lemma pi_units : forall M x s, PI M s -> PI M (with_units x s).
Proof. intros M x s [[] [] En]. constructor; [constructor; assumption|constructor; assumption|assumption]. Qed.
Lemma ex_unit : forall l s, Ex s -> In l (trail s) -> lev s l = 0 -> Ex (with_units (units s ++ [l]) s).
Proof. intros l s [E1 E2 E3 E4 E5 E6] I L. constructor; auto. intros u Iu. cbn in Iu. apply in_app_iff in Iu as [Iu|[<-|[]]]; [apply E5; auto|split; auto]. Qed.
Lemma proc_units : forall x s X, Proc s X -> Proc (with_units x s) X.
Proof. auto. Qed.
Lemma fr_unit : forall l r s, Fr s (with_units (units s ++ [l]) (enq l r s)).
Proof. intros. constructor; auto; [intros; apply cperm_refl|]. exists [l]. auto. Qed.
Lemma grown_old : forall W B cl ln d s c, c <> nextc s -> db (grown W B cl ln d s) c = db s c. Proof. intros. apply added_old; auto. Qed.
Lemma grown_new : forall W B cl ln d s, db (grown W B cl ln d s) (nextc s) = d. Proof. intros. apply added_new; auto. Qed.
Lemma ex_grown : forall W B cl ln d s, Ex s -> Wat s -> (c_st d <= stateId s)%Z -> (forall c, In c ln -> In c (learnts s) \/ c = nextc s) -> Ex (grown W B cl ln d s).
Proof.
  intros W B cl ln d s [E1 E2 E3 E4 E5 E6] Hw Hs Hl. constructor; auto. intros c I. destruct (Hl c I) as [Y | ->]; [|rewrite grown_new; auto]. rewrite grown_old; [apply E6; auto|].
  intros ->. assert (nextc s < nextc s); [|lia]. apply (wt_lt _ Hw). apply in_or_app; auto.
Qed.
Lemma fr_enq : forall l r s, Fr s (enq l r s).
Proof. intros. constructor; auto; [intros; apply cperm_refl|]. exists []. cbn. rewrite app_nil_r. auto. Qed.
Lemma fr_learnt : forall W B d s, c_st d = stateId s -> c_atm d = false -> Fr s (grown W B (clauses s) (learnts s ++ [nextc s]) d s).
Proof.
  intros W B d s Hs Ha. constructor; auto; [cbn; lia| |exists []; cbn; rewrite app_nil_r; auto| |].
  - intros c L. rewrite grown_old by lia. apply cperm_refl.
  - intros c I. cbn in I. apply in_app_iff in I as [I|[<-|[]]]; auto. right. rewrite grown_new. auto.
  - intros P H1 H2 H c. destruct (Nat.eq_dec c (nextc s)) as [->|]; [rewrite grown_new; auto|rewrite grown_old; auto].
Qed.
(** the learnt clause becomes the reason of its first literal *)
Lemma learnt_ok : forall M W B l m r s, PI M s -> Ex s -> Proc s NoE -> let d := Clause (l :: m :: r) false 0 (stateId s) in let s3 := grown W B (clauses s) (learnts s ++ [nextc s]) d s in
  (forall x, In x (clauses s ++ learnts s ++ [nextc s]) <-> In x (att s) \/ x = nextc s) -> ent M d -> Wat s3 ->
  (forall p c, In c (map fst (W p)) \/ In c (map fst (B p)) -> (In c (map fst (wat s p)) \/ In c (map fst (wbin s p))) \/ (c = nextc s /\ In p (wset d))) -> (forall p x, In x (wat s p) -> In x (W p)) ->
  val s l = None -> fst l < nvars s -> (forall q, In q (m :: r) -> In (neg q) (trail s)) -> lev s m = dl s -> NoDup (l :: m :: r) -> searchInv M (enq l (Some (nextc s)) s3) /\ Fr s (enq l (Some (nextc s)) s3).
Proof.
  intros M W B l m r s P X Pr d s3 Ha Ed Wn Hwb Hk V Hv Hr Lm Nd. pose proof P as [A W0 Ea].
  assert (A3 : Asg M E0 s3) by (apply asg_grown; auto). assert (V3 : val s3 l = None) by exact V. assert (D3 : db s3 (nextc s) = d) by apply grown_new.
  assert (A4 : Asg M E0 (enq l (Some (nextc s)) s3)).
  { apply enq_asg_r; [exact A3|exact V3|exact Hv|]. split; [cbn; lia|]. change (db (enq l (Some (nextc s)) s3) (nextc s)) with (db s3 (nextc s)). rewrite D3. split; auto. cbn [c_atm d]. split; [left; auto|]. split; [|split; [auto|exact Nd]].
    intros q [<-|Iq]; auto. }
  split; [split; [|split]|].
  - constructor; auto; [apply enq_wat; exact Wn|]. apply (ent_grown M W B _ _ d s W0 Ea Ha Ed).
  - apply ex_enq; auto; [|apply (as_val _ _ _ A3)]. apply ex_grown; auto; [cbn; lia|]. intros c I. apply in_app_iff in I as [I|[<-|[]]]; auto.
  - intros q x I Wx. pose proof (proc_grown W B (clauses s) (learnts s ++ [nextc s]) d s W0 Hwb Hk Pr) as Pg. pose proof (enq_proc M E0 l (Some (nextc s)) s3 _ A3 V3 Pg) as Pg'. destruct (Pg' q x I Wx) as [[-> Y]|Y]; auto. right.
    cbn in Y. destruct Y as [<-|[<-|[]]].
    + exfalso. apply In_firstn in I. apply (as_val _ _ _ A4) in I. apply tru_neg in I. assert (tru (enq l (Some (nextc s)) s3) l) by (apply tru_enq; auto). eapply tru_fls; eauto.
    + unfold wok. change (db (enq l (Some (nextc s)) s3) (nextc s)) with (db s3 (nextc s)). rewrite D3. cbn [c_atm d]. exists l. split; [right; change (db (enq l (Some (nextc s)) s3) (nextc s)) with (db s3 (nextc s)); rewrite D3; left; auto|]. split; [apply tru_enq; auto|].
      rewrite lev_enq, Nat.eqb_refl. rewrite lev_enq_old; [|exact V3|left; apply (as_val _ _ _ A3); apply Hr; left; auto].
      change (dl s3) with (dl s). change (lev s3 (neg m)) with (lev s m). lia.
  - eapply fr_trans; [apply fr_learnt|apply fr_enq|exact Wn]; auto.
Qed.
(** ** Forgetting learnt clauses *)
Lemma si_perm : forall M ln s, searchInv M s -> Permutation ln (learnts s) -> searchInv M (with_learnts ln s) /\ Fr s (with_learnts ln s).
Proof.
  intros M ln s ([A W En] & X & Pr) Hp. assert (Hi : forall x, In x (clauses s ++ ln) <-> In x (att s)). { intros x. unfold att. rewrite !in_app_iff. split; (intros [Y|Y]; [auto|right]); revert Y; apply Permutation_in; auto; symmetry; auto. }
  split; [split; [|split]|].
  - constructor; [destruct A; constructor; assumption| |intros c I; apply En, Hi; exact I].
    destruct W as [N L C Fw Fwb Bw Bwb O Ob Bk]. constructor; auto.
    + eapply Permutation_NoDup; [|exact N]. apply Permutation_app_head. symmetry; auto.
    + intros c I. apply L, Hi. exact I.
    + intros c I. apply C, Hi. exact I.
    + intros c p I. apply Fw, Hi. exact I.
    + intros c p I. apply Fwb, Hi. exact I.
    + intros p c b I. destruct (Bw p c b I) as [Y Z]. split; [apply Hi; auto|exact Z].
    + intros p c b I. destruct (Bwb p c b I) as [Y Z]. split; [apply Hi; auto|exact Z].
    + intros c I. apply Bk, Hi. exact I.
  - destruct X as [E1 E2 E3 E4 E5 E6]. constructor; auto. intros c I. apply E6. eapply Permutation_in; eauto.
  - exact Pr.
  - constructor; auto; [intros; apply cperm_refl|exists []; cbn; rewrite app_nil_r; auto|]. intros c I. left. eapply Permutation_in; eauto.
Qed.
Lemma si_tick : forall M x s, searchInv M s -> searchInv M (with_tick x s).
Proof. intros M x s (P & [] & Pr). split; [apply pi_tick; auto|]. split; [constructor; assumption|exact Pr]. Qed.
Lemma fr_tick : forall x s, Fr s (with_tick x s).
Proof. intros. constructor; auto; [intros; apply cperm_refl|]. exists []. cbn. rewrite app_nil_r. auto. Qed.
Lemma fr_refl : forall s, Fr s s.
Proof. intros. constructor; auto; [intros; apply cperm_refl|]. exists []. rewrite app_nil_r. auto. Qed.
Lemma si_drop : forall M c kept r s, searchInv M (with_learnts (kept ++ c :: r) s) -> exists W B, simpleRemove c s = Ret tt (with_wat W (with_wbin B s)) /\
  searchInv M (with_learnts (kept ++ r) (with_wat W (with_wbin B s))) /\ Fr (with_learnts (kept ++ c :: r) s) (with_learnts (kept ++ r) (with_wat W (with_wbin B s))).
Proof.
  intros M c kept r s ([A W0 En] & X & Pr).
  assert (Ic : In c (clauses s ++ kept ++ c :: r)) by (apply in_or_app; right; apply in_elt).
  destruct (simpleRemove_ok c (clauses s) (kept ++ c :: r) (nvars s) s W0 Ic) as (W & B & E & Hw & Hb & Wn). exists W, B. split; auto.
  pose proof (wt_nd _ W0) as N. change (NoDup (clauses s ++ kept ++ c :: r)) in N. rewrite app_assoc in N. apply NoDup_remove in N as [N1 N2].
  assert (Hi : forall x, In x (clauses s ++ kept ++ r) <-> In x (clauses s ++ kept ++ c :: r) /\ x <> c).
  { intros x. rewrite !app_assoc in *. rewrite !in_app_iff in *. cbn. split; [intros H; split; [tauto|intros ->; tauto]|intros [H1 H2]; intuition congruence]. }
  split; [split; [|split]|].
  - constructor; [destruct A; constructor; assumption| |].
    + apply (Wn (clauses s) (kept ++ r) (nvars s)); auto; [rewrite app_assoc; auto|]. intros x I. apply (wt_cl _ W0). apply Hi; auto.
    + intros x I. apply En. apply Hi. exact I.
  - destruct X as [E1 E2 E3 E4 E5 E6]. constructor; auto. intros x I. apply E6. change (In x (kept ++ r)) in I. cbn. apply in_app_iff in I. apply in_or_app. cbn. tauto.
  - intros q x I Wx. change (In x (map fst (W q)) \/ In x (map fst (B q))) in Wx. rewrite Hw, Hb in Wx.
    assert (Wx' : (In x (map fst (wat s q)) \/ In x (map fst (wbin s q))) /\ x <> c).
    { destruct Wx as [Wx|Wx]; apply map_fst_In in Wx as (b & Wx); apply wout_in in Wx as [Wx Nx]; (split; [|exact Nx]); [left|right]; eapply In_map_fst; eauto. }
    destruct Wx' as [Wx' Nx]. destruct (Pr q x I Wx') as [[]|Y]. right. revert Y. apply wok_same; auto. intros t T. cbn. rewrite Hw. apply wout_in; auto.
  - constructor; auto; [intros; apply cperm_refl|exists []; cbn; rewrite app_nil_r; auto|]. intros x I. left. change (In x (kept ++ r)) in I. cbn. apply in_app_iff in I. apply in_or_app. cbn. tauto.
Qed.
(** ** New decision levels *)
Definition lvlup (s : sat) : sat := with_tlim (tlim s ++ [length (trail s)]) s.
Lemma lvlup_asg : forall M s, Asg M E0 s -> qhead s = length (trail s) -> (forall p, nth_error (assumps s) (dl s) = Some p -> tru s p) -> Asg M E0 (lvlup s).
Proof.
  intros M s A Q H. pose proof A as [A1 A2 A3 A4 A5 A6 A7 A8 A9 A10]. assert (D : dl (lvlup s) = S (dl s)) by (unfold dl; cbn; rewrite app_length; cbn; lia).
  constructor; auto.
  - intros l I. rewrite D. apply A3 in I. change (lev (lvlup s) l) with (lev s l). lia.
  - intros k m X. cbn in X. rewrite nth_error_app in X. destruct (Nat.ltb_spec k (length (tlim s))); [apply A4; auto|]. destruct (k - length (tlim s)) as [|[]] eqn:Ek; cbn in X; try discriminate. inversion X; subst m.
    cbn [trail lvlup with_tlim]. split; auto. split; intros l I; [rewrite firstn_all in I; apply A3 in I; change (lev s l <= k); unfold dl in I; lia|rewrite skipn_all in I; destruct I].
  - intros pre l post c Et R. specialize (A6 pre l post c Et R). revert A6. apply reasonOK_mono; auto; try (intros; apply cperm_refl). intros q Iq At [Y|[Y|[[] _]]]; auto.
  - intros i l X R L. destruct (A7 i l X R L) as [Y Z]. split; auto. cbn. rewrite nth_error_app1; auto. apply nth_error_Some. intros Nn. change (nth_error (tlim s) (lev s l - 1) = None) in Nn. rewrite Y in Nn. discriminate.
  - intros i l X L. rewrite D in L. destruct (Nat.eq_dec i (dl s)) as [->|]; [|apply A8; auto; lia]. split; [apply (H l X)|]. change (lev (lvlup s) l) with (lev s l). pose proof (A3 l). rewrite (A1 l) in H0. specialize (H0 (H l X)). lia.
  - change (qhead (lvlup s)) with (qhead s). change (trail (lvlup s)) with (trail s). rewrite Q. split; auto. rewrite skipn_all. intros l [].
Qed.
Lemma decide_asg : forall M p s, Asg M E0 s -> qhead s = length (trail s) -> val s p = None -> fst p < nvars s -> (dl s < length (assumps s) -> nth_error (assumps s) (dl s) = Some p) -> Asg M E0 (enq p None (lvlup s)).
Proof.
  intros M p s A Q V Hv Ha. pose proof A as [A1 A2 A3 A4 A5 A6 A7 A8 A9 A10].
  assert (B0 : Asg M E0 (with_assumps [] s)). { constructor; auto; [intros i l X R L; destruct (A7 i l X R L) as [Y _]; split; auto; intros Z; exfalso; change (lev s l <= 0) in Z; change (0 < lev s l) in L; lia|]. intros [|i] l X; discriminate. }
  assert (B1 : Asg M E0 (lvlup (with_assumps [] s))). { apply lvlup_asg; auto. intros p' X. destruct (dl (with_assumps [] s)); discriminate. }
  assert (D : dl (lvlup s) = S (dl s)) by (unfold dl; cbn; rewrite app_length; cbn; lia).
  assert (B2 : Asg M E0 (enq p None (lvlup (with_assumps [] s)))).
  { apply enq_asg; auto; [discriminate|intros X; change (dl (lvlup s) = 0) in X; lia|]. intros _ _. change (dl (lvlup (with_assumps [] s))) with (dl (lvlup s)). rewrite D. cbn. rewrite Nat.sub_0_r. split; [|lia]. unfold dl. rewrite nth_error_app2, Nat.sub_diag by lia. auto. }
  destruct B2 as [B2 B3 B4 B5 B6 B7 B8 B9 B10 B11]. constructor; auto.
  - intros i l X R L. destruct (B8 i l X R L) as [Y _]. split; [exact Y|]. intros Z. change (assumps (enq p None (lvlup s))) with (assumps s) in *. change (trail (enq p None (lvlup s))) with (trail s ++ [p]) in X. rewrite nth_error_app in X. destruct (Nat.ltb_spec i (length (trail s))) as [Li|Li].
    + assert (N : (fst l =? fst p) = false). { apply Nat.eqb_neq. intros E. apply nth_error_In in X. apply A1 in X. pose proof (val_fst _ _ _ E V). unfold tru in X. congruence. }
      rewrite lev_enq, N in L, Z. change (lev (lvlup s) l) with (lev s l) in *. cbn in R. unfold upd in R. rewrite N in R. apply (A7 i l X R L); auto.
    + destruct (i - length (trail s)) as [|[]] eqn:Ei; cbn in X; try discriminate. inversion X; subst l. rewrite lev_enq, Nat.eqb_refl, D in Z. eapply nth_error_In. apply Ha. lia.
  - intros i l X L. change (dl (enq p None (lvlup s))) with (dl (lvlup s)) in L. rewrite D in L. change (assumps (enq p None (lvlup s))) with (assumps s) in X. assert (Vl : val (lvlup s) p = None) by exact V. destruct (Nat.eq_dec i (dl s)) as [->|N].
    + assert (l = p). { assert (dl s < length (assumps s)) by (apply nth_error_Some; congruence). specialize (Ha H). congruence. } subst l. split; [apply tru_enq; auto|]. rewrite lev_enq, Nat.eqb_refl. lia.
    + destruct (A8 i l X) as [Y Z]; [lia|]. split; [apply tru_enq; auto|]. rewrite lev_enq_old; auto.
Qed.
Lemma fr_lvlup : forall s, Fr s (lvlup s).
Proof. intros. constructor; auto; [intros; apply cperm_refl|]. exists []. cbn. rewrite app_nil_r. auto. Qed.
Lemma wat_lvlup : forall s, Wat s -> Wat (lvlup s). Proof. intros s []. constructor; assumption. Qed.
Lemma lvlup_ok : forall M s, searchInv M s -> qhead s = length (trail s) -> (forall p, nth_error (assumps s) (dl s) = Some p -> tru s p) -> searchInv M (lvlup s).
Proof.
  intros M s ([A W En] & [] & Pr) Q H. split; [constructor; [apply lvlup_asg; auto|apply wat_lvlup; auto|exact En]|]. split; [constructor; assumption|exact Pr].
Qed.
Lemma decide_ok : forall M p s, PI M s -> Proc s NoE -> Ex (with_heap (fst p :: heap s) s) -> qhead s = length (trail s) -> val s p = None -> fst p < nvars s -> (dl s < length (assumps s) -> nth_error (assumps s) (dl s) = Some p) ->
  searchInv M (enq p None (lvlup s)) /\ Fr s (enq p None (lvlup s)).
Proof.
  intros M p s [A W En] Pr [E1 E2 E3 E4 E5 E6] Q V Hv Ha. assert (Vl : val (lvlup s) p = None) by exact V. split; [split; [|split]|].
  - constructor; [apply decide_asg; auto|apply enq_wat, wat_lvlup; auto|exact En].
  - constructor; auto.
    + intros v L N. cbn in N. unfold upd in N. destruct (Nat.eqb_spec v (fst p)); [discriminate|]. destruct (E3 v L N); [congruence|auto].
    + intros v I. apply E4. right; auto.
    + intros u I. destruct (E5 u I) as [X Y]. split; [cbn; apply in_or_app; auto|]. rewrite lev_enq_old; auto. left. apply (as_val _ _ _ A). exact X.
  - intros q c I Wc. right. assert (Iq : In q (firstn (qhead s) (trail s))). { change (In q (firstn (qhead s) (trail s ++ [p]))) in I. rewrite firstn_app_le in I; auto. lia. }
    destruct (Pr q c Iq Wc) as [[]|Y]. apply wok_enq; auto. apply (as_val _ _ _ A). eapply In_firstn; eauto.
  - eapply fr_trans; [apply fr_lvlup|apply fr_enq|apply wat_lvlup; auto].
Qed.
Section Search.
Variables (o : oracle) (cm : clauseMin).
Definition NA (s : sat) := cm = MinBasic -> forall c, c_atm (db s c) = false.
Lemma na_fr : forall s s', NA s -> Fr s s' -> NA s'.
Proof. intros s s' H F E. apply (fr_na _ _ F (fun d => c_atm d = false)); auto. intros d d' (_ & Y & _). congruence. Qed.
Lemma learn_ok : forall M n c s, AI M s -> Ex s -> 0 < dl s -> conflOK s c -> NA s -> wp (learn o cm n c) s (fun _ s' => searchInv M s' /\ Fr s s' /\ conflict s' = conflict s).
Proof.
  intros M n c s A X D C Na. unfold learn. apply wp_bind. eapply wp_mono; [apply (analyze_ok o cm M n c s); auto; apply X|]. intros [ls bt] s1 (A1 & K1 & Sn1 & l & r & El & Fl & Ll & Nd & Hr & En1 & Bt). cbn [fst snd] in *. subst ls.
  pose proof A1 as [P1 Pr1]. assert (X1 : Ex s1) by (eapply ex_ak; eauto). assert (D1 : dl s1 = dl s) by (apply ak_dl; auto).
  assert (Hb : bt < dl s1). { destruct r as [|m r]; [lia|]. destruct Bt as [-> _]. apply Hr. left; auto. }
  apply wp_bind, wp_modify. destruct (cancelUntil_ok M bt s1 P1 X1 Pr1 Hb) as (Ca & P2 & X2 & Pr2 & F2). set (s2 := cancelUntil bt s1) in *. clearbody s2.
  pose proof P1 as [As1 W1 Ea1]. pose proof P2 as [A2 W2 Ea2].
  assert (F12 : Fr s s2) by (eapply fr_trans; [apply ak_fr; exact K1|exact F2|exact W1]).
  assert (C2 : conflict s2 = conflict s) by (ca Ca; ak K1; congruence). assert (N2 : nvars s2 = nvars s1) by (ca Ca; auto). assert (L2 : lev s2 = lev s1) by (assert (Y : lvl s2 = lvl s1) by (ca Ca; auto); unfold lev; rewrite Y; auto).
  assert (Vl : val s2 l = None) by (rewrite (ca_val _ _ _ Ca), Ll; destruct (Nat.leb_spec (dl s1) bt); auto; lia).
  assert (Dl2 : dl s2 = bt) by apply (ca_dl _ _ _ Ca).
  assert (Vars : forall q, fls s1 q -> fst q < nvars s2). { intros q Fq. rewrite N2. apply (fls_in _ _ _ _ As1) in Fq. apply (as_vars _ _ _ As1) in Fq. auto. }
  assert (Tr2 : forall m, In m (trail s2) -> tru s2 m) by (intros m; apply (as_val _ _ _ A2)).
  destruct r as [|m r].
  - unfold bind, enqueue, modify, wp. assert (Ae : Asg M E0 (enq l None s2)).
    { apply enq_asg; auto; [discriminate| |intros _ Y; lia]. intros _ a Ma. destruct (En1 a Ma) as (q & [<-|[]] & Aq); auto. }
    assert (Xe : Ex (enq l None s2)) by (apply ex_enq; auto). set (s3 := with_units (units (enq l None s2) ++ [l]) (enq l None s2)).
    assert (P3 : PI M s3) by (apply pi_units; constructor; [exact Ae|apply enq_wat; exact W2|exact Ea2]).
    split; [split; [exact P3|split]|split].
    + apply ex_unit; [exact Xe|cbn; apply in_or_app; right; left; auto|]. rewrite lev_enq, Nat.eqb_refl. lia.
    + apply proc_units. apply (enq_proc M E0 l None s2 NoE); auto.
    + exact (fr_trans s s2 _ F12 (fr_unit l None s2) W2).
    + exact C2.
  - destruct Bt as [Bt1 Bt2]. set (d := Clause (l :: m :: r) false 0 (stateId s2)).
    assert (Cd : clauseOK (nvars s2) d).
    { split; [apply (NoDup_map_inv fst); exact Nd|]. split; [cbn; lia|]. split; [|discriminate]. intros q [<-|Iq]; [apply Vars; auto|]. apply Vars. apply Hr; auto. }
    assert (Ed : ent M d) by (intros a Ma; apply En1; auto).
    assert (Nn : ~ In (nextc s2) (clauses s2 ++ learnts s2)) by (intros Y; apply (wt_lt _ W2) in Y; lia).
    assert (Ha : forall x, In x (clauses s2 ++ learnts s2 ++ [nextc s2]) <-> In x (att s2) \/ x = nextc s2). { intros x. unfold att. rewrite app_assoc, in_app_iff. cbn. intuition. }
    destruct (attach_ok s2 d (clauses s2) (learnts s2 ++ [nextc s2]) W2 Cd Ha) as (W & B & Ea & Wn & Hwb & Hk); [apply NoDup_snoc2; auto; apply (wt_nd _ W2)|].
    unfold wp, bind, newClause, modify, enqueue. cbv beta.
    match goal with |- context [attach _ ?x] => change x with (lists (clauses s2) (learnts s2 ++ [nextc s2]) (added d s2)) end.
    rewrite Ea. set (s3 := with_wat W (with_wbin B (lists (clauses s2) (learnts s2 ++ [nextc s2]) (added d s2)))).
    assert (In3 : forall q, In q (m :: r) -> In (neg q) (trail s2)).
    { intros q Iq. destruct (ca_tr _ _ _ Ca) as (k & _ & _ & Htr). apply Htr. destruct (Hr q Iq) as (Y1 & Y2). split; [apply (fls_in _ _ _ _ As1); auto|]. change (lev s1 q <= bt). rewrite Bt1. auto. }
    destruct (learnt_ok M W B l m r s2 P2 X2 Pr2 Ha Ed Wn Hwb Hk Vl (Vars l Fl) In3) as [I3 F3]; [rewrite L2, Dl2; auto|apply (NoDup_map_inv fst); exact Nd|].
    split; [exact I3|]. split; [|exact C2]. eapply fr_trans; [exact F12|exact F3|exact W2].
Qed.
End Search.
