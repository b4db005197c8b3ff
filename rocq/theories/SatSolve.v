(** * Solve calls of the core solver *)
From Coq Require Import List Bool Arith Lia ZArith Permutation.
From Verif Require Import Sat Backbone SatInv SatProp SatAna SatMin SatSearch SatAttach SatLoop SatFind.
Import ListNotations.

(** ** Full assignments *)
Lemma filter_firstn_le : forall {A} (P Q : A -> bool) n l, (forall x, P x = true -> Q x = true) -> length (filter P (firstn n l)) <= length (filter Q l).
Proof. intros A P Q n l H. rewrite <- (firstn_skipn n l) at 2. rewrite filter_app, app_length. assert (length (filter P (firstn n l)) <= length (filter Q (firstn n l))) by (apply filter_le; auto). lia. Qed.
Definition asgOf (s : sat) : nat -> bool := fun v => match val_ s v with Some b => b | None => false end.
Lemma asgOf_tru : forall s l, tru s l -> alit (asgOf s) l = true.
Proof. intros s l. unfold tru, val, alit, asgOf. destruct (val_ s (fst l)); congruence. Qed.
Lemma asgOf_isT : forall s l, val_ s (fst l) <> None -> alit (asgOf s) l = isT s l.
Proof. intros s l. unfold isT, val, alit, asgOf. destruct (val_ s (fst l)); [|congruence]. destruct (xorb b (snd l)); auto. Qed.
Lemma full_csat : forall s c, Wat s -> Proc s NoE -> (forall l, tru s l -> In l (trail s)) -> qhead s = length (trail s) -> (forall v, v < nvars s -> val_ s v <> None) -> In c (att s) -> csat (asgOf s) (db s c).
Proof.
  intros s c W P T Q F I. pose proof (wt_cl _ W c I) as (C1 & C2 & C3 & C4).
  assert (D : forall l, In l (c_lits (db s c)) -> tru s l \/ fls s l). { intros l Il. specialize (F (fst l) (C3 l Il)). unfold tru, fls, val. destruct (val_ s (fst l)) as [b|]; [|congruence]. destruct (xorb b (snd l)); auto. }
  assert (K : forall q, tru s q -> In q (wset (db s c)) -> wok s q c).
  { intros q Tq Wq. assert (Iq : In q (firstn (qhead s) (trail s))) by (rewrite Q, firstn_all; auto).
    assert (Bd : big (db s c) \/ ~ big (db s c)). { unfold big. destruct (c_atm (db s c)); [left; left; auto|]. destruct (le_lt_dec (length (c_lits (db s c))) 2); [right|left; right; auto]. intros [?|?]; [discriminate|lia]. }
    destruct (P q c Iq) as [[]|]; auto. destruct Bd as [B|B]; [left; destruct (wt_fw _ W c q I B Wq) as (b & X)|right; destruct (wt_fwb _ W c q I B Wq) as (b & X)]; eapply In_map_fst; eauto. }
  unfold csat. destruct (bool_dec (c_atm (db s c)) true) as [At|At]; [|apply not_true_is_false in At]; rewrite At.
  - destruct (C4 At) as [C5 C6]. unfold maxT.
    assert (E : length (filter (alit (asgOf s)) (c_lits (db s c))) <= length (filter (isT s) (c_lits (db s c)))). { apply filter_le. intros x Ix. rewrite asgOf_isT; auto. }
    assert (Dj : length (filter (isT s) (c_lits (db s c))) + length (filter (isF s) (c_lits (db s c))) <= length (c_lits (db s c))). { apply filter_disj. intros x _. rewrite isT_tru, isF_fls. apply tru_fls. }
    assert (c_w (db s c) - 1 <= length (filter (isF s) (c_lits (db s c)))); [|lia].
    destruct (existsb (isT s) (firstn (c_w (db s c)) (c_lits (db s c)))) eqn:X.
    + apply existsb_exists in X as (q & Iq & Tq). apply isT_tru in Tq. assert (Wq : In q (wset (db s c))) by (unfold wset; rewrite At; auto). specialize (K q Tq Wq). unfold wok in K. rewrite At in K. etransitivity; [exact K|]. apply filter_firstn_le. intros x Y. apply andb_true_iff in Y. tauto.
    + assert (Z : forall x, In x (firstn (c_w (db s c)) (c_lits (db s c))) -> isF s x = true). { intros x Ix. apply isF_fls. destruct (D x); auto; [eapply In_firstn; eauto|]. exfalso. rewrite <- not_true_iff_false in X. apply X. apply existsb_exists. exists x. split; auto. apply isT_tru; auto. }
      rewrite <- (firstn_skipn (c_w (db s c)) (c_lits (db s c))) at 1. rewrite filter_app, app_length. assert (length (filter (isF s) (firstn (c_w (db s c)) (c_lits (db s c)))) = c_w (db s c)); [|lia].
      rewrite (filter_eq (isF s) (fun _ => true)); [|intros x Ix; rewrite Z; auto]. assert (forall {A} (l : list A), filter (fun _ => true) l = l) as FT by (intros A; induction l; cbn; congruence). rewrite FT, firstn_length. lia.
  - destruct (c_lits (db s c)) as [|w r] eqn:El; [cbn in C2; lia|]. destruct (D w) as [Tw|Fw]; [left; auto|exists w; split; [left; auto|apply asgOf_tru; auto]|].
    assert (Wq : In (neg w) (wset (db s c))). { unfold wset. rewrite At, El. cbn. auto. } assert (Tn : tru s (neg w)) by (apply tru_neg; auto). specialize (K _ Tn Wq). unfold wok in K. rewrite At in K. destruct K as (t & It & Tt & _). apply (blk_in _ _ _ _ W) in It. exists t. rewrite <- El. split; auto. apply asgOf_tru; auto.
Qed.
(** ** Top-level states *)
Record Base (s : sat) : Prop := {
  ba_wat : Wat s; ba_tlim : tlim s = [];
  ba_seen : forall v, seen s v = false;
  ba_dec : forall v, v < nvars s -> dec s v = true;
  ba_hv : forall v, In v (heap s) -> v < nvars s;
  ba_st : forall c, In c (learnts s) -> (c_st (db s c) <= stateId s)%Z;
  ba_out : forall v, nvars s <= v -> val_ s v = None }.
Definition LInv (M : (nat -> bool) -> Prop) (s : sat) : Prop :=
  Base s /\ if ok s then searchInv M s /\ qhead s = length (trail s) /\ Comp M s else forall a, ~ M a.
Lemma base_inv : forall M s, PI M s -> Ex s -> dl s = 0 -> Base s.
Proof.
  intros M s [A W En] X D. destruct X. constructor; auto.
  - unfold dl in D. destruct (tlim s); auto; discriminate.
  - intros v L. destruct (val_ s v) as [b|] eqn:V; auto. exfalso. assert (T : tru s (v, negb b)) by (unfold tru, val; cbn; rewrite V; destruct b; auto). apply (as_val _ _ _ A), (as_vars _ _ _ A) in T. cbn in T. lia.
Qed.
Lemma alit_ext : forall a b l, a (fst l) = b (fst l) -> alit a l = alit b l.
Proof. intros a b l E. unfold alit. congruence. Qed.
Lemma csat_ext : forall nv a b d, (forall v, v < nv -> a v = b v) -> (forall l, In l (c_lits d) -> fst l < nv) -> csat b d -> csat a d.
Proof.
  intros nv a b d E L. unfold csat. destruct (c_atm d).
  - intros H. rewrite (filter_eq (alit a) (alit b)); auto. intros x I. apply alit_ext; auto.
  - intros (l & I & T). exists l. split; auto. rewrite (alit_ext a b); auto.
Qed.
Lemma model_ok : forall M s a, searchInv M s -> Comp M s -> qhead s = length (trail s) -> (forall v, v < nvars s -> val_ s v <> None) -> (forall v, v < nvars s -> a v = asgOf s v) -> M a.
Proof.
  intros M s a ([A W En] & X & P) C Q F E. apply C.
  - intros c I. assert (Ia : In c (att s)) by (apply in_or_app; auto). apply (csat_ext (nvars s) a (asgOf s)); auto; [apply (wt_cl _ W c Ia)|]. apply full_csat; auto. intros l; apply (as_val _ _ _ A).
  - intros u I. destruct (ex_units _ X u I) as [Iu _]. rewrite (alit_ext a (asgOf s)) by (apply E, (as_vars _ _ _ A); auto). apply asgOf_tru. apply (as_val _ _ _ A); auto.
Qed.
(** ** Rotatable literals *)
Definition posAM (d : clause) : Prop := c_atm d = true -> forall l, In l (c_lits d) -> snd l = false.
Definition flip (v : nat) (a : nat -> bool) : nat -> bool := fun w => if w =? v then negb (a w) else a w.
Lemma flip_other : forall v a l, fst l <> v -> alit (flip v a) l = alit a l.
Proof. intros v a l N. unfold alit, flip. destruct (Nat.eqb_spec (fst l) v); [congruence|auto]. Qed.
Lemma flip_same : forall v a l, fst l = v -> alit (flip v a) l = negb (alit a l).
Proof. intros v a l E. unfold alit, flip. rewrite E, Nat.eqb_refl. destruct (a v), (snd l); auto. Qed.
Lemma var_or : forall (x l : slit), fst x = fst l -> x = l \/ x = neg l.
Proof. intros [v b] [w c]. cbn. intros ->. unfold neg. cbn. destruct b, c; auto. Qed.
Lemma unitAtMost_false : forall s l k ls cnt, unitAtMost s l k cnt ls = false -> cnt < k -> cnt + length (filter (fun x => negb (fst l =? fst x) && mval s (fst x)) ls) < k.
Proof.
  intros s l k. induction ls as [|x r IH]; intros cnt H L; cbn [unitAtMost filter length] in *; [lia|]. destruct (negb (fst l =? fst x) && mval s (fst x)); [|apply IH; auto].
  destruct (Nat.eqb_spec (S cnt) k); [discriminate|]. specialize (IH (S cnt) H). cbn [length]. lia.
Qed.
Lemma occ_one : forall {A} c (x y : A) l, occ c l <= 1 -> In (c, x) l -> In (c, y) l -> x = y.
Proof.
  intros A c x y l. induction l as [|[d z] r IH]; intros H I J; [destruct I|]. cbn [occ] in H. assert (K : forall u, In (c, u) r -> 0 < occ c r) by (intros u Iu; apply occ_in; apply (in_map fst) in Iu; exact Iu).
  destruct I as [I|I], J as [J|J].
  - congruence.
  - inversion I; subst. rewrite Nat.eqb_refl in H. apply K in J. lia.
  - inversion J; subst. rewrite Nat.eqb_refl in H. apply K in I. lia.
  - apply IH; auto. destruct (d =? c); lia.
Qed.
Section Rotate.
Variables (M : (nat -> bool) -> Prop) (s s' : sat).
Hypotheses (Hi : searchInv M s) (Hc : Comp M s) (Q : qhead s = length (trail s)) (F : forall v, v < nvars s -> val_ s v <> None).
Hypotheses (Edb : db s' = db s) (Ew : wat s' = wat s) (Eb : wbin s' = wbin s) (Em : forall v, v < nvars s -> mval s' v = asgOf s v) (Pos : forall c, posAM (db s c)).
Lemma full_wok : forall c q, In c (att s) -> tru s q -> In q (wset (db s c)) -> (In c (map fst (wat s q)) \/ In c (map fst (wbin s q))) /\ wok s q c.
Proof.
  destruct Hi as ([A W En] & X & P). intros c q I Tq Wq. assert (Iq : In q (firstn (qhead s) (trail s))) by (rewrite Q, firstn_all; apply (as_val _ _ _ A); auto).
  assert (Bd : big (db s c) \/ ~ big (db s c)). { unfold big. destruct (c_atm (db s c)); [left; left; auto|]. destruct (le_lt_dec (length (c_lits (db s c))) 2); [right|left; right; auto]. intros [?|?]; [discriminate|lia]. }
  assert (Wc : In c (map fst (wat s q)) \/ In c (map fst (wbin s q))). { destruct Bd as [B|B]; [left; destruct (wt_fw _ W c q I B Wq) as (b & Y)|right; destruct (wt_fwb _ W c q I B Wq) as (b & Y)]; eapply In_map_fst; eauto. }
  split; auto. destruct (P q c Iq Wc) as [[]|]; auto.
Qed.
Lemma watched : forall c q, In c (att s) -> In q (wset (db s c)) -> In c (map fst (wat s q)) \/ In c (map fst (wbin s q)).
Proof.
  destruct Hi as ([A W En] & X & P). intros c q I Wq.
  assert (Bd : big (db s c) \/ ~ big (db s c)). { unfold big. destruct (c_atm (db s c)); [left; left; auto|]. destruct (le_lt_dec (length (c_lits (db s c))) 2); [right|left; right; auto]. intros [?|?]; [discriminate|lia]. }
  destruct Bd as [B|B]; [left; destruct (wt_fw _ W c q I B Wq) as (b & Y)|right; destruct (wt_fwb _ W c q I B Wq) as (b & Y)]; eapply In_map_fst; eauto.
Qed.
Variable l : slit.
Hypotheses (Lv : fst l < nvars s) (Tl : tru s l) (Ll : lev s l <> 0) (Rl : isRotatable s' l = true).
Lemma rot_unit : forall c, In c (att s) -> In (neg l) (wset (db s c)) -> isUnit s' l c = false.
Proof.
  intros c I Wq. unfold isRotatable in Rl. destruct (rsn s' (fst l)); [discriminate|]. apply andb_true_iff in Rl as [R1 R2]. apply negb_true_iff in R1, R2. rewrite Ew in R1. rewrite Eb in R2.
  destruct (isUnit s' l c) eqn:U; auto. exfalso. destruct (watched c (neg l) I Wq) as [Y|Y]; apply map_fst_In in Y as (b & Y); [rewrite <- not_true_iff_false in R1; apply R1|rewrite <- not_true_iff_false in R2; apply R2]; apply existsb_exists; exists (c, b); auto.
Qed.
Lemma rot_full : forall c, In c (att s) -> csat (asgOf s) (db s c).
Proof. destruct Hi as ([A W En] & X & P). intros c I. apply full_csat; auto. intros x; apply (as_val _ _ _ A). Qed.
Lemma rot_csat : forall c, In c (att s) -> csat (flip (fst l) (asgOf s)) (db s c).
Proof.
  intros c I. pose proof (rot_full c I) as Sa. pose proof (rot_unit c I) as Ru. destruct Hi as ([A W En] & X & P). pose proof (wt_cl _ W c I) as (C1 & C2 & C3 & C4).
  assert (D : forall x, In x (c_lits (db s c)) -> tru s x \/ fls s x). { intros x Ix. specialize (F (fst x) (C3 x Ix)). unfold tru, fls, val. destruct (val_ s (fst x)) as [b|]; [|congruence]. destruct (xorb b (snd x)); auto. }
  assert (Al : forall x, In x (c_lits (db s c)) -> alit (asgOf s) x = isT s x) by (intros x Ix; apply asgOf_isT; auto).
  assert (Tal : alit (asgOf s) l = true) by (apply asgOf_tru; auto).
  unfold csat in *. unfold isUnit in Ru. rewrite Edb in Ru. destruct (bool_dec (c_atm (db s c)) true) as [At|At]; [|apply not_true_is_false in At]; rewrite At in *.
  - destruct (C4 eq_refl) as [C5 C6]. set (ls := c_lits (db s c)) in *. destruct (in_dec slit_dec (neg l) ls) as [In1|In1].
    2:{ etransitivity; [|exact Sa]. apply filter_le. intros x Ix Y. destruct (Nat.eq_dec (fst x) (fst l)) as [E|E]; [|rewrite flip_other in Y; auto]. destruct (var_or x l E) as [-> | ->]; [|exfalso; auto]. rewrite (flip_same (fst l) (asgOf s) l eq_refl), Tal in Y; discriminate Y. }
    assert (Fn : fls s (neg l)) by (apply tru_neg; rewrite neg_neg; auto).
    assert (Cn : length (filter (alit (flip (fst l) (asgOf s))) ls) <= S (length (filter (isT s) ls))).
    { change (S (length (filter (isT s) ls))) with (length (neg l :: filter (isT s) ls)). apply NoDup_incl_length; [apply NoDup_filter; auto|]. intros x Ix. apply filter_In in Ix as [Ix Y]. destruct (Nat.eq_dec (fst x) (fst l)) as [E|E].
      - destruct (var_or x l E) as [-> | ->]; [|left; auto]. rewrite (flip_same (fst l) (asgOf s) l eq_refl), Tal in Y; discriminate Y.
      - right. apply filter_In. split; auto. rewrite flip_other in Y by auto. rewrite <- Al; auto. }
    etransitivity; [exact Cn|]. destruct (in_dec slit_dec (neg l) (firstn (c_w (db s c)) ls)) as [Iw|Iw].
    + assert (Wn : In (neg l) (wset (db s c))) by (unfold wset; rewrite At; auto). specialize (Ru Wn). apply unitAtMost_false in Ru; [|lia]. cbn [plus] in Ru. unfold maxT. fold ls.
      assert (length (filter (isT s) ls) <= length (filter (fun x => negb (fst l =? fst x) && mval s' (fst x)) ls)); [|lia].
      apply filter_le. intros x Ix Tx. pose proof Tx as Tx'. apply isT_tru in Tx'. apply andb_true_iff. split.
      * destruct (Nat.eqb_spec (fst l) (fst x)) as [E|E]; auto. exfalso. destruct (var_or x l (eq_sym E)) as [-> | ->]; [apply (C6 l); auto|eapply tru_fls; eauto].
      * rewrite Em by auto. apply asgOf_tru in Tx'. unfold alit in Tx'. rewrite (Pos c At x Ix) in Tx'. rewrite xorb_false_r in Tx'. exact Tx'.
    + assert (Dj : length (filter (isT s) ls) + length (filter (isF s) ls) <= length ls). { apply filter_disj. intros x _. rewrite isT_tru, isF_fls. apply tru_fls. }
      assert (Fw : c_w (db s c) - 1 <= length (filter (isF s) (firstn (c_w (db s c)) ls))).
      { destruct (existsb (isT s) (firstn (c_w (db s c)) ls)) eqn:Xb.
        - apply existsb_exists in Xb as (q & Iq & Tq). apply isT_tru in Tq. assert (Wq : In q (wset (db s c))) by (unfold wset; rewrite At; auto). destruct (full_wok c q I Tq Wq) as [_ K]. unfold wok in K. rewrite At in K. etransitivity; [exact K|]. apply filter_le. intros x _ Y. apply andb_true_iff in Y. tauto.
        - rewrite (filter_eq (isF s) (fun _ => true)).
          + assert (forall {A} (l : list A), filter (fun _ => true) l = l) as FT by (intros B0; induction l0; cbn; congruence). rewrite FT, firstn_length. lia.
          + intros x Ix. apply isF_fls. destruct (D x); auto; [eapply In_firstn; eauto|]. exfalso. rewrite <- not_true_iff_false in Xb. apply Xb. apply existsb_exists. exists x. split; auto. apply isT_tru; auto. }
      assert (Sk : 1 <= length (filter (isF s) (skipn (c_w (db s c)) ls))).
      { assert (Y : In (neg l) (skipn (c_w (db s c)) ls)). { rewrite <- (firstn_skipn (c_w (db s c)) ls) in In1. apply in_app_iff in In1 as [|]; [exfalso; auto|auto]. }
        assert (Z : In (neg l) (filter (isF s) (skipn (c_w (db s c)) ls))) by (apply filter_In; split; auto; apply isF_fls; auto). destruct (filter (isF s) (skipn (c_w (db s c)) ls)); [destruct Z|cbn; lia]. }
      assert (Sp : length (filter (isF s) ls) = length (filter (isF s) (firstn (c_w (db s c)) ls)) + length (filter (isF s) (skipn (c_w (db s c)) ls))) by (rewrite <- app_length, <- filter_app, firstn_skipn; auto).
      unfold maxT. fold ls. lia.
  - destruct (in_dec slit_dec (neg l) (c_lits (db s c))) as [In1|In1]; [exists (neg l); split; auto; rewrite flip_same, alit_neg, Tal; auto|].
    destruct (existsb (fun x => negb (slit_eqb x l) && isT s x) (c_lits (db s c))) eqn:Xb.
    { apply existsb_exists in Xb as (x & Ix & Y). apply andb_true_iff in Y as [Y1 Y2]. exists x. split; auto. rewrite flip_other; [rewrite Al; auto|]. intros E. destruct (var_or x l E) as [-> | ->]; auto. rewrite slit_eqb_refl in Y1. discriminate. }
    exfalso. assert (Ot : forall x, In x (c_lits (db s c)) -> x = l \/ fls s x).
    { intros x Ix. destruct (D x Ix) as [Tx|]; auto. left. destruct (slit_eqb x l) eqn:E; [apply slit_eqb_eq; auto|]. exfalso. rewrite <- not_true_iff_false in Xb. apply Xb, existsb_exists. exists x. rewrite E. cbn. split; auto. apply isT_tru; auto. }
    destruct Sa as (x & Ix & Tx). assert (x = l). { destruct (Ot x Ix) as [|Fx]; auto. rewrite Al in Tx by auto. apply isT_tru in Tx. exfalso; eapply tru_fls; eauto. } subst x.
    destruct (in_dec slit_dec l (firstn 2 (c_lits (db s c)))) as [Iw|Iw].
    + assert (Wn : In (neg l) (wset (db s c))) by (unfold wset; rewrite At; apply in_map; auto). specialize (Ru Wn). rewrite <- not_true_iff_false in Ru. apply Ru. apply forallb_forall. intros x Ix'. destruct (slit_eqb l x) eqn:E; [reflexivity|]. cbn. rewrite negb_involutive.
      destruct (Ot x Ix') as [-> |Fx]; [rewrite slit_eqb_refl in E; discriminate|]. rewrite Em by auto. unfold fls, val in Fx. unfold asgOf. destruct (val_ s (fst x)) as [b|]; [|discriminate]. destruct b, (snd x); cbn in Fx |- *; congruence.
    + assert (L2 : 2 < length (c_lits (db s c))). { destruct (le_lt_dec (length (c_lits (db s c))) 2); auto. exfalso. apply Iw. rewrite firstn_all2; auto. }
      destruct (wt_blk _ W c I At L2) as (p & t & B1 & B2 & B3 & B4).
      assert (Ff : forall y, In y (firstn 2 (c_lits (db s c))) -> fls s y). { intros y Iy. destruct (Ot y) as [-> |]; auto; [eapply In_firstn; eauto|exfalso; auto]. }
      assert (Tp : tru s p) by (pose proof (Ff _ B2) as Y; apply tru_neg in Y; rewrite neg_neg in Y; auto).
      assert (Wp : In p (wset (db s c))) by (unfold wset; rewrite At; apply in_map_iff; exists (neg p); split; auto; apply neg_neg).
      destruct (full_wok c p I Tp Wp) as [_ K]. unfold wok in K. rewrite At in K. destruct K as (t' & [K|K] & Tt & _).
      * assert (E : Some t = Some t') by (eapply occ_one; [apply (wt_once _ W p c)|exact B1|exact K]). inversion E; subst t'. eapply tru_fls; eauto.
      * eapply tru_fls; eauto.
Qed.
Lemma rotate_ok : forall a, (forall v, v < nvars s -> a v = asgOf s v) -> M (flip (fst l) a).
Proof.
  intros a Ea. apply Hc.
  - intros c I. assert (Ia : In c (att s)) by (apply in_or_app; auto). apply (csat_ext (nvars s) _ (flip (fst l) (asgOf s))); [|destruct Hi as ([_ W _] & _); apply (wt_cl _ W c Ia)|apply rot_csat; auto].
    intros v Lt. unfold flip. rewrite Ea; auto.
  - intros u I. destruct Hi as ([A W En] & X & _). destruct (ex_units _ X u I) as [Iu L0]. assert (N : fst u <> fst l) by (intros E; apply Ll; unfold lev in *; congruence). rewrite flip_other by auto.
    rewrite (alit_ext a (asgOf s)) by (apply Ea, (as_vars _ _ _ A); auto). apply asgOf_tru. apply (as_val _ _ _ A); auto.
Qed.
End Rotate.
(** what the solver knows after a satisfiable answer: the values at level 0 are forced, rotatable literals can be turned *)
Definition lastSat (M : (nat -> bool) -> Prop) (s : sat) : Prop :=
  (forall v, v < nvars s -> lvl s v = 0 -> forall a, M a -> a v = mval s v) /\
  ((forall c, posAM (db s c)) -> forall v, v < nvars s -> lvl s v <> 0 -> isRotatable s (v, negb (mval s v)) = true -> M (flip v (mval s))).
Lemma lastSat_ok : forall M s s', searchInv M s -> Comp M s -> qhead s = length (trail s) -> (forall v, v < nvars s -> val_ s v <> None) ->
  db s' = db s -> wat s' = wat s -> wbin s' = wbin s -> lvl s' = lvl s -> nvars s' = nvars s -> (forall v, v < nvars s -> mval s' v = asgOf s v) -> lastSat M s'.
Proof.
  intros M s s' Hi Hc Q F Edb Ew Eb El En Em. split.
  - rewrite En, El. intros v Lv L0 a Ma. rewrite Em by auto. destruct Hi as ([A W _] & _). specialize (F v Lv). unfold asgOf. destruct (val_ s v) as [b|] eqn:V; [|congruence].
    assert (T : tru s (v, negb b)) by (unfold tru, val; cbn; rewrite V; destruct b; auto). pose proof (as_l0 _ _ _ A (v, negb b) a) as Y. specialize (Y (proj2 (as_val _ _ _ A _) T) L0 Ma). unfold alit in Y. cbn in Y. destruct (a v), b; cbn in *; congruence.
  - rewrite En, El, Edb. intros Pos v Lv Ll R. change v with (fst (v, negb (mval s' v))) at 1. apply (rotate_ok M s s'); auto. unfold tru, val. cbn. rewrite Em by auto. unfold asgOf. specialize (F v Lv). destruct (val_ s v) as [[]|]; auto; congruence.
Qed.
Lemma unitAtMost_same : forall s s' l k ls cnt, model s' = model s -> unitAtMost s' l k cnt ls = unitAtMost s l k cnt ls.
Proof. intros s s' l k ls cnt E. revert cnt. induction ls as [|x r IH]; intros cnt; cbn [unitAtMost]; auto. unfold mval. rewrite E, !IH. reflexivity. Qed.
Lemma lastSat_same : forall M s s', db s' = db s -> wat s' = wat s -> wbin s' = wbin s -> lvl s' = lvl s -> rsn s' = rsn s -> nvars s' = nvars s -> model s' = model s -> lastSat M s -> lastSat M s'.
Proof.
  intros M s s' E1 E2 E3 E4 E5 E6 E7 [L1 L2]. assert (Em : forall v, mval s' v = mval s v) by (intros; unfold mval; rewrite E7; auto).
  assert (Eu : forall l c, isUnit s' l c = isUnit s l c). { intros l c. unfold isUnit. rewrite E1, (unitAtMost_same s s') by auto. destruct (c_atm (db s c)); auto. unfold mval. rewrite E7. auto. }
  assert (Er : forall l, isRotatable s' l = isRotatable s l). { intros l. unfold isRotatable. rewrite E2, E3, E5. destruct (rsn s (fst l)); auto. f_equal; f_equal; [generalize (wat s (neg l))|generalize (wbin s (neg l))]; intros es; induction es as [|e r IH]; cbn; auto; rewrite Eu, IH; auto. }
  split; [rewrite E4, E6; intros; rewrite Em; auto|]. rewrite E1, E4, E6. intros P v Lv Ll R. rewrite Em, Er in R. specialize (L2 P v Lv Ll R). replace (mval s') with (mval s); auto. unfold mval. rewrite E7. auto.
Qed.
Lemma si_assumps : forall M x s, searchInv M s -> tlim s = [] -> searchInv M (with_assumps x s).
Proof.
  intros M x s ([A W En] & [] & Pr) T. split; [|split; [constructor; assumption|exact Pr]]. constructor; [|destruct W; constructor; assumption|exact En].
  destruct A as [A1 A2 A3 A4 A5 A6 A7 A8 A9 A10]. constructor; auto.
  - intros i l X R L. destruct (A7 i l X R L) as [Y _]. rewrite T in Y. destruct (lev s l - 1); discriminate.
  - intros i l X L. unfold dl in L. change (tlim (with_assumps x s)) with (tlim s) in L. rewrite T in L. cbn in L. lia.
Qed.
Lemma si_mc : forall M m c s, searchInv M s -> searchInv M (with_conflict c (with_model m s)).
Proof. intros M m c s ([[] [] En] & [] & Pr). split; [constructor; [constructor; assumption|constructor; assumption|assumption]|]. split; [constructor; assumption|exact Pr]. Qed.
(** equal up to the parts that only concern calls *)
Definition frOk (s s' : sat) : Prop := Fr s (with_ok (ok s) s').
Lemma frok_fr : forall s s', Fr s s' -> frOk s s'.
Proof. intros s s' F. pose proof (fr_same _ _ F) as E. destruct F. constructor; auto. inversion E. cbn. congruence. Qed.
Lemma frok_ok : forall s t b, frOk s t -> frOk s (with_ok b t).
Proof. intros s t b F. destruct F. constructor; auto. Qed.
Lemma frok_trans : forall s t u, Fr s t -> frOk t u -> Wat t -> frOk s u.
Proof. intros s t u F G W. unfold frOk in *. assert (ok t = ok s) by (fr F; congruence). rewrite <- H. eapply fr_trans; eauto. Qed.
Lemma base_ok : forall b s, Base s -> Base (with_ok b s).
Proof. intros b s [[] B2 B3 B4 B5 B6 B7]. constructor; auto. constructor; assumption. Qed.
Lemma base_ev : forall x s, Base s -> Base (with_ev x s).
Proof. intros b s [[] B2 B3 B4 B5 B6 B7]. constructor; auto. constructor; assumption. Qed.
Lemma base_mc : forall m c s, Base s -> Base (with_conflict c (with_model m s)).
Proof. intros m c s [[] B2 B3 B4 B5 B6 B7]. constructor; auto. constructor; assumption. Qed.
Lemma base_assumps : forall x s, Base s -> Base (with_assumps x s).
Proof. intros x s [[] B2 B3 B4 B5 B6 B7]. constructor; auto. constructor; assumption. Qed.
Lemma linv_ev : forall M x s, LInv M s -> LInv M (with_ev x s).
Proof. intros M x s [B H]. split; [apply base_ev; auto|]. change (ok (with_ev x s)) with (ok s). destruct (ok s); auto. destruct H as (H1 & H2 & H3). split; [apply si_ev; auto|]. split; auto. Qed.
Lemma linv_mc : forall M m c s, LInv M s -> LInv M (with_conflict c (with_model m s)).
Proof. intros M m c s [B H]. split; [apply base_mc; auto|]. change (ok (with_conflict c (with_model m s))) with (ok s). destruct (ok s); auto. destruct H as (H1 & H2 & H3). split; [apply si_mc; auto|]. split; auto. Qed.
Lemma linv_assumps : forall M x s, LInv M s -> LInv M (with_assumps x s).
Proof. intros M x s [B H]. split; [apply base_assumps; auto|]. change (ok (with_assumps x s)) with (ok s). destruct (ok s); auto. destruct H as (H1 & H2 & H3). split; [apply si_assumps; auto; apply B|]. split; auto. Qed.
Lemma fr_mc : forall m c s, Fr s (with_conflict c (with_model m s)).
Proof. intros. constructor; auto; [intros; apply cperm_refl|]. exists []. cbn. rewrite app_nil_r. auto. Qed.
(** what an answer means: [m] the model, [cf] the clause over the assumptions *)
Definition answer (M : (nat -> bool) -> Prop) (nv : nat) (ps : list slit) (r : option bool) (m : list bool) (cf : list slit) : Prop :=
  match r with
  | Some true => length m = nv /\ M (fun v => nth v m false) /\ forall p, In p ps -> alit (fun v => nth v m false) p = true
  | Some false => (forall q, In q cf -> In (neg q) ps) /\ (forall a, M a -> exists q, In q cf /\ alit a q = true) /\ NoDup cf
  | None => True
  end.
Section Solve.
Variables (o : oracle) (cm : clauseMin) (M : (nat -> bool) -> Prop).
Hypotheses (Hsort : forall n l, Permutation (o_sort o n l) l) (Hconf : forall n, o_conf o n = true).
Lemma searches_ok : forall n k s, searchInv M s -> NA cm s -> assumpsOK s -> ok s = true -> wp (searches o cm k n) s (fun r s' => r <> StUndef /\ searchPost M s r s').
Proof.
  intros n. induction k as [|k IH]; intros s H Na As Ok; [exact I|]. cbn [searches]. apply wp_bind. unfold search. unfold wp at 1. rewrite Ok.
  pose proof (searchLoop_ok o cm M Hsort Hconf n s H Na As) as Y. unfold wp in Y. destruct (searchLoop o cm n s) as [r s1| |]; auto. destruct r; try (split; [discriminate|exact Y]).
  destruct Y as (F1 & S1 & D1 & C1). eapply wp_mono; [apply IH; auto; [eapply na_fr; eauto|eapply ass_fr; eauto|fr F1; congruence]|]. cbv beta. intros r u (N & Pu). split; auto. eapply post_trans; eauto. apply S1.
Qed.
Lemma model_nth : forall nv (f : nat -> bool) v, v < nv -> nth v (map f (seq 0 nv)) false = f v.
Proof. intros nv f v L. rewrite (nth_indep _ false (f 0)) by (rewrite map_length, seq_length; auto). rewrite map_nth, seq_nth; auto. Qed.
Lemma solve_ok : forall n s, LInv M s -> NA cm s -> assumpsOK s ->
  wp (solve o cm n) s (fun r s' => LInv M s' /\ frOk s s' /\ answer M (nvars s) (assumps s) r (model s') (conflict s') /\ (r = Some true -> lastSat M s')).
Proof.
  intros n s L0 Na As. unfold solve. apply wp_bind. unfold resume at 1, wp at 1. set (s1 := with_ev (S (ev s)) s). assert (L1 : LInv M s1) by (apply linv_ev; auto). assert (F1 : Fr s s1) by apply fr_ev.
  assert (W0 : Wat s) by apply L0. assert (W1 : Wat s1) by apply L1.
  destruct (negb (o_hdl o (ev s))); [apply wp_ret; split; auto; split; [apply frok_fr; auto|split; [exact I|discriminate]]|].
  apply wp_bind, wp_modify, wp_bind, wp_modify. set (s2 := with_conflict [] (with_model [] s1)). assert (L2 : LInv M s2) by (apply linv_mc; auto). assert (F2 : Fr s s2) by (apply (fr_trans s s1 s2 F1 (fr_mc _ _ s1) W1)).
  assert (C2 : conflict s2 = []) by reflexivity. assert (N2 : NA cm s2) by (eapply na_fr; eauto). assert (A2 : assumpsOK s2) by (eapply ass_fr; eauto). clearbody s2. clear s1 L1 F1 W1.
  unfold wp. destruct (ok s2) eqn:Ok; cbn [negb].
  2:{ split; auto. split; [apply frok_fr; auto|]. destruct L2 as [_ H]. rewrite Ok in H. split; [split; [rewrite C2; intros q []|split; [intros a Ma; exfalso; eapply H; eauto|rewrite C2; constructor]]|discriminate]. }
  match goal with |- match ?m s2 with _ => _ end => change (wp m s2 (fun r s' => LInv M s' /\ frOk s s' /\ answer M (nvars s) (assumps s) r (model s') (conflict s') /\ (r = Some true -> lastSat M s'))) end.
  destruct L2 as [B2 H]. rewrite Ok in H. destruct H as (S2 & Q2 & Cm2). apply wp_bind. eapply wp_mono; [apply (searches_ok n n s2 S2 N2 A2 Ok)|]. cbv beta. intros r s3 (Nr & F3 & H3).
  assert (W2 : Wat s2) by apply S2. assert (F03 : Fr s s3) by apply (fr_trans s s2 s3 F2 F3 W2). assert (Cm3 : Comp M s3) by (eapply comp_fr; eauto).
  assert (Ok3 : ok s3 = true) by (fr F3; congruence). assert (Nv3 : nvars s3 = nvars s) by (fr F03; congruence). assert (As3 : assumps s3 = assumps s) by (fr F03; congruence).
  assert (Fin : forall (x : option bool) b s4, LInv M s4 -> frOk s s4 -> answer M (nvars s) (assumps s) (Some b) (model s4) (conflict s4) -> (b = true -> lastSat M s4) -> x = Some b ->
     wp (b0 <-- resume (o_hdl o) ;; ret (if b0 then x else None)) s4 (fun r s' => LInv M s' /\ frOk s s' /\ answer M (nvars s) (assumps s) r (model s') (conflict s') /\ (r = Some true -> lastSat M s'))).
  { intros x b s4 L4 F4 A4 R4 ->. apply wp_bind. unfold resume, wp at 1. apply wp_ret. split; [apply linv_ev; auto|]. split; [destruct F4; constructor; auto|]. destruct (o_hdl o (ev s4)); [|split; [exact I|discriminate]]. split; [exact A4|]. intros Eb. inversion Eb; subst. apply (lastSat_same M s4); auto. }
  destruct r; [| |congruence].
  - destruct H3 as (S3 & Q3 & Fu & Ha). apply wp_bind, wp_modify. set (m := map _ _). set (s4 := with_model m s3).
    assert (S4 : searchInv M s4). { pose proof (si_mc M m (conflict s3) s3 S3) as Y. exact Y. } assert (F4 : Fr s s4) by (apply (fr_trans s s3 s4 F03 (fr_mc m (conflict s3) s3)); apply S3).
    apply wp_bind, wp_modify. destruct (cancel0_ok M s4 S4) as (S5 & F5 & D5 & C5).
    assert (Q5 : qhead (cancelUntil 0 s4) = length (trail (cancelUntil 0 s4))). { unfold cancelUntil. change (tlim s4) with (tlim s3). destruct (tlim s3) as [|k t] eqn:Tl; [exact Q3|]. cbn. symmetry. apply firstn_length_le. apply (as_lim _ _ _ (pi_asg _ _ (proj1 S3)) 0). rewrite Tl; auto. }
    assert (M5 : model (cancelUntil 0 s4) = m). { unfold cancelUntil. change (tlim s4) with (tlim s3). destruct (tlim s3) as [|k t]; [reflexivity|]. cbn [nth_error]. destruct (unassign_all (skipn k (trail s4)) s4) as (h & p & vl & E & _). rewrite E. reflexivity. }
    assert (Ca : db (cancelUntil 0 s4) = db s3 /\ wat (cancelUntil 0 s4) = wat s3 /\ wbin (cancelUntil 0 s4) = wbin s3 /\ lvl (cancelUntil 0 s4) = lvl s3 /\ nvars (cancelUntil 0 s4) = nvars s3). { unfold cancelUntil. change (tlim s4) with (tlim s3). destruct (tlim s3) as [|k t]; [repeat split|]. cbn [nth_error]. destruct (unassign_all (skipn k (trail s4)) s4) as (h & p & vl & E & _). rewrite E. repeat split. }
    assert (W4 : Wat s4) by apply S4. assert (F05 : Fr s (cancelUntil 0 s4)) by apply (fr_trans s s4 _ F4 F5 W4).
    apply (Fin _ true); auto.
    + split; [apply (base_inv M); auto; apply S5|]. assert (Ok5 : ok (cancelUntil 0 s4) = true). { pose proof (fr_same _ _ F5) as E. inversion E. congruence. } rewrite Ok5. split; auto. split; auto. eapply comp_fr; [exact W4|exact F5|exact Cm3].
    + apply frok_fr; auto.
    + rewrite M5. cbn. split; [unfold m; rewrite map_length, seq_length; auto|].
      assert (Em : forall v, v < nvars s3 -> nth v m false = asgOf s3 v) by (intros v Lv; apply model_nth; auto). split.
      * apply (model_ok M s3); auto.
      * intros p Ip. rewrite <- As3 in Ip. rewrite (alit_ext _ (asgOf s3)); [apply asgOf_tru; auto|]. apply Em. rewrite Nv3. apply As. congruence.
    + intros _. destruct Ca as (Ca1 & Ca2 & Ca3 & Ca4 & Ca5). apply (lastSat_ok M s3); auto. intros v Lv. unfold mval. rewrite M5. apply model_nth; auto.
  - destruct H3 as [(P3 & X3 & D3 & C3 & U3)|(S3 & Q3 & FC3)].
    + rewrite C2 in C3. apply wp_bind. unfold wp at 1. rewrite C3. apply wp_bind, wp_modify.
      assert (E : cancelUntil 0 (with_ok false s3) = with_ok false s3). { unfold cancelUntil. change (tlim (with_ok false s3)) with (tlim s3). unfold dl in D3. destruct (tlim s3); [auto|discriminate]. } rewrite E.
      apply (Fin _ false); auto.
      * split; [apply base_ok, (base_inv M); auto|exact U3].
      * apply frok_ok, frok_fr; auto.
      * change (conflict (with_ok false s3)) with (conflict s3). rewrite C3. split; [intros q []|split; [|constructor]]. intros a Ma. exfalso. eapply U3; eauto.
      * discriminate.
    + apply wp_bind. unfold wp at 1. destruct FC3 as (N3 & I3 & E3 & D3). destruct (conflict s3) as [|q0 cf] eqn:Cf; [congruence|]. rewrite <- Cf in *. apply wp_bind, wp_modify. destruct (cancel0_ok M s3 S3) as (S5 & F5 & D5 & C5).
      assert (Q5 : qhead (cancelUntil 0 s3) = length (trail (cancelUntil 0 s3))). { unfold cancelUntil. destruct (tlim s3) as [|k t] eqn:Tl; [exact Q3|]. cbn. symmetry. apply firstn_length_le. apply (as_lim _ _ _ (pi_asg _ _ (proj1 S3)) 0). rewrite Tl; auto. }
      assert (W3 : Wat s3) by apply S3.
      apply (Fin _ false); auto.
      * split; [apply (base_inv M); auto; apply S5|]. assert (Ok5 : ok (cancelUntil 0 s3) = true). { pose proof (fr_same _ _ F5) as E. inversion E. congruence. } rewrite Ok5. split; auto. split; auto. eapply comp_fr; [exact W3|exact F5|exact Cm3].
      * apply frok_fr. apply (fr_trans s s3 _ F03 F5 W3).
      * rewrite C5. split; [|split; auto]. intros q Iq. rewrite <- As3. auto.
      * discriminate.
Qed.
Lemma solveWith_ok : forall n ps s, LInv M s -> NA cm s -> (forall p, In p ps -> fst p < nvars s) ->
  wp (solveWith o cm n ps) s (fun r s' => LInv M s' /\ frOk s (with_assumps (assumps s) s') /\ assumps s' = [] /\ answer M (nvars s) ps r (model s') (conflict s') /\ (r = Some true -> lastSat M s')).
Proof.
  intros n ps s L Na H. unfold solveWith. apply wp_bind, wp_modify, wp_bind. eapply wp_mono; [apply (solve_ok n (with_assumps ps s)); auto; apply linv_assumps; auto|]. cbv beta. intros r s' (L' & F' & A' & R'). apply wp_bind, wp_modify, wp_ret.
  split; [apply linv_assumps; auto|]. split; [|split; [reflexivity|split; [exact A'|intros Er; apply (lastSat_same M s'); auto]]]. pose proof (fr_same _ _ F') as E. destruct F'. constructor; auto. cbn in *. inversion E. congruence.
Qed.
End Solve.
