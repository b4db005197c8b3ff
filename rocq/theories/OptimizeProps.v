(** * C52: optimization *)
From Coq Require Import String List Bool Arith Lia ZArith DecimalString NArith.
From Verif Require Import NfBase Spec Solver Optimize.
Import ListNotations.

(** ** Specification *)

(** The number of the given literals (with repetitions) that are true. *)
Definition trueOf (b : asg) (lits : list lit) : nat := length (filter (eval_lit b) lits).

(** [b] is a model of [fs] with the most (the fewest) true literals. *)
Definition optimal (maximize : bool) (fs : list tree) (lits : list lit) (b : asg) : Prop :=
  satisfies b fs /\
  forall b', satisfies b' fs -> if maximize then trueOf b' lits <= trueOf b lits else trueOf b lits <= trueOf b' lits.

(** The name of a selector variable. *)
Definition reserved (x : string) : Prop := exists i, x = selName i.
Definition unreserved (fs : list tree) (lits : list lit) : Prop :=
  (forall t x, In t fs -> reserved x -> ~ In x (varsOf t)) /\ (forall l, In l lits -> ~ reserved (fst l)).

Definition lit_dec (p q : lit) : {p = q} + {p <> q}.
Proof. decide equality; [apply bool_dec|apply string_dec]. Defined.

(** ** Proofs *)

Lemma selName_inj i j : selName i = selName j -> i = j.
Proof.
  unfold selName. intros H. cbn in H. injection H as H. apply digits_inj in H. now apply Nat2N.inj.
Qed.

Definition goal (maximize : bool) (l : lit) : lit := if maximize then l else negl l.
Definition score (mx : bool) (b : asg) (lits : list lit) : nat := length (filter (fun l => eval_lit b (goal mx l)) lits).

Lemma eval_negl b l : eval_lit b (negl l) = negb (eval_lit b l).
Proof. destruct l as [x []]; cbn; auto. now rewrite negb_involutive. Qed.

Lemma score_true b lits : score true b lits = trueOf b lits. Proof. reflexivity. Qed.
Lemma score_false b lits : score false b lits + trueOf b lits = length lits.
Proof.
  unfold score, trueOf, goal. induction lits as [|l r IH]; cbn; auto.
  rewrite eval_negl. destruct (eval_lit b l); cbn; lia.
Qed.
Lemma score_le mx b lits : score mx b lits <= length lits.
Proof. unfold score. induction lits as [|l r IH]; cbn; auto. destruct (eval_lit b _); cbn; lia. Qed.

Lemma optimal_score mx fs lits b : satisfies b fs -> (forall b', satisfies b' fs -> score mx b' lits <= score mx b lits) -> optimal mx fs lits b.
Proof.
  intros S H. split; auto. intros b' S'. specialize (H b' S'). destruct mx; [exact H|].
  pose proof (score_false b lits). pose proof (score_false b' lits). lia.
Qed.

(** Counting the true selectors. *)
Definition trues (b : asg) (xs : list string) : nat := length (filter b xs).

Lemma wsum_ones b xs : wsum b (map (fun x => (x, true)) xs) (map (fun _ => 1%Z) xs) = Z.of_nat (trues b xs).
Proof.
  unfold trues. induction xs as [|x r IH]; cbn [map wsum filter]; auto.
  rewrite IH. unfold eval_lit. cbn [fst snd]. destruct (b x); cbn [length]; lia.
Qed.
Lemma eval_atLeast b k xs : eval b (atLeast k xs) = true <-> k <= trues b xs.
Proof. unfold atLeast. cbn. rewrite wsum_ones, Z.leb_le. lia. Qed.

Lemma selClauses_eval mx sel l b :
  satisfies b (selClauses mx sel l) <-> b sel = eval_lit b (goal mx l).
Proof.
  destruct mx; cbn [selClauses goal]; rewrite satisfies_cons, satisfies_one; cbn [eval existsb];
    rewrite !orb_false_r, ?eval_negl;
    change (eval_lit b (sel, false)) with (negb (b sel)); change (eval_lit b (sel, true)) with (b sel);
    destruct (b sel); destruct (eval_lit b l); cbn; intuition congruence.
Qed.

Lemma sel_all mx b : forall sels lits, length sels = length lits ->
  satisfies b (flat_map (fun p => selClauses mx (fst p) (snd p)) (combine sels lits)) ->
  trues b sels = score mx b lits.
Proof.
  unfold trues, score. induction sels as [|x sels IH]; intros [|l lits] Hl H; cbn in *; try discriminate; auto.
  apply satisfies_app in H as [H1 H2]. apply selClauses_eval in H1. rewrite H1.
  destruct (eval_lit b (goal mx l)); cbn; rewrite (IH lits); auto.
Qed.

(** Extending an assignment to the selectors. *)
Fixpoint ext (mx : bool) (b : asg) (ps : list (string * lit)) : asg :=
  match ps with [] => b | (x, l) :: r => setTo (ext mx b r) x (eval_lit b (goal mx l)) end.

Lemma ext_other mx b y : forall ps, ~ In y (map fst ps) -> ext mx b ps y = b y.
Proof.
  induction ps as [|[x l] r IH]; cbn; intros H; auto. unfold setTo.
  destruct (String.eqb_spec y x) as [-> |]; [exfalso; auto|]. apply IH; auto.
Qed.
Lemma ext_in mx b x l : forall ps, NoDup (map fst ps) -> In (x, l) ps -> ext mx b ps x = eval_lit b (goal mx l).
Proof.
  induction ps as [|[y m] r IH]; cbn; intros N H; [contradiction|]. apply NoDup_cons_iff in N as [N1 N2].
  unfold setTo. destruct H as [H|H].
  - injection H as -> ->. now rewrite String.eqb_refl.
  - destruct (String.eqb_spec x y) as [<- |]; auto. exfalso. apply N1. apply in_map_iff. exists (x, l); auto.
Qed.

Definition selsOf (lits : list lit) : list string := map selName (seq 0 (length lits)).
Lemma sels_len lits : length (selsOf lits) = length lits.
Proof. unfold selsOf. now rewrite map_length, seq_length. Qed.
Lemma sels_nodup lits : NoDup (selsOf lits).
Proof. unfold selsOf. apply FinFun.Injective_map_NoDup; [intros i j; apply selName_inj|apply seq_NoDup]. Qed.
Lemma sels_reserved lits x : In x (selsOf lits) -> reserved x.
Proof. unfold selsOf. rewrite in_map_iff. intros (i & <- & _). now exists i. Qed.
Lemma fst_combine {A B} : forall (l : list A) (m : list B), length l = length m -> map fst (combine l m) = l.
Proof. induction l as [|x l IH]; intros [|y m] H; cbn in *; try discriminate; auto. rewrite IH; auto. Qed.

Definition selAll (mx : bool) (lits : list lit) : list tree :=
  flat_map (fun p => selClauses mx (fst p) (snd p)) (combine (selsOf lits) lits).

Lemma ext_sat mx fs lits b : unreserved fs lits -> satisfies b fs ->
  exists b', satisfies b' (fs ++ selAll mx lits) /\ trues b' (selsOf lits) = score mx b lits.
Proof.
  intros [U1 U2] S. set (ps := combine (selsOf lits) lits).
  assert (Ef : map fst ps = selsOf lits) by (apply fst_combine, sels_len).
  assert (Eo : forall y, ~ reserved y -> ext mx b ps y = b y).
  { intros y N. apply ext_other. rewrite Ef. intros H. apply N. eapply sels_reserved; eauto. }
  assert (El : forall l, In l lits -> eval_lit (ext mx b ps) (goal mx l) = eval_lit b (goal mx l)).
  { intros l Hl. assert (fst (goal mx l) = fst l) as Eg by (destruct mx; auto). unfold eval_lit. rewrite Eg.
    rewrite Eo; auto. }
  assert (A : satisfies (ext mx b ps) (selAll mx lits)).
  { intros t Ht. unfold selAll in Ht. apply in_flat_map in Ht as ([x l] & Hp & Ht). cbn in Ht.
    revert t Ht. change (satisfies (ext mx b ps) (selClauses mx x l)). apply selClauses_eval.
    rewrite (ext_in mx b x l ps); auto.
    - symmetry. apply El. unfold ps in Hp. apply in_combine_r in Hp; auto.
    - rewrite Ef. apply sels_nodup. }
  exists (ext mx b ps). split.
  - apply satisfies_app. split; auto. intros t Ht. rewrite <- (S t Ht). apply eval_agree.
    intros x Hx. apply Eo. intros R. eapply U1; eauto.
  - rewrite (sel_all mx _ (selsOf lits) lits (sels_len lits) A).
    unfold score. f_equal. apply filter_ext_in. intros l Hl. apply El; auto.
Qed.

Section Oracle.
Variable E : env.
Hypothesis OK : env_ok E.

(** A selector occurs in its clauses and so it has an index. *)
Lemma reg_needed c t x b : eval b t <> eval (setTo b x (negb (b x))) t -> In x (e_reg E c t).
Proof.
  intros H. destruct (in_dec string_dec x (e_reg E c t)); auto. exfalso. apply H.
  apply (eo_reg _ OK c). intros y Hy. unfold setTo. destruct (String.eqb_spec y x) as [-> |]; auto. contradiction.
Qed.

Lemma sel_registered mx sel l : fst l <> sel ->
  exists t, In t (selClauses mx sel l) /\ forall c, In sel (e_reg E c t).
Proof.
  intros N. exists (TOr [TLit (sel, false); TLit (goal mx l)]). split; [destruct mx; now left|]. intros c.
  apply (reg_needed _ _ _ (fun y => if String.eqb y sel then true else negb (snd (goal mx l)))).
  cbn. unfold eval_lit, setTo; cbn. rewrite !String.eqb_refl. cbn.
  replace (fst (goal mx l)) with (fst l) by (destruct mx; auto).
  destruct (String.eqb_spec (fst l) sel); [contradiction|]. destruct (snd (goal mx l)); cbn; discriminate.
Qed.

Lemma addAll_known x : forall ts s, In x (s_known s) \/ (exists t, In t ts /\ forall c, In x (e_reg E c t)) -> In x (s_known (addAll E s ts)).
Proof.
  induction ts as [|t r IH]; intros s H; cbn.
  - destruct H as [H|(t & [] & _)]; auto.
  - apply IH. destruct H as [H|(u & [<- |Hu] & H)]; [left|left|right; eauto]; cbn; apply in_or_app; auto.
Qed.

Lemma boundOf_known s b sels : incl sels (s_known s) -> boundOf s b sels = trues b sels.
Proof.
  intros H. unfold boundOf, posVars, createModel, trues. rewrite map_length.
  induction sels as [|x r IH]; cbn; auto.
  assert (knows s x = true) as ->.
  { unfold knows. apply existsb_exists. exists x. split; [apply H; now left|apply String.eqb_refl]. }
  cbn. destruct (b x); cbn; rewrite IH; auto; intros y Hy; apply H; now right.
Qed.

Section Run.
Variable (fs : list tree) (mx : bool) (lits : list lit) (rel : list string) (st : list (nat * (list tree * list string))).
Hypothesis UR : unreserved fs lits.
Let sels := selsOf lits.
Let n := length lits.

Record inv (s : solver) (K : nat) : Prop := mkInv {
  i_forms : exists ccs, s_forms s = (fs ++ selAll mx lits) ++ ccs /\
              (forall t, In t ccs -> exists k, k <= K /\ t = atLeast k sels) /\ (K = 0 \/ In (atLeast K sels) ccs);
  i_known : incl sels (s_known s);
  i_states : s_states s = st
}.

Lemma inv_sat s K c b : inv s K -> e_solve E c (s_forms s) [] = Sat b ->
  satisfies b fs /\ trues b sels = score mx b lits /\ K <= score mx b lits.
Proof.
  intros [(ccs & F & _ & HK) _ _] H. apply (eo_sat _ OK) in H as [H _]. rewrite F in H.
  apply satisfies_app in H as [H1 H2]. apply satisfies_app in H1 as [H0 H1].
  pose proof (sel_all mx b sels lits (sels_len lits) H1) as T. repeat split; auto.
  rewrite <- T. destruct HK as [-> |HK]; [lia|]. now apply eval_atLeast, H2.
Qed.

Lemma inv_unsat s K c : inv s K -> e_solve E c (s_forms s) [] = Unsat ->
  forall b, satisfies b fs -> score mx b lits < K \/ (K = 0 /\ False).
Proof.
  intros [(ccs & F & Hc & HK) _ _] H b S.
  destruct (le_lt_dec K (score mx b lits)) as [L|L]; auto. exfalso.
  destruct (ext_sat mx fs lits b UR S) as (b' & S' & T).
  apply (eo_unsat _ OK _ _ _ H b'); [|apply satisfies_nil]. rewrite F. apply satisfies_app. split; auto.
  intros t Ht. destruct (Hc t Ht) as (k & Hk & ->). apply eval_atLeast. fold sels in T. lia.
Qed.

Lemma inv_add s K k : inv s K -> K <= k -> inv (add E s (atLeast k sels)) k.
Proof.
  intros [(ccs & F & Hc & HK) Kn St] L. split; auto.
  - exists (ccs ++ [atLeast k sels]). split; [cbn; rewrite F, <- !app_assoc; reflexivity|]. split.
    + intros t Ht. apply in_app_or in Ht as [Ht|[<- |[]]]; [|eauto].
      destruct (Hc t Ht) as (k' & ? & ->). exists k'. split; auto. lia.
    + right. apply in_or_app. right. now left.
  - intros x Hx. cbn. apply in_or_app. left. auto.
Qed.
Lemma inv_call s K a s' : inv s K -> call E s [] = (a, s') -> inv s' K /\ exists c, a = e_solve E c (s_forms s') [].
Proof.
  intros [F Kn St] H. unfold call in H. injection H as <- <-. split; [split; cbn; auto|].
  - cbn. rewrite app_nil_r. auto.
  - exists (s_time s). reflexivity.
Qed.

Definition good (r : optRes) : Prop :=
  match r with
  | OModel m => exists b, m = modelOf rel b /\ optimal mx fs lits b
  | OUnsat => forall b, satisfies b fs -> False
  | OCanceled (Some m) => ~ uncancelled E /\ exists b, m = modelOf rel b /\ satisfies b fs
  | OCanceled None => ~ uncancelled E
  | OPanic | OFuel => False
  end.

Lemma cancelled_not c fs' ls : Canceled = e_solve E c fs' ls -> ~ uncancelled E.
Proof. intros H [U _]. symmetry in H. now apply U in H. Qed.

Lemma optLoop_ok : forall fuel s best data a K c,
  inv s K -> a = e_solve E c (s_forms s) [] -> satisfies best fs -> score mx best lits + 1 = K ->
  (data = Some K \/ n <= K) -> n < fuel + score mx best lits ->
  let '(r, s') := optLoop fuel E s sels rel best data a in good r /\ s_states s' = st.
Proof.
  induction fuel as [|fuel IH]; intros s best data a K c I Ea Sb EK D Fu; cbn [optLoop].
  - destruct a as [|b|]; cbn [good].
    + split; [|apply I]. split; [eapply cancelled_not; eauto|eauto].
    + exfalso. pose proof (score_le mx best lits). fold n in H. lia.
    + split; [|apply I]. exists best. split; auto. apply optimal_score; auto.
      intros b' S'. symmetry in Ea. destruct (inv_unsat _ _ _ I Ea b' S') as [?|[]]; [lia|tauto].
  - destruct a as [|b|].
    + cbn [good]. split; [|apply I]. split; [eapply cancelled_not; eauto|eauto].
    + set (s1 := mkSolver _ _ _ _ _). assert (I1 : inv s1 K) by (destruct I; split; auto).
      symmetry in Ea. destruct (inv_sat _ _ _ _ I Ea) as (S1 & T & L).
      assert (EB : boundOf s1 b sels = score mx b lits) by (rewrite boundOf_known; [auto|apply I1]).
      destruct (e_resume E (s_time s)) eqn:Er.
      2: { cbn [good]. split; [|apply I1]. split; [intros [_ U]; now rewrite U in Er|eauto]. }
      rewrite EB. assert (Ls : length sels = n) by apply sels_len. rewrite Ls.
      destruct (Nat.eqb_spec (score mx b lits) n) as [e|Ne].
      * cbn [good]. split; [|apply I1]. exists b. split; auto. apply optimal_score; auto.
        intros b' _. rewrite e. apply score_le.
      * pose proof (score_le mx b lits). fold n in H. destruct D as [-> |D]; [|lia].
        destruct (Nat.leb_spec (score mx b lits + 1) K) as [C|_]; [lia|].
        destruct (call E (add E s1 (atLeast (score mx b lits + 1) sels)) []) as [a' s3] eqn:Ca.
        destruct (inv_call _ (score mx b lits + 1) _ _ (inv_add _ _ (score mx b lits + 1) I1 ltac:(lia)) Ca) as (I3 & c' & Ea').
        eapply (IH s3 b); eauto. lia.
    + cbn [good]. split; [|apply I]. exists best. split; auto. apply optimal_score; auto.
      intros b' S'. symmetry in Ea. destruct (inv_unsat _ _ _ I Ea b' S') as [?|[]]; [lia|tauto].
Qed.

Lemma optTail_ok s best K : inv s K -> satisfies best fs -> K <= score mx best lits -> 1 <= score mx best lits ->
  let '(r, s') := optTail E s sels rel best (score mx best lits) in good r /\ s_states s' = st.
Proof.
  intros I Sb L L1. unfold optTail.
  destruct (call E (add E s (atLeast (score mx best lits + 1) sels)) []) as [a s2] eqn:Ca.
  destruct (inv_call _ (score mx best lits + 1) _ _ (inv_add _ _ (score mx best lits + 1) I ltac:(lia)) Ca) as (I3 & c' & Ea').
  eapply (optLoop_ok _ s2 best); eauto.
  - assert (Ls : length sels = n) by apply sels_len. rewrite Ls. unfold incData.
    destruct (Nat.ltb_spec 1 (score mx best lits + 1)); [|lia].
    destruct (Nat.ltb_spec (score mx best lits + 1) n); [now left|right; lia].
  - assert (Ls : length sels = n) by apply sels_len. rewrite Ls. lia.
Qed.

Lemma maximizeM_ok s : s_forms s = fs -> s_states s = st ->
  let '(r, s') := maximizeM E s mx lits rel in good r /\ s_states s' = st.
Proof.
  intros F St. unfold maximizeM. destruct (e_resume E (s_time s)) eqn:Er.
  2: { cbn. split; auto. intros [_ U]; now rewrite U in Er. }
  change (map selName (seq 0 (length lits))) with sels.
  set (s0 := mkSolver _ _ _ _ _). change (flat_map _ _) with (selAll mx lits).
  assert (I1 : inv (addAll E s0 (selAll mx lits)) 0).
  { split.
    - exists []. rewrite addAll_forms, app_nil_r. cbn. rewrite F. repeat split; auto. intros t [].
    - intros x Hx. apply addAll_known. right.
      assert (Hx' : In x (map fst (combine sels lits))) by (rewrite fst_combine; auto; apply sels_len).
      apply in_map_iff in Hx' as ([y l] & <- & Hp). cbn.
      destruct (sel_registered mx y l) as (t & Ht & Hr).
      { intros e. apply in_combine_r in Hp as Hl. apply (proj2 UR l Hl). rewrite e. eapply sels_reserved.
        apply in_combine_l in Hp. exact Hp. }
      exists t. split; auto. apply in_flat_map. exists (y, l). auto.
    - rewrite (proj1 (addAll_states E _ _)). exact St. }
  destruct (call E (addAll E s0 (selAll mx lits)) []) as [a s2] eqn:Ca.
  destruct (inv_call _ _ _ _ I1 Ca) as (I2 & c & Ea). destruct a as [|b|]; cbn [good].
  - split; [eapply cancelled_not; eauto|apply I2].
  - symmetry in Ea. destruct (inv_sat _ _ _ _ I2 Ea) as (S1 & T & L).
    assert (EB : boundOf s2 b sels = score mx b lits) by (rewrite boundOf_known; [auto|apply I2]).
    rewrite EB. assert (Ls : length sels = n) by apply sels_len. rewrite Ls.
    destruct (Nat.eqb_spec (score mx b lits) 0) as [Z|NZ].
    + destruct (call E (add E s2 (atLeast 1 sels)) []) as [a' s4] eqn:Ca4.
      destruct (inv_call _ 1 _ _ (inv_add _ _ 1 I2 ltac:(lia)) Ca4) as (I4 & c' & Ea').
      destruct a' as [|b'|]; cbn [good].
      * split; [|apply I4]. split; [eapply cancelled_not; eauto|eauto].
      * symmetry in Ea'. destruct (inv_sat _ _ _ _ I4 Ea') as (S4 & T4 & L4).
        rewrite boundOf_known by apply I4. rewrite T4. apply (optTail_ok s4 b' 1); auto.
      * split; [|apply I4]. exists b. split; auto. apply optimal_score; auto.
        intros b' S'. symmetry in Ea'. destruct (inv_unsat _ _ _ I4 Ea' b' S') as [?|[]]; [lia|tauto].
    + destruct (Nat.eqb_spec (score mx b lits) n) as [e|Ne]; cbn [good].
      * split; [|apply I2]. exists b. split; auto. apply optimal_score; auto.
        intros b' _. rewrite e. apply score_le.
      * apply (optTail_ok s2 b 0); auto; lia.
  - split; [|apply I2]. intros b S. symmetry in Ea. destruct (inv_unsat _ _ _ I2 Ea b S) as [?|[]]; [lia|tauto].
Qed.
End Run.
End Oracle.

(** ** The theorems *)

Lemma optimize_ok E s mx lits extra r s' : env_ok E -> unreserved (s_forms s) lits ->
  optimize E s mx lits extra = (r, s') ->
  good E (s_forms s) mx lits (filter (knows s) (nodup string_dec (extra ++ map fst lits))) r /\
  s_forms s' = s_forms s /\ s_known s' = s_known s /\ s_states s' = (s_next s, (s_forms s, s_known s)) :: s_states s.
Proof.
  intros OK UR H. unfold optimize in H. cbn [saveState] in H.
  set (s0 := mkSolver _ _ _ _ _) in H. set (rel := filter _ _) in H.
  pose proof (maximizeM_ok E OK (s_forms s) mx lits rel (s_states s0) UR s0 eq_refl eq_refl) as M.
  destruct (maximizeM E s0 mx lits rel) as [r1 s1]. destruct M as [G St].
  unfold loadState in H. rewrite St in H. cbn in H. rewrite Nat.eqb_refl in H. injection H as <- <-. cbn.
  split; [exact G|eauto].
Qed.

(** C52: for every correct solver and every handler, on a solver whose
    formulas do not use the reserved selector names.  The result is a model of
    the content with the most (fewest) true literals, restricted to the
    requested variables that have an index on the solver; nil exactly for an
    unsatisfiable content; a cancelled call returns nil or some model.  The
    content of the solver and its saved states are as before. *)
Theorem C52_optimum : forall E s maximize lits extra r s', env_ok E -> unreserved (s_forms s) lits ->
  optimize E s maximize lits extra = (r, s') ->
  match r with
  | OModel m => exists b, optimal maximize (s_forms s) lits b /\
                 forall x v, In (x, v) m <-> (In x extra \/ In x (map fst lits)) /\ In x (s_known s) /\ v = b x
  | OUnsat => forall b, ~ satisfies b (s_forms s)
  | OCanceled None => ~ uncancelled E
  | OCanceled (Some m) => ~ uncancelled E /\ exists b, satisfies b (s_forms s) /\ forall x v, In (x, v) m -> v = b x
  | OPanic | OFuel => False
  end /\
  s_forms s' = s_forms s /\ s_known s' = s_known s /\ exists id, s_states s' = (id, (s_forms s, s_known s)) :: s_states s.
Proof.
  intros E s mx lits extra r1 s' OK UR H. destruct (optimize_ok _ _ _ _ _ _ _ OK UR H) as [G Rest].
  split; [|intuition eauto]. clear Rest. set (rel := filter _ _) in G.
  assert (R : forall x, In x rel <-> (In x extra \/ In x (map fst lits)) /\ In x (s_known s)).
  { intros x. unfold rel. rewrite filter_In, nodup_In, in_app_iff. unfold knows. rewrite existsb_exists.
    cbn. split; intros [A B]; split; auto.
    - destruct B as (y & Hy & e). apply String.eqb_eq in e. now subst.
    - exists x. split; auto. apply String.eqb_refl. }
  destruct r1 as [|m|[m|]| |]; cbn [good] in G; auto.
  - destruct G as (b & -> & O). exists b. split; auto. intros x v. unfold modelOf. rewrite in_map_iff. split.
    + intros (y & e & Hy). injection e as -> <-. apply R in Hy. tauto.
    + intros (A & B & ->). exists x. split; auto. apply R. auto.
  - destruct G as (N & b & -> & S). split; auto. exists b. split; auto. intros x v. unfold modelOf. rewrite in_map_iff.
    intros (y & e & _). now injection e as -> <-.
Qed.

(** If all variables of the literals have an index on the solver then the
    returned model itself contains the optimal number of the literals. *)
Theorem C52_model : forall E s maximize lits extra m s', env_ok E -> unreserved (s_forms s) lits ->
  optimize E s maximize lits extra = (OModel m, s') -> (forall l, In l lits -> In (fst l) (s_known s)) ->
  forall b', satisfies b' (s_forms s) ->
  let found := length (filter (fun l => if in_dec lit_dec l m then true else false) lits) in
  if maximize then trueOf b' lits <= found else found <= trueOf b' lits.
Proof.
  intros E s mx lits extra m s' OK UR H K b' S'. destruct (C52_optimum _ _ _ _ _ _ _ OK UR H) as ((b & [S O] & M) & _).
  cbn zeta. match goal with |- context [length ?l] => assert (l = filter (eval_lit b) lits) as -> end.
  { apply filter_ext_in. intros [x v] Hl. destruct (in_dec lit_dec (x, v) m) as [i|i].
    - apply M in i as (_ & _ & ->). unfold eval_lit. cbn. now destruct (b x).
    - destruct (eval_lit b (x, v)) eqn:Ev; auto. exfalso. apply i. apply M. split; [right; apply in_map_iff; now exists (x, v)|].
      split; [exact (K _ Hl)|]. unfold eval_lit in Ev. cbn in Ev. destruct v, (b x); cbn in *; congruence. }
  apply (O b' S').
Qed.

(** Where the claim fails: a literal whose variable has no index on the solver
    is left out of the returned model, although it can be true. *)
Theorem C52_unknown_literal_refuted : exists s lits s', unreserved (s_forms s) lits /\
  optimize bruteEnv s true lits [] = (OModel [], s') /\ lits = [("x", true)]%string /\
  exists b, satisfies b (s_forms s) /\ trueOf b lits = 1.
Proof.
  exists (newSolver 0), [("x", true)]%string. eexists. split; [|split; [|split]].
  - split; [intros t x []|]. intros l [<- |[]] [i H]. unfold selName in H. cbn in H. discriminate.
  - vm_compute. reflexivity.
  - reflexivity.
  - exists (fun _ => true). split; [intros t []|reflexivity].
Qed.

(** A non-trivial case: of three clauses over four variables the optimum is 3
    of 4 literals for maximization and 1 of 4 for minimization. *)
Definition exOpt : solver :=
  addAll bruteEnv (newSolver 0)
    [TOr [TLit ("a", false); TLit ("b", false)]; TOr [TLit ("a", true); TLit ("c", true)]; TImpl (TLit ("d", false)) (TLit ("a", true))]%string.
Definition exLits : list lit := [("a", true); ("b", true); ("c", true); ("d", true)]%string.
Example exOptimum : unreserved (s_forms exOpt) exLits /\
  (exists m s', optimize bruteEnv exOpt true exLits [] = (OModel m, s') /\ length (posVars m) = 3) /\
  (exists m s', optimize bruteEnv exOpt false exLits [] = (OModel m, s') /\ length (posVars m) = 1).
Proof.
  split; [split|split].
  - intros t x Ht [i ->] Hx. cbn in Ht. unfold selName in Hx.
    repeat (destruct Ht as [<- |Ht]; [cbn in Hx; repeat (destruct Hx as [Hx|Hx]; [discriminate Hx|]); exact Hx|]). exact Ht.
  - intros l Hl [i H]. unfold selName in H. cbn in Hl.
    repeat (destruct Hl as [<- |Hl]; [discriminate H|]). exact Hl.
  - eexists. eexists. split; vm_compute; reflexivity.
  - eexists. eexists. split; vm_compute; reflexivity.
Qed.

Print Assumptions C52_optimum.
Print Assumptions C52_model.
Print Assumptions C52_unknown_literal_refuted.
