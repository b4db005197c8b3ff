(** * C42: smallest unsatisfiable sets *)
From Coq Require Import String List Bool Arith Lia ZArith DecimalString NArith.
From Verif Require Import NfBase Spec Solver Optimize OptimizeProps Mus Smus ExplainSpec.
Import ListNotations.

(** The reserved names of the selectors. *)
Definition selectorName (x : string) : Prop := exists i, x = propSel i \/ x = selName i.
Definition plain (t : tree) : Prop := forall x, In x (varsOf t) -> ~ selectorName x.

Lemma propSel_inj i j : propSel i = propSel j -> i = j.
Proof. unfold propSel. intros H. cbn in H. injection H as H. apply digits_inj in H. now apply Nat2N.inj. Qed.
Lemma propSel_unreserved i : ~ reserved (propSel i).
Proof. intros [j H]. unfold propSel, selName in H. cbn in H. discriminate. Qed.

Section Map.
Lemma mapping_in : forall sels props x p, NoDup sels -> In (x, p) (combine sels props) -> mapping sels props x = Some p.
Proof.
  induction sels as [|y sels IH]; intros [|q props] x p N H; cbn in *; try contradiction.
  apply NoDup_cons_iff in N as [N1 N2]. destruct H as [H|H].
  - injection H as -> ->. now rewrite String.eqb_refl.
  - destruct (String.eqb_spec x y) as [-> |]; auto. exfalso. apply N1. eapply in_combine_l; eauto.
Qed.
Lemma mapping_some : forall sels props x p, mapping sels props x = Some p -> In (x, p) (combine sels props).
Proof.
  induction sels as [|y sels IH]; intros [|q props] x p H; cbn in *; try discriminate.
  destruct (String.eqb_spec x y) as [-> |]; [injection H as ->; auto|right; auto].
Qed.
Lemma mapping_total : forall sels props x, length sels = length props -> In x sels -> exists p, mapping sels props x = Some p.
Proof.
  induction sels as [|y sels IH]; intros [|q props] x Hl H; cbn in *; try contradiction; try discriminate.
  destruct (String.eqb_spec x y) as [-> |]; [eauto|]. apply IH; auto. destruct H; [congruence|auto].
Qed.
Lemma mapping_none sels props x : ~ In x sels -> mapping sels props x = None.
Proof.
  intros H. destruct (mapping sels props x) eqn:M; auto. apply mapping_some, in_combine_l in M. contradiction.
Qed.

Lemma sublist_incl {A} (l l' : list A) : sublist l l' -> incl l l'.
Proof. induction 1; intros y Hy; cbn in *; auto. destruct Hy; auto. Qed.
Lemma sublist_nodup {A} (l l' : list A) : sublist l l' -> NoDup l' -> NoDup l.
Proof.
  induction 1 as [|x l l' S IH|x l l' S IH]; intros N; auto; apply NoDup_cons_iff in N as [N1 N2]; auto.
  constructor; auto. intros Hx. apply N1. eapply sublist_incl; eauto.
Qed.
Lemma sublist_filter {A} (f : A -> bool) l : sublist (filter f l) l.
Proof. induction l as [|x l IH]; cbn; [apply sub_nil|]. destruct (f x); [apply sub_keep|apply sub_skip]; auto. Qed.
Lemma sublist_trans {A} (l1 l2 l3 : list A) : sublist l1 l2 -> sublist l2 l3 -> sublist l1 l3.
Proof.
  intros H1 H2. revert l1 H1. induction H2 as [|x l l' S IH|x l l' S IH]; intros l1 H1; auto.
  - apply sub_skip; auto.
  - inversion H1; subst; [apply sub_skip|apply sub_keep]; auto.
Qed.

Lemma collect_sublist : forall sels props h, NoDup sels -> length sels = length props -> sublist h sels ->
  sublist (collect (map (mapping sels props) h)) props /\ length (collect (map (mapping sels props) h)) = length h.
Proof.
  induction sels as [|y sels IH]; intros [|q props] h N Hl S; cbn in Hl; try discriminate.
  - inversion S; subst. cbn. split; auto. constructor.
  - apply NoDup_cons_iff in N as [N1 N2].
    assert (Eq : forall k, incl k sels -> map (mapping (y :: sels) (q :: props)) k = map (mapping sels props) k).
    { intros k Hk. apply map_ext_in. intros x Hx. cbn. destruct (String.eqb_spec x y) as [-> |]; auto.
      exfalso. apply N1. auto. }
    inversion S as [|? l ? S'|? l ? S']; subst.
    + rewrite Eq by (eapply sublist_incl; eauto). destruct (IH props h N2) as [A B]; auto. split; auto. apply sub_skip; auto.
    + cbn [map collect]. rewrite Eq by (eapply sublist_incl; eauto). cbn [mapping]. rewrite String.eqb_refl.
      cbn [collect length]. destruct (IH props l N2) as [A B]; auto. split; [apply sub_keep; auto|congruence].
Qed.
Lemma collect_in {A} (x : A) : forall l, In x (collect l) <-> In (Some x) l.
Proof.
  induction l as [|[y|] l IH]; cbn; [tauto| |]; rewrite IH; intuition congruence.
Qed.
Lemma sublist_sel : forall sels props v, NoDup sels -> length sels = length props -> sublist v (map p_form props) ->
  exists vs, sublist vs sels /\ length vs = length v /\
    forall t, In t v -> exists x p, In x vs /\ mapping sels props x = Some p /\ p_form p = t.
Proof.
  induction sels as [|y sels IH]; intros [|q props] v N Hl S; cbn in *; try discriminate.
  - inversion S; subst. exists []. repeat split; auto; [constructor|]. intros t [].
  - apply NoDup_cons_iff in N as [N1 N2].
    assert (St : forall x p, mapping sels props x = Some p -> (if String.eqb x y then Some q else mapping sels props x) = Some p).
    { intros x p H. destruct (String.eqb_spec x y) as [-> |]; auto. exfalso. apply N1. eapply in_combine_l, mapping_some; eauto. }
    inversion S as [|? l ? S'|? l ? S']; subst.
    + destruct (IH props v N2) as (vs & A & B & D); auto. exists vs. repeat split; auto; [apply sub_skip; auto|].
      intros t Ht. destruct (D t Ht) as (x & p & ? & ? & ?). exists x, p. auto.
    + destruct (IH props l N2) as (vs & A & B & D); auto. exists (y :: vs). repeat split; [apply sub_keep; auto|cbn; congruence|].
      intros t [<- |Ht].
      * exists y, q. rewrite String.eqb_refl. cbn; auto.
      * destruct (D t Ht) as (x & p & ? & ? & ?). exists x, p. cbn; auto.
Qed.
End Map.

Lemma combine_ex {A B} : forall (l : list A) (m : list B) y, length l = length m -> In y m -> exists x, In (x, y) (combine l m).
Proof.
  induction l as [|z l IH]; intros [|q m] y L Hp; cbn in *; try discriminate; try contradiction.
  destruct Hp as [-> |Hp]; [exists z; auto|]. destruct (IH m y) as [x Hx]; auto. exists x; auto.
Qed.

(** Number of sublists. *)
Fixpoint allSubs {A} (l : list A) : list (list A) :=
  match l with [] => [[]] | x :: r => allSubs r ++ map (cons x) (allSubs r) end.
Lemma allSubs_len {A} (l : list A) : length (allSubs l) = 2 ^ length l.
Proof. induction l as [|x l IH]; cbn; auto. rewrite app_length, map_length, IH. lia. Qed.
Lemma allSubs_in {A} (l l' : list A) : sublist l l' -> In l (allSubs l').
Proof.
  induction 1; cbn; auto; apply in_or_app; auto. right. now apply in_map.
Qed.

Section Oracle.
Variable E : env.
Hypothesis OK : env_ok E.
Variable cons_ : list tree.
Variable props : list prop.
Hypothesis PL : forall t, In t (cons_ ++ map p_form props) -> plain t.

Let sels := map propSel (seq 0 (length props)).
Let equivs := map (fun p => TEquiv (TLit (fst p, true)) (p_form (snd p))) (combine sels props).

Lemma slen : length sels = length props. Proof. unfold sels. now rewrite map_length, seq_length. Qed.
Lemma snodup : NoDup sels.
Proof. apply FinFun.Injective_map_NoDup; [intros i j; apply propSel_inj|apply seq_NoDup]. Qed.
Lemma ssel x : In x sels -> selectorName x /\ ~ reserved x.
Proof. unfold sels. rewrite in_map_iff. intros (i & <- & _). split; [exists i; auto|apply propSel_unreserved]. Qed.

(** The truth value of the proposition of a selector. *)
Definition ev (b : asg) (x : string) : bool := match mapping sels props x with Some p => eval b (p_form p) | None => b x end.

Lemma ev_plain b t : In t (cons_ ++ map p_form props) -> eval (ev b) t = eval b t.
Proof.
  intros Ht. apply eval_agree. intros x Hx. unfold ev. rewrite mapping_none; auto.
  intros Hs. apply (PL t Ht x Hx). now apply ssel.
Qed.
Lemma prop_in x p : mapping sels props x = Some p -> In p props.
Proof. intros H. apply mapping_some, in_combine_r in H. auto. Qed.
Lemma ev_equivs b : satisfies (ev b) equivs.
Proof.
  intros t Ht. unfold equivs in Ht. apply in_map_iff in Ht as ([x p] & <- & Hp). cbn.
  unfold eval_lit. cbn. unfold ev at 1. pose proof (mapping_in _ _ _ _ snodup Hp) as M. rewrite M.
  rewrite ev_plain; [apply eqb_reflx|]. apply in_or_app. right. apply in_map. eapply prop_in; eauto.
Qed.
Lemma equivs_ev b : satisfies b equivs -> forall x p, mapping sels props x = Some p -> b x = eval b (p_form p).
Proof.
  intros S x p M. apply mapping_some in M.
  assert (H : eval b (TEquiv (TLit (x, true)) (p_form p)) = true).
  { apply S. unfold equivs. apply in_map_iff. exists (x, p). auto. }
  cbn in H. unfold eval_lit in H. cbn in H. now apply eqb_prop in H.
Qed.

Lemma unres_forms h : incl h sels -> unreserved ((cons_ ++ equivs) ++ map TLit (posLits h)) (posLits sels).
Proof.
  intros Hh. split.
  - intros t x Ht Rx Hx. apply in_app_or in Ht as [Ht|Ht]; [apply in_app_or in Ht as [Ht|Ht]|].
    + destruct Rx as [i ->]. apply (PL t) in Hx; [|apply in_or_app; auto]. apply Hx. exists i; auto.
    + unfold equivs in Ht. apply in_map_iff in Ht as ([y p] & <- & Hp). cbn in Hx. destruct Hx as [<- |Hx].
      * apply in_combine_l, ssel in Hp. tauto.
      * apply in_combine_r in Hp. destruct Rx as [i ->]. apply (PL (p_form p)) in Hx; [apply Hx; exists i; auto|].
        apply in_or_app. right. now apply in_map.
    + unfold posLits in Ht. rewrite map_map in Ht. apply in_map_iff in Ht as (y & <- & Hy). cbn in Hx. destruct Hx as [<- |[]].
      apply Hh, ssel in Hy. tauto.
  - intros l Hl. unfold posLits in Hl. apply in_map_iff in Hl as (y & <- & Hy). cbn. now apply ssel.
Qed.

Lemma posLits_fst xs : map fst (posLits xs) = xs.
Proof. unfold posLits. rewrite map_map. apply map_id. Qed.
Lemma trueOf_pos b xs : trueOf b (posLits xs) = length (filter b xs).
Proof.
  unfold trueOf, posLits. induction xs as [|x r IH]; cbn [map filter]; auto. change (eval_lit b (x, true)) with (b x).
  destruct (b x); cbn [length]; rewrite IH; auto.
Qed.
Lemma posVars_model b xs : posVars (modelOf xs b) = filter b xs.
Proof. unfold posVars, modelOf. induction xs as [|x r IH]; cbn; auto. destruct (b x); cbn; rewrite ?IH; auto. Qed.
Lemma nodup_fix (l : list string) : NoDup l -> nodup string_dec l = l.
Proof. apply nodup_fixed_point. Qed.
Lemma filter_all {A} (f : A -> bool) l : (forall x, In x l -> f x = true) -> filter f l = l.
Proof. induction l as [|x l IH]; cbn; intros H; auto. rewrite (H x), IH; auto. Qed.
Lemma knows_in s x : knows s x = true <-> In x (s_known s).
Proof.
  unfold knows. rewrite existsb_exists. split.
  - intros (y & Hy & e). apply String.eqb_eq in e. now subst.
  - intros H. exists x. split; auto. apply String.eqb_refl.
Qed.

(** One round of growing. *)
Definition growInv (s : solver) : Prop := s_forms s = cons_ ++ equivs /\ incl sels (s_known s).

Lemma grow_ok s h r s' : growInv s -> incl h sels -> grow E s h sels = (r, s') ->
  match r with
  | GNone => forall b, satisfies b cons_ -> (forall x, In x h -> ev b x = true) -> False
  | GSet c => growInv s' /\ exists b, satisfies b cons_ /\ (forall x, In x h -> ev b x = true) /\ c = filter (fun x => negb (ev b x)) sels
  | GCanceled => ~ uncancelled E
  | GPanic => False
  end.
Proof.
  intros [F K] Hh G. unfold grow in G. cbn [saveState] in G.
  set (s0 := mkSolver _ _ _ _ _) in G. set (s1 := addAll E s0 _) in G.
  assert (F1 : s_forms s1 = (cons_ ++ equivs) ++ map TLit (posLits h)) by (unfold s1; rewrite addAll_forms; cbn; now rewrite F).
  destruct (optimize E s1 true (posLits sels) []) as [o s2] eqn:O.
  apply (optimize_ok E s1 true) in O as (Gd & F2 & K2 & St2); auto.
  2: { rewrite F1. now apply unres_forms. }
  assert (Hs : forall b, satisfies b (s_forms s1) -> satisfies b cons_ /\ (forall x, In x sels -> b x = ev b x) /\ (forall x, In x h -> ev b x = true)).
  { intros b S. rewrite F1 in S. apply satisfies_app in S as [S S3]. apply satisfies_app in S as [S1 S2].
    assert (Es : forall x, In x sels -> b x = ev b x).
    { intros x Hx. destruct (mapping_total sels props x slen Hx) as [p M]. unfold ev. rewrite M. now apply equivs_ev. }
    repeat split; auto. intros x Hx. rewrite <- Es by auto.
    specialize (S3 (TLit (x, true))). cbn in S3. apply S3. unfold posLits. rewrite map_map. apply in_map_iff. eauto. }
  destruct (addAll_states E (map TLit (posLits h)) s0) as [St1 Nx1].
  destruct o as [|m|om| |]; cbn [good] in Gd; try contradiction.
  - injection G as <- <-. intros b S Hb. apply (Gd (ev b)). rewrite F1. apply satisfies_app. split; [apply satisfies_app; split|].
    + intros t Ht. rewrite ev_plain by (apply in_or_app; auto). auto.
    + apply ev_equivs.
    + intros t Ht. unfold posLits in Ht. rewrite map_map in Ht. apply in_map_iff in Ht as (y & <- & Hy). cbn. unfold eval_lit. cbn. auto.
  - destruct Gd as (b & -> & [Sb _]). unfold loadState in G. rewrite St2 in G. cbn [cutStates] in G.
    fold s1 in St1, Nx1. rewrite Nx1, St1 in G. unfold s0 in G. cbn [s_next s_states cutStates] in G.
    destruct (Nat.eqb_spec (S (s_next s)) (s_next s)) as [C|_]; [lia|]. rewrite Nat.eqb_refl in G. injection G as <- <-.
    split; [split; cbn; auto|]. exists b. destruct (Hs b Sb) as (A & B & D). repeat split; auto.
    cbn [app]. rewrite posLits_fst, posVars_model, nodup_fix by apply snodup.
    rewrite (filter_all (knows s1)).
    2: { intros x Hx. apply knows_in. unfold s1. apply addAll_known. left. cbn. auto. }
    apply filter_ext_in. intros x Hx. f_equal. rewrite <- B by auto.
    destruct (b x) eqn:Bx.
    + apply existsb_exists. exists x. split; [apply filter_In; auto|apply String.eqb_refl].
    + destruct (existsb _ _) eqn:Ex; auto. apply existsb_exists in Ex as (y & Hy & e). apply String.eqb_eq in e. subst y.
      apply filter_In in Hy as [_ Hy]. congruence.
  - injection G as <- <-. destruct om as [m|]; tauto.
Qed.

(** One round of hitting. *)
Definition hits (h c : list string) : Prop := exists x, In x h /\ In x c.
Definition orOf (c : list string) : tree := TOr (map TLit (posLits c)).
Definition hInv (s : solver) (cs : list (list string)) : Prop :=
  s_forms s = map orOf cs /\ (forall t, In t (s_forms s) -> exists c, incl (e_reg E c t) (s_known s)).

Lemma eval_orOf b c : eval b (orOf c) = true <-> exists x, In x c /\ b x = true.
Proof.
  unfold orOf, posLits. rewrite map_map. cbn. rewrite existsb_exists. split.
  - intros (t & Ht & e). apply in_map_iff in Ht as (x & <- & Hx). exists x. split; auto.
  - intros (x & Hx & e). exists (TLit (x, true)). split; [apply in_map_iff; eauto|exact e].
Qed.

Lemma filter_filter_len {A} (f g : A -> bool) l : length (filter f (filter g l)) <= length (filter f l).
Proof. induction l as [|x l IH]; cbn; auto. destruct (g x), (f x) eqn:Fx; cbn; rewrite ?Fx; cbn; lia. Qed.

Lemma hs_ok s cs r s' : hInv s cs -> (forall c, In c cs -> c <> [] /\ incl c sels) -> minimumHs E s sels = (r, s') ->
  match r with
  | HSet h => hInv s' cs /\ sublist h sels /\ (forall c, In c cs -> hits h c) /\
      forall v, sublist v sels -> (forall c, In c cs -> hits v c) -> length h <= length v
  | HCanceled => ~ uncancelled E
  | HPanic => False
  end.
Proof.
  intros [F K] Hc M. unfold minimumHs in M.
  destruct (optimize E s false (posLits sels) []) as [o s2] eqn:O.
  apply (optimize_ok E s false) in O as (Gd & F2 & K2 & St2); auto.
  2: { split.
       - intros t x Ht Rx Hx. rewrite F in Ht. apply in_map_iff in Ht as (c & <- & Hin). destruct (Hc c Hin) as [_ I].
         unfold orOf, posLits in Hx. cbn in Hx. rewrite map_map in Hx. apply in_flat_map in Hx as (t & Ht & Hx).
         apply in_map_iff in Ht as (y & <- & Hy). cbn in Hx. destruct Hx as [<- |[]]. apply I, ssel in Hy. tauto.
       - intros l Hl. unfold posLits in Hl. apply in_map_iff in Hl as (y & <- & Hy). cbn. now apply ssel. }
  cbn [app] in Gd. rewrite posLits_fst, nodup_fix in Gd by apply snodup.
  destruct o as [|m|om| |]; cbn [good] in Gd; try contradiction; injection M as <- <-.
  - apply (Gd (fun _ => true)). rewrite F. intros t Ht. apply in_map_iff in Ht as (c & <- & Hin).
    destruct (Hc c Hin) as [Ne _]. apply eval_orOf. destruct c as [|x c]; [congruence|]. exists x. split; [now left|auto].
  - destruct Gd as (b & -> & [S Opt]). rewrite posVars_model. split; [split; [congruence|rewrite F2, K2; auto]|].
    split; [eapply sublist_trans; apply sublist_filter|]. split.
    + intros c Hin. assert (Ht : In (orOf c) (s_forms s)) by (rewrite F; now apply in_map).
      destruct (K _ Ht) as [tm Hr].
      assert (e : eval (fun x => b x && knows s x) (orOf c) = true).
      { rewrite <- (S _ Ht). apply (eo_reg _ OK tm). intros x Hx. apply Hr, knows_in in Hx. rewrite Hx. apply andb_true_r. }
      apply eval_orOf in e as (x & Hx & e). apply andb_true_iff in e as [e1 e2]. exists x. split; auto.
      apply filter_In. split; auto. apply filter_In. split; auto. destruct (Hc c Hin) as [_ I]. auto.
    + intros v Sv Hv. assert (Ib : satisfies (fun x => existsb (String.eqb x) v) (s_forms s)).
      { rewrite F. intros t Ht. apply in_map_iff in Ht as (c & <- & Hin). apply eval_orOf.
        destruct (Hv c Hin) as (x & H1 & H2). exists x. split; auto. apply existsb_exists. exists x. split; auto. apply String.eqb_refl. }
      specialize (Opt _ Ib). cbn in Opt. rewrite !trueOf_pos in Opt.
      pose proof (filter_filter_len b (knows s) sels).
      assert (length (filter (fun x => existsb (String.eqb x) v) sels) <= length v); [|lia].
      apply NoDup_incl_length; [apply NoDup_filter, snodup|]. intros x Hx. apply filter_In in Hx as [_ Hx].
      apply existsb_exists in Hx as (y & Hy & e). apply String.eqb_eq in e. now subst.
  - destruct om as [m|]; tauto.
Qed.

Lemma smusLoop_ok : forall fuel growS hS cs,
  growInv growS -> hInv hS cs -> NoDup cs ->
  ~ jointly_sat (cons_ ++ map p_form props) ->
  (forall c, In c cs -> exists b, satisfies b cons_ /\ c = filter (fun x => negb (ev b x)) sels) ->
  2 ^ length props < fuel + length cs ->
  match smusLoop fuel E growS hS sels props with
  | SProps R => sublist R props /\ smallest_unsat cons_ (map p_form props) (map p_form R)
  | SCanceled => ~ uncancelled E
  | SNil | SPanic | SFuel => False
  end.
Proof.
  induction fuel as [|fuel IH]; intros growS hS cs G H N U Hcs Fu.
  - cbn [smusLoop]. assert (length cs <= 2 ^ length props); [|cbn in Fu; lia].
    rewrite <- slen, <- allSubs_len. apply NoDup_incl_length; auto. intros c Hin. destruct (Hcs c Hin) as (b & _ & ->).
    apply allSubs_in, sublist_filter.
  - cbn [smusLoop].
    assert (Hne : forall c, In c cs -> c <> [] /\ incl c sels).
    { intros c Hin. destruct (Hcs c Hin) as (b & Sb & ->). split.
      - intros e. apply U. exists b. intros t Ht. apply in_app_or in Ht as [Ht|Ht]; auto.
        apply in_map_iff in Ht as (p & <- & Hp).
        assert (exists x, mapping sels props x = Some p) as [x M].
        { destruct (combine_ex sels props p slen Hp) as [x Hx]. exists x. apply mapping_in; auto. apply snodup. }
        destruct (eval b (p_form p)) eqn:Ev; auto.
        assert (In x (filter (fun x => negb (ev b x)) sels)); [|rewrite e in *; contradiction].
        apply filter_In. split; [eapply in_combine_l, mapping_some; eauto|]. unfold ev. now rewrite M, Ev.
      - intros x Hx. now apply filter_In in Hx. }
    destruct (minimumHs E hS sels) as [r1 hS1] eqn:M1. pose proof (hs_ok _ _ _ _ H Hne M1) as R1.
    destruct r1 as [h| |]; auto. destruct R1 as (H1 & Sh & Hit & Min).
    assert (G' : growInv (atTime (s_time hS1) growS)) by (destruct G; split; auto).
    destruct (grow E (atTime (s_time hS1) growS) h sels) as [r2 growS1] eqn:M2.
    pose proof (grow_ok _ _ _ _ G' (sublist_incl _ _ Sh) M2) as R2.
    destruct r2 as [|c| |]; auto.
    + destruct (collect_sublist sels props h snodup slen Sh) as [S1 L1]. split; auto. split; [|split].
      * clear -S1. induction S1; cbn; [apply sub_nil|apply sub_skip|apply sub_keep]; auto.
      * intros [b Sb]. apply (R2 b); [intros t Ht; apply Sb, in_or_app; auto|].
        intros x Hx. destruct (mapping_total sels props x slen (sublist_incl _ _ Sh x Hx)) as [p M].
        unfold ev. rewrite M. apply Sb, in_or_app. right. apply in_map. apply collect_in. rewrite <- M. now apply in_map.
      * intros v Sv Uv. rewrite map_length, L1. destruct (sublist_sel sels props v snodup slen Sv) as (vs & A & <- & D).
        apply Min; auto. intros c Hin. destruct (Hcs c Hin) as (b & Sb & ->).
        destruct (existsb (fun x => negb (ev b x)) vs) eqn:Ex.
        -- apply existsb_exists in Ex as (x & Hx & e). exists x. split; auto. apply filter_In. split; auto. eapply sublist_incl; eauto.
        -- exfalso. apply Uv. exists b. intros t Ht. apply in_app_or in Ht as [Ht|Ht]; auto.
           destruct (D t Ht) as (x & p & Hx & Mx & <-). destruct (eval b (p_form p)) eqn:Ev; auto.
           rewrite <- Ex. apply existsb_exists. exists x. split; auto. unfold ev. now rewrite Mx, Ev.
    + destruct R2 as (G1 & b & Sb & Eh & Ec). destruct H1 as [F1 K1].
      assert (H2 : hInv (add E (atTime (s_time growS1) hS1) (TOr (map TLit (posLits c)))) (cs ++ [c])).
      { split; cbn.
        - rewrite F1, map_app. reflexivity.
        - intros t Ht. apply in_app_or in Ht as [Ht|[<- |[]]].
          + destruct (K1 t Ht) as [tm I]. exists tm. intros x Hx. apply in_or_app. auto.
          + exists (s_time growS1). intros x Hx. apply in_or_app. auto. }
      apply (IH _ _ (cs ++ [c])); auto.
      * assert (~ In c cs).
        { intros Hin. destruct (Hit c Hin) as (x & Hx & Hxc). subst c. apply filter_In in Hxc as [_ Hxc]. rewrite Eh in Hxc; auto. discriminate. }
        clear -N H0. induction cs as [|d cs IH]; cbn; [constructor; auto; constructor|].
        apply NoDup_cons_iff in N as [N1 N2]. constructor.
        -- intros Hd. apply in_app_or in Hd as [?|[-> |[]]]; auto. apply H0. now left.
        -- apply IH; auto. intros Hc. apply H0. now right.
      * intros d Hd. apply in_app_or in Hd as [Hd|[<- |[]]]; eauto.
      * rewrite app_length. cbn. lia.
Qed.
End Oracle.

(** ** The theorem *)

(** C42: for every correct solver and every handler, if the formulas do not
    use the reserved names of selector variables.  The returned propositions
    are a smallest subset that is unsatisfiable together with the constraints;
    nil is returned exactly when everything together is satisfiable; unless the
    handler cancels, one of the two happens. *)
Theorem C42_smus : forall E props constraints, env_ok E ->
  (forall t, In t (constraints ++ map p_form props) -> plain t) ->
  match smus (smusFuel props) E props constraints with
  | SProps R => sublist R props /\ smallest_unsat constraints (map p_form props) (map p_form R) /\
                ~ jointly_sat (constraints ++ map p_form props)
  | SNil => jointly_sat (constraints ++ map p_form props)
  | SCanceled => ~ uncancelled E
  | SPanic | SFuel => False
  end.
Proof.
  intros E props cs OK PL. unfold smus. destruct (e_resume E 0) eqn:Er.
  2: { intros [_ U]. now rewrite U in Er. }
  set (sels := map propSel _). set (s2 := addAll E (addAll E _ cs) _).
  assert (F2 : s_forms s2 = cs ++ map (fun p => TEquiv (TLit (fst p, true)) (p_form (snd p))) (combine sels props)).
  { unfold s2. rewrite !addAll_forms. reflexivity. }
  unfold call. destruct (e_solve E (s_time s2) (s_forms s2) (posLits sels)) as [|b|] eqn:Es.
  - intros [U _]. now apply U in Es.
  - apply (eo_sat _ OK) in Es as [S1 S2]. rewrite F2 in S1. apply satisfies_app in S1 as [S0 S1].
    exists b. intros t Ht. apply in_app_or in Ht as [Ht|Ht]; auto. apply in_map_iff in Ht as (p & <- & Hp).
    assert (exists x, In (x, p) (combine sels props)) as [x Hx].
    { apply combine_ex; auto. apply slen. }
    assert (e : eval b (TEquiv (TLit (x, true)) (p_form p)) = true) by (apply S1, in_map_iff; exists (x, p); auto).
    cbn in e. apply eqb_prop in e. rewrite <- e. apply (S2 (TLit (x, true))).
    unfold posLits. rewrite map_map. apply in_map_iff. exists x. split; auto. eapply in_combine_l; eauto.
  - assert (U : ~ jointly_sat (cs ++ map p_form props)).
    { intros [b Sb]. apply (eo_unsat _ OK _ _ _ Es (ev props b)).
      - rewrite F2. apply satisfies_app. split.
        + intros t Ht. rewrite (ev_plain cs props PL) by (apply in_or_app; auto). apply Sb, in_or_app; auto.
        + apply (ev_equivs cs props PL).
      - intros t Ht. unfold posLits in Ht. rewrite map_map in Ht. apply in_map_iff in Ht as (y & <- & Hy). cbn. unfold eval_lit. cbn.
        destruct (mapping_total sels props y (slen props) Hy) as [p M]. unfold ev. fold sels. rewrite M. apply Sb, in_or_app. right.
        apply in_map. eapply (prop_in props); eauto. }
    set (s3 := mkSolver _ _ _ _ _).
    pose proof (smusLoop_ok E OK cs props PL (smusFuel props) s3 (newSolver (s_time s3)) []) as L.
    fold sels in L.
    assert (X : match smusLoop (smusFuel props) E s3 (newSolver (s_time s3)) sels props with
      | SProps R => sublist R props /\ smallest_unsat cs (map p_form props) (map p_form R)
      | SCanceled => ~ uncancelled E
      | SNil | SPanic | SFuel => False end).
    { apply L; auto.
      - split; [exact F2|]. intros x Hx. cbn. apply in_or_app. right. now rewrite posLits_fst.
      - split; [reflexivity|]. intros t [].
      - constructor.
      - intros c [].
      - unfold smusFuel. cbn. lia. }
    destruct (smusLoop _ E s3 _ sels props); tauto.
Qed.

(** A non-trivial case: the first three propositions are a minimal
    unsatisfiable set, but the last two (with the constraint) are smaller. *)
Definition L (x : string) (v : bool) : tree := TLit (x, v).
Definition exSm : list prop :=
  [mkProp 0 (L "a" true); mkProp 1 (TOr [L "a" false; L "b" true]); mkProp 2 (L "b" false); mkProp 3 (L "d" true); mkProp 4 (L "c" true)]%string.
Definition exCs : list tree := [TOr [L "c" false; L "d" false]]%string.
Example exSmus : (forall t, In t (exCs ++ map p_form exSm) -> plain t) /\
  (exists R, smus (smusFuel exSm) bruteEnv exSm exCs = SProps R /\ map p_id R = [3; 4]) /\
  smus (smusFuel (firstn 2 exSm)) bruteEnv (firstn 2 exSm) exCs = SNil.
Proof.
  split; [|split].
  - intros t Ht x Hx [i [-> | ->]]; cbn in Ht; unfold propSel, selName in Hx;
      (repeat (destruct Ht as [<- |Ht]; [cbn in Hx; repeat (destruct Hx as [Hx|Hx]; [discriminate Hx|]); exact Hx|]); exact Ht).
  - eexists. split; vm_compute; reflexivity.
  - vm_compute. reflexivity.
Qed.

Print Assumptions C42_smus.
