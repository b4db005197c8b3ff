(** * C41: minimal unsatisfiable sets *)
From Coq Require Import String List Bool Arith Lia.
From Verif Require Import Spec Solver Mus ExplainSpec.
Import ListNotations.

Lemma jsat_incl l l' : incl l l' -> jointly_sat l' -> jointly_sat l.
Proof. intros H [b Hb]. exists b; auto. Qed.

Section Oracle.
Variable E : env.
Hypothesis OK : env_ok E.

Lemma call_unsat s a s' : call E s [] = (a, s') -> a = Unsat -> ~ jointly_sat (s_forms s).
Proof.
  unfold call. intros H ->. injection H as H _. intros [b Hb].
  apply (eo_unsat _ OK _ _ _ H b Hb). apply satisfies_nil.
Qed.
Lemma call_sat s a s' b : call E s [] = (a, s') -> a = Sat b -> jointly_sat (s_forms s).
Proof. unfold call. intros H ->. injection H as H _. exists b. apply (eo_sat _ OK _ _ _ _ H). Qed.
Lemma call_forms s a s' : call E s [] = (a, s') -> s_forms s' = s_forms s /\ s_states s' = s_states s.
Proof. unfold call. intros H. injection H as _ <-. cbn. auto. Qed.

Lemma insLoop_ok : forall rest s subset trans base,
  s_forms s = base ++ map p_form subset ->
  match insLoop E s subset trans rest with
  | ICanceled => True
  | ISat => jointly_sat (base ++ map p_form (subset ++ rest))
  | IBreak s' subset' trans' =>
      ~ jointly_sat (base ++ map p_form subset') /\
      ((subset' = subset /\ trans' = trans) \/
       exists add0 t rest', rest = add0 ++ t :: rest' /\ subset' = (subset ++ add0) ++ [t] /\ trans' = Some t /\
         jointly_sat (base ++ map p_form (subset ++ add0)))
  end.
Proof.
  induction rest as [|p rest IH]; intros s subset trans base F; cbn [insLoop];
    destruct (call E s []) as [a s'] eqn:Ca; destruct (call_forms _ _ _ Ca) as [F' _]; destruct a as [|b|]; auto.
  - rewrite app_nil_r, <- F. eapply call_sat; eauto.
  - split; [rewrite <- F; eapply call_unsat; eauto|auto].
  - assert (F2 : s_forms (add E s' (p_form p)) = base ++ map p_form (subset ++ [p])).
    { cbn. rewrite F', F, map_app, <- app_assoc. reflexivity. }
    specialize (IH _ (subset ++ [p]) (Some p) base F2).
    destruct (insLoop E (add E s' (p_form p)) (subset ++ [p]) (Some p) rest) as [s2 sub2 tr2| |]; auto.
    + destruct IH as [U [[-> ->]|(add0 & t & rest' & -> & -> & -> & J)]]; (split; [exact U|right]).
      * exists [], p, rest. rewrite app_nil_r. repeat split; auto. rewrite <- F. eapply call_sat; eauto.
      * exists (p :: add0), t, rest'. rewrite <- !app_assoc in *. cbn in *. auto.
    + now rewrite <- app_assoc in IH.
  - split; [rewrite <- F; eapply call_unsat; eauto|auto].
Qed.

Lemma firstn_exact {A} (l r : list A) : firstn (length l) (l ++ r) = l.
Proof. rewrite firstn_app, Nat.sub_diag, firstn_all. cbn. apply app_nil_r. Qed.

Lemma removeLoop_none t : forall suf pre, (forall p, In p suf -> p_id p <> p_id t) ->
  removeLoop (length suf + 1) (length pre) (pre ++ suf ++ [t]) (length (pre ++ suf ++ [t])) t = Some (pre ++ suf).
Proof.
  induction suf as [|p suf IH]; intros pre H; cbn [length Nat.add removeLoop].
  - rewrite app_nil_r. cbn [app]. rewrite nth_error_app2, Nat.sub_diag by lia. cbn [nth_error]. rewrite Nat.eqb_refl, app_length. cbn [length].
    replace (Nat.leb (S (length pre)) (length pre + 1)) with true by (symmetry; apply Nat.leb_le; lia).
    cbn [removeLoop]. f_equal.
    replace (length pre + 1 - 1) with (length pre) by lia.
    rewrite (firstn_exact pre [t]). apply firstn_exact.
  - rewrite nth_error_app2, Nat.sub_diag by lia. cbn.
    destruct (Nat.eqb_spec (p_id p) (p_id t)) as [e|_]; [exfalso; eapply H; eauto; now left|].
    specialize (IH (pre ++ [p])). rewrite <- !app_assoc in IH. cbn in IH.
    rewrite app_length in IH. cbn in IH. rewrite (Nat.add_1_r (length pre)) in IH. apply IH.
    intros q Hq; apply H; now right.
Qed.

(** The invariant of both algorithms: what is still in play is unsatisfiable,
    and every chosen formula is needed. *)
Definition needed (cur mus : list tree) : Prop :=
  forall a m c, mus = a ++ m :: c -> jointly_sat (cur ++ a ++ c).

Lemma in_split_last {A} (a c : list A) m l x : a ++ m :: c = l ++ [x] ->
  (a = l /\ c = [] /\ m = x) \/ exists c', c = c' ++ [x] /\ l = a ++ m :: c'.
Proof.
  intros H. destruct c as [|y c'] using rev_ind.
  - apply app_inj_tail in H as [-> ->]. auto.
  - right. rewrite app_comm_cons, app_assoc in H. apply app_inj_tail in H as [<- ->]. eauto.
Qed.

Lemma needed_add cur mus t : needed (cur ++ [t]) mus -> jointly_sat (cur ++ mus) -> needed cur (mus ++ [t]).
Proof.
  intros N J a m c H. symmetry in H. apply in_split_last in H as [(-> & -> & ->)|(c' & -> & ->)].
  - now rewrite app_nil_r.
  - eapply jsat_incl; [|apply (N a m c' eq_refl)].
    intros x Hx. rewrite !in_app_iff in *. tauto.
Qed.
Lemma needed_incl cur cur' mus : incl cur cur' -> needed cur' mus -> needed cur mus.
Proof.
  intros I N a m c H. eapply jsat_incl; [|apply (N a m c H)].
  intros x Hx. rewrite !in_app_iff in *. destruct Hx; auto.
Qed.

Definition coherent (ps : list prop) : Prop := forall p q, In p ps -> In q ps -> p_id p = p_id q -> p = q.

Lemma insOuter_ok props : coherent props -> forall fuel time cur mus,
  incl cur props -> incl mus props -> length cur < fuel ->
  ~ jointly_sat (map p_form cur ++ map p_form mus) \/ (cur = props /\ mus = [] /\ props <> []) ->
  needed (map p_form cur) (map p_form mus) ->
  match insOuter fuel E time cur mus with
  | MCore R => incl R props /\ minimal_unsat (map p_form R)
  | MSatisfiable => jointly_sat (map p_form props)
  | MCanceled => ~ uncancelled E
  | MPanic | MFuel => False
  end.
Proof.
  intros Co. induction fuel as [|fuel IH]; intros time cur mus I1 I2 Fu U N; [lia|].
  cbn [insOuter]. destruct cur as [|p0 cur0].
  { destruct U as [U|(<- & _ & C)]; [|congruence]. cbn in U, N.
    split; [exact I2|]. split; [exact U|]. intros a t c H. apply (N a t c H). }
  remember (p0 :: cur0) as cur eqn:Ec.
  assert (F : s_forms (addAll E (newSolver time) (map p_form mus)) = map p_form mus ++ map p_form []).
  { rewrite addAll_forms. cbn. now rewrite app_nil_r. }
  pose proof (insLoop_ok (rev cur) _ [] None _ F) as L. cbn [app] in L.
  destruct (insLoop E _ [] None (rev cur)) as [s subset trans| |] eqn:EL.
  - destruct L as [U' [[-> ->]|(add0 & t & rest' & Er & -> & -> & J)]].
    + destruct fuel as [|fuel]; [subst cur; cbn in Fu; lia|]. cbn [insOuter].
      cbn in U'. rewrite app_nil_r in U'. split; [exact I2|]. split; [exact U'|].
      intros a m c H. eapply jsat_incl; [|apply (N a m c H)]. intros x Hx. apply in_or_app; auto.
    + cbn [app] in U', J |- *.
      assert (T : In t cur) by (rewrite in_rev, Er; apply in_or_app; right; now left).
      assert (A : incl add0 cur) by (intros x Hx; rewrite in_rev, Er; apply in_or_app; auto).
      assert (NT : forall q, In q add0 -> p_id q <> p_id t).
      { intros q Hq e. assert (q = t) by (apply Co; auto). subst q. apply U'.
        eapply jsat_incl; [|exact J]. rewrite map_app. intros x Hx. rewrite !in_app_iff in *. cbn in Hx.
        destruct Hx as [?|[?|[<- |[]]]]; auto. right. apply in_map; auto. }
      pose proof (removeLoop_none t add0 [] NT) as R. cbn [app length] in R.
      rewrite app_length. cbn [length]. rewrite app_length in R. cbn [length] in R. rewrite R.
      apply IH.
      * intros x Hx; auto.
      * intros x Hx. apply in_app_or in Hx as [?|[<- |[]]]; auto.
      * assert (length cur = length add0 + S (length rest')) by (rewrite <- rev_length, Er, app_length; reflexivity). lia.
      * left. intros J'. apply U'. eapply jsat_incl; [|exact J'].
        rewrite !map_app. intros x Hx. rewrite !in_app_iff in *. tauto.
      * rewrite map_app. cbn [map]. apply needed_add.
        -- eapply needed_incl; [|exact N]. intros x Hx. apply in_app_or in Hx as [Hx|[<- |[]]].
           ++ apply in_map_iff in Hx as (q & <- & Hq). apply in_map; auto.
           ++ now apply in_map.
        -- eapply jsat_incl; [|exact J]. intros x Hx. rewrite !in_app_iff in *. tauto.
  - rewrite map_rev in L. destruct U as [U|(-> & -> & _)].
    + exfalso. apply U. eapply jsat_incl; [|exact L]. intros x Hx. rewrite !in_app_iff in *. rewrite <- in_rev. tauto.
    + eapply jsat_incl; [|exact L]. intros x Hx. cbn. now rewrite <- in_rev.
  - intros UC. clear -EL UC. revert EL. generalize (addAll E (newSolver time) (map p_form mus)) ([] : list prop) (@None prop).
    induction (rev cur) as [|q r IHr]; intros s sub tr; cbn [insLoop]; unfold call;
      destruct (e_solve E (s_time s) (s_forms s) []) eqn:Es; try discriminate; try (now destruct UC as [UC _]; apply UC in Es).
    apply IHr.
Qed.

(** *** Deletion *)

Definition base (todo : list (prop * nat)) : list tree := map p_form (rev (map fst todo)).

Fixpoint chain (states : list (nat * (list tree * list string))) (todo : list (prop * nat)) : Prop :=
  match todo with
  | [] => True
  | (_, id) :: r => exists top kn below, states = top ++ (id, (base r, kn)) :: below /\ ~ In id (map fst top) /\
                    chain ((id, (base r, kn)) :: below) r
  end.

Lemma cut_top id c below : forall top, ~ In id (map fst top) -> cutStates id (top ++ (id, c) :: below) = Some (c, (id, c) :: below).
Proof.
  induction top as [|[i d] top IH]; cbn; intros H.
  - now rewrite Nat.eqb_refl.
  - destruct (Nat.eqb_spec i id); [exfalso; auto|apply IH; auto].
Qed.

Lemma chain_push states todo i c : chain states todo -> ~ In i (map snd todo) -> chain ((i, c) :: states) todo.
Proof.
  destruct todo as [|[p id] r]; cbn; auto. intros (top & kn & below & -> & N & Cr) Hi.
  exists ((i, c) :: top), kn, below. repeat split; auto. cbn. intros [e|e]; auto.
Qed.

Lemma delAdd_ok : forall ps s todo ids s', delAdd E s ps = (ids, s') ->
  chain (s_states s) todo -> s_forms s = base todo -> (forall i, In i (map snd todo) -> i < s_next s) ->
  chain (s_states s') (rev (combine ps ids) ++ todo) /\ s_forms s' = base (rev (combine ps ids) ++ todo) /\
  map fst (combine ps ids) = ps.
Proof.
  induction ps as [|p r IH]; intros s todo ids s' H Ch F Lt; cbn in H.
  - injection H as <- <-. cbn. auto.
  - set (s1 := add E _ (p_form p)) in H.
    destruct (delAdd E s1 r) as [ids2 s2] eqn:D. injection H as <- <-.
    destruct (IH s1 ((p, s_next s) :: todo) _ _ D) as (C2 & F2 & M).
    + cbn. exists [], (s_known s), (s_states s). rewrite F. repeat split; auto.
      apply chain_push; auto. intros Hi. apply Lt in Hi. lia.
    + cbn. rewrite F. unfold base. cbn. now rewrite map_app.
    + cbn. intros i [<- |Hi]; [lia|]. apply Lt in Hi. lia.
    + cbn [combine rev map fst]. rewrite <- app_assoc. cbn [app]. rewrite M. auto.
Qed.

Lemma delLoop_ok props : forall todo s mus,
  chain (s_states s) todo -> incl (map fst todo) props -> incl mus props ->
  ~ jointly_sat (base todo ++ map p_form mus) ->
  needed (base todo) (map p_form mus) ->
  match delLoop E s mus todo with
  | MCore R => incl R props /\ minimal_unsat (map p_form R)
  | MSatisfiable | MPanic | MFuel => False
  | MCanceled => ~ uncancelled E
  end.
Proof.
  induction todo as [|[p id] r IH]; intros s mus Ch I1 I2 U N; cbn [delLoop].
  - split; [exact I2|]. split; [exact U|]. intros a t c H. apply (N a t c H).
  - destruct Ch as (top & kn & below & Es & Nt & Ch). unfold loadState. rewrite Es, cut_top by exact Nt.
    set (s1 := mkSolver (base r) kn _ (s_next s) _).
    assert (F : s_forms (addAll E s1 (map p_form mus)) = base r ++ map p_form mus) by apply addAll_forms.
    destruct (addAll_states E (map p_form mus) s1) as [St _]. cbn in St.
    assert (Eb : base ((p, id) :: r) = base r ++ [p_form p]) by (unfold base; cbn; now rewrite map_app).
    rewrite Eb in U, N.
    destruct (call E (addAll E s1 (map p_form mus)) []) as [a s2] eqn:Ca.
    destruct (call_forms _ _ _ Ca) as [_ St2]. rewrite St in St2.
    destruct a as [|b|].
    + intros [UC _]. unfold call in Ca. injection Ca as Ca _. now apply UC in Ca.
    + assert (J : jointly_sat (base r ++ map p_form mus)) by (rewrite <- F; eapply call_sat; eauto).
      apply IH.
      * now rewrite St2.
      * intros x Hx. apply I1. now right.
      * intros x Hx. apply in_app_or in Hx as [?|[<- |[]]]; auto. apply I1. now left.
      * intros J'. apply U. eapply jsat_incl; [|exact J']. rewrite map_app. intros x Hx.
        rewrite !in_app_iff in *. cbn in *. tauto.
      * rewrite map_app. cbn [map]. now apply needed_add.
    + assert (U' : ~ jointly_sat (base r ++ map p_form mus)) by (rewrite <- F; eapply call_unsat; eauto).
      apply IH; auto.
      * now rewrite St2.
      * intros x Hx. apply I1. now right.
      * eapply needed_incl; [|exact N]. intros x Hx. apply in_or_app; auto.
Qed.
End Oracle.

(** ** The theorems *)

(** Propositions with the same identity have the same formula. *)
Definition one_formula (props : list prop) : Prop :=
  forall p q, In p props -> In q props -> p_id p = p_id q -> p = q.

(** C41, insertion-based: for every correct solver, every handler and every
    non-empty list of propositions (repetitions allowed).  A core is a subset
    of the propositions and minimal unsatisfiable; the error is reported only
    for a satisfiable list; without cancellation there is always one of the
    two results and the call neither panics nor runs forever. *)
Theorem C41_insertion : forall E props, env_ok E -> one_formula props -> props <> [] ->
  match insertionBased E props with
  | MCore R => incl R props /\ minimal_unsat (map p_form R)
  | MSatisfiable => jointly_sat (map p_form props)
  | MCanceled => ~ uncancelled E
  | MPanic | MFuel => False
  end.
Proof.
  intros E props OK Co Ne. unfold insertionBased. destruct (e_resume E 0) eqn:Er.
  - apply (insOuter_ok E OK props Co); auto.
    + intros x Hx; exact Hx.
    + intros x [].
    + intros a m c H. destruct a; discriminate.
  - intros [_ UC]. now rewrite UC in Er.
Qed.

(** C41, deletion-based: the same for every list of propositions. *)
Theorem C41_deletion : forall E props, env_ok E ->
  match deletionBased E props with
  | MCore R => incl R props /\ minimal_unsat (map p_form R)
  | MSatisfiable => jointly_sat (map p_form props)
  | MCanceled => ~ uncancelled E
  | MPanic | MFuel => False
  end.
Proof.
  intros E props OK. unfold deletionBased. destruct (e_resume E 0) eqn:Er.
  2: { intros [_ UC]. now rewrite UC in Er. }
  destruct (delAdd E (newSolver 1) props) as [ids s] eqn:D.
  destruct (delAdd_ok E props _ [] _ _ D) as (Ch & F & M); try exact I; [reflexivity|intros i []|].
  rewrite app_nil_r in Ch, F.
  assert (Eb : base (rev (combine props ids)) = map p_form props).
  { unfold base. rewrite (map_rev fst), rev_involutive, M. reflexivity. }
  rewrite Eb in F.
  destruct (call E s []) as [a s'] eqn:Ca. destruct (call_forms _ _ _ _ Ca) as [F' St].
  destruct a as [|b|].
  - intros [UC _]. unfold call in Ca. injection Ca as Ca _. now apply UC in Ca.
  - rewrite <- F. eapply call_sat; eauto.
  - pose proof (delLoop_ok E OK props (rev (combine props ids)) s' []) as L.
    rewrite Eb in L. cbn in L. rewrite app_nil_r in L.
    assert (P : match delLoop E s' [] (rev (combine props ids)) with
      | MCore R => incl R props /\ minimal_unsat (map p_form R)
      | MSatisfiable | MPanic | MFuel => False
      | MCanceled => ~ uncancelled E end).
    { apply L.
      - now rewrite St.
      - rewrite map_rev, M. intros x Hx. now apply in_rev.
      - intros x [].
      - rewrite <- F. eapply call_unsat; eauto.
      - intros a m c H. destruct a; discriminate. }
    destruct (delLoop E s' [] (rev (combine props ids))); auto; contradiction.
Qed.

(** Every proper subset of a minimal unsatisfiable set is satisfiable. *)
Theorem C41_proper_subsets : forall ts, minimal_unsat ts -> forall us, incl us ts -> (exists t, In t ts /\ ~ In t us) -> jointly_sat us.
Proof.
  intros ts [_ M] us I (t & Ht & Nt). apply in_split in Ht as (a & c & ->).
  eapply jsat_incl; [|apply (M a t c eq_refl)]. intros x Hx. specialize (I x Hx).
  rewrite in_app_iff in *. cbn in I. destruct I as [?|[<- |?]]; auto; contradiction.
Qed.

(** A minimal unsatisfiable set contains no formula twice. *)
Theorem C41_no_repetition : forall ts, minimal_unsat ts -> NoDup ts.
Proof.
  intros ts [U M]. revert M U. assert (forall pre, (forall a t c, pre ++ ts = a ++ t :: c -> jointly_sat (a ++ c)) -> ~ jointly_sat (pre ++ ts) -> NoDup ts) as H.
  { induction ts as [|t ts IH]; intros pre M U; constructor.
    - intros Hin. apply U. eapply jsat_incl; [|apply (M pre t ts eq_refl)].
      intros x Hx. rewrite in_app_iff in *. cbn in Hx. destruct Hx as [?|[<- |?]]; auto.
    - apply (IH (pre ++ [t])); rewrite <- app_assoc; auto. }
  intros M U. apply (H []); auto.
Qed.

(** Where the claim fails: an empty list of propositions is satisfiable, but
    the insertion-based function returns an (empty) core for it and no error
    (explanation/mus/mus.go:37). *)
Theorem C41_empty_insertion_refuted : forall E, e_resume E 0 = true ->
  insertionBased E [] = MCore [] /\ jointly_sat (map p_form []) /\ ~ minimal_unsat (map p_form []).
Proof.
  intros E Er. unfold insertionBased. rewrite Er. cbn. split; auto.
  assert (jointly_sat []) by (exists (fun _ => false); intros t []).
  split; auto. intros [N _]; auto.
Qed.

(** The hypotheses are met by non-trivial lists. *)
Definition lit_ (x : string) (v : bool) : tree := TLit (x, v).
Definition exProps : list prop :=
  [mkProp 0 (lit_ "a" true); mkProp 1 (TOr [lit_ "a" false; lit_ "b" true]); mkProp 2 (lit_ "c" true);
   mkProp 3 (lit_ "b" false); mkProp 2 (lit_ "c" true)]%string.
Example exMus : env_ok bruteEnv /\ uncancelled bruteEnv /\ one_formula exProps /\ exProps <> [] /\
  (exists R, insertionBased bruteEnv exProps = MCore R /\ map p_id R = [0; 3; 1]) /\
  (exists R, deletionBased bruteEnv exProps = MCore R /\ map p_id R = [3; 1; 0]) /\
  insertionBased bruteEnv (tl exProps) = MSatisfiable /\ deletionBased bruteEnv (tl exProps) = MSatisfiable.
Proof.
  split; [apply bruteEnv_ok|]. split; [apply bruteEnv_ok|]. split.
  { intros p q Hp Hq. cbn in Hp, Hq.
    repeat (destruct Hp as [<- |Hp]; [repeat (destruct Hq as [<- |Hq]; [first [reflexivity|cbn; discriminate]|]); destruct Hq|]). destruct Hp. }
  split; [discriminate|]. repeat split.
  - eexists; split; vm_compute; reflexivity.
  - eexists; split; vm_compute; reflexivity.
Qed.

Print Assumptions C41_insertion.
Print Assumptions C41_deletion.
Print Assumptions C41_proper_subsets.
Print Assumptions C41_no_repetition.
Print Assumptions C41_empty_insertion_refuted.
