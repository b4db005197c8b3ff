(** * C40: model enumeration *)
From Coq Require Import String List Bool Arith Lia ZArith Permutation.
From Verif Require Import Spec Solver Optimize OptimizeProps ExplainSpec Smus SmusProps PrimeSpec Primes PrimeProps Enum.
Import ListNotations.

(** ** Projections of assignments *)

Definition proj (xs : list string) (b : asg) : list string := filter b xs.
Lemma proj_eq xs b b' : proj xs b = proj xs b' <-> forall x, In x xs -> b x = b' x.
Proof.
  split.
  - intros e x Hx. assert (H : In x (proj xs b) <-> In x (proj xs b')) by (rewrite e; tauto).
    unfold proj in H. rewrite !filter_In in H. destruct (b x), (b' x); auto; destruct H as [H1 H2]; exfalso; [destruct (H1 (conj Hx eq_refl))|destruct (H2 (conj Hx eq_refl))]; discriminate.
  - intros H. apply filter_ext_in. auto.
Qed.
Lemma proj_incl xs ys b b' : incl xs ys -> proj ys b = proj ys b' -> proj xs b = proj xs b'.
Proof. rewrite !proj_eq. auto. Qed.
Definition distinct (xs : list string) (bs : list asg) : Prop := NoDup (map (proj xs) bs).
Lemma distinct_len xs bs : distinct xs bs -> length bs <= 2 ^ length xs.
Proof.
  intros D. rewrite <- (map_length (proj xs)), <- allSubs_len. apply NoDup_incl_length; auto.
  intros p Hp. apply in_map_iff in Hp as (b & <- & _). apply allSubs_in, sublist_filter.
Qed.
Lemma distinct_snoc xs bs b : distinct xs bs -> ~ In (proj xs b) (map (proj xs) bs) -> distinct xs (bs ++ [b]).
Proof. unfold distinct. intros D N. rewrite map_app. apply NoDup_snoc; auto. Qed.
Lemma NoDup_app {A} (l m : list A) : NoDup l -> NoDup m -> (forall x, In x l -> ~ In x m) -> NoDup (l ++ m).
Proof.
  induction l as [|x l IH]; cbn; intros N1 N2 D; auto. apply NoDup_cons_iff in N1 as [N N1]. constructor.
  - intros H. apply in_app_or in H as [H|H]; auto. apply (D x); auto.
  - apply IH; auto.
Qed.

(** ** Saved states *)

Definition same (s s' : solver) : Prop := s_forms s' = s_forms s /\ s_known s' = s_known s.
Definition ext (s s' : solver) : Prop :=
  s_next s <= s_next s' /\ exists pre, s_states s' = pre ++ s_states s /\ forall p, In p pre -> s_next s <= fst p.
Lemma ext_refl s s' : s_states s' = s_states s -> s_next s' = s_next s -> ext s s'.
Proof. intros A B. split; [lia|]. exists []. split; auto. intros p []. Qed.
Lemma ext_trans s s1 s2 : ext s s1 -> ext s1 s2 -> ext s s2.
Proof.
  intros [L1 (p1 & e1 & H1)] [L2 (p2 & e2 & H2)]. split; [lia|]. exists (p2 ++ p1). split; [rewrite e2, e1; apply app_assoc|].
  intros p Hp. apply in_app_or in Hp as [Hp|Hp]; auto. apply H2 in Hp. lia.
Qed.
Lemma cut_skip id c r : forall pre, (forall p, In p pre -> id < fst p) -> cutStates id (pre ++ (id, c) :: r) = Some (c, (id, c) :: r).
Proof.
  induction pre as [|[i d] pre IH]; intros H; cbn.
  - now rewrite Nat.eqb_refl.
  - destruct (Nat.eqb_spec i id) as [-> |]; [specialize (H (id, d) (or_introl eq_refl)); cbn in H; lia|]. apply IH. intros p Hp. apply H. now right.
Qed.
Lemma load_ok s id s0 s' : saveState s = (id, s0) -> ext s0 s' -> exists s2, loadState s' id = Some s2 /\ same s s2 /\ ext s s2.
Proof.
  unfold saveState. intros e [L (pre & St & Hp)]. injection e as <- <-. cbn in *.
  unfold loadState. rewrite St, cut_skip by (intros p Hp'; apply Hp in Hp'; lia).
  eexists. split; [reflexivity|]. split; [split; reflexivity|]. split; [cbn; lia|]. cbn. eexists [_]. split; [reflexivity|].
  intros p [<- |[]]. cbn. lia.
Qed.
Lemma save_same s id s0 : saveState s = (id, s0) -> same s s0.
Proof. unfold saveState. intros e. injection e as <- <-. split; reflexivity. Qed.
Lemma save_ext s id s0 : saveState s = (id, s0) -> ext s s0.
Proof.
  unfold saveState. intros e. injection e as <- <-. split; cbn; [lia|]. eexists [_]. split; [reflexivity|].
  intros p [<- |[]]. cbn. lia.
Qed.
Lemma ask_ok E s r s' : ask E s = (r, s') -> same s s' /\ (s_states s' = s_states s /\ s_next s' = s_next s) /\ (r = false -> ~ uncancelled E).
Proof.
  unfold ask. intros e. injection e as <- <-. split; [split; reflexivity|]. split; [split; reflexivity|].
  intros e [_ U]. rewrite U in e. discriminate.
Qed.
Lemma ask_ext E s r s' : ask E s = (r, s') -> ext s s'.
Proof. intros e. apply ask_ok in e as (_ & [A B] & _). now apply ext_refl. Qed.
Lemma same_trans s s1 s2 : same s s1 -> same s1 s2 -> same s s2.
Proof. intros [A B] [C D]. split; congruence. Qed.
Lemma same_refl s : same s s. Proof. split; reflexivity. Qed.

Section Iteration.
Variable E : env.
Hypothesis OK : env_ok E.
Context {C : Type} (K : collector C).
Variables (Sim : C -> list (list lit) -> list (list lit) -> Prop) (extra : list lit).
Hypothesis sim_add : forall c com unc m, Sim c com unc -> Sim (c_add K c m) com (unc ++ [m]).
Hypothesis sim_commit : forall c com unc, Sim c com unc -> Sim (c_commit K c) (com ++ unc) [].
Hypothesis sim_rollback : forall c com unc, Sim c com unc -> Sim (c_rollback K c) com [].
Hypothesis sim_models : forall c com unc, Sim c com unc -> c_models K c = map (fun m => extra ++ m) unc.

(** ** One round of blocking *)

Definition blk (rel : list string) (b : asg) : tree := TOr (map (fun x => TLit (x, negb (b x))) rel).
Lemma eval_blk rel b b' : eval b' (blk rel b) = true <-> proj rel b' <> proj rel b.
Proof.
  rewrite proj_eq. unfold blk. cbn [eval]. rewrite existsb_exists. split.
  - intros (u & Hu & e) H. apply in_map_iff in Hu as (x & <- & Hx). cbn in e. unfold eval_lit in e. cbn in e.
    rewrite (H x Hx) in e. destruct (b x); discriminate.
  - intros N. assert (~ forallb (fun x => Bool.eqb (b' x) (b x)) rel = true) as F.
    { intros F. apply N. rewrite forallb_forall in F. intros x Hx. apply eqb_prop. auto. }
    clear N. induction rel as [|x r IH]; [exfalso; auto|]. cbn in F. destruct (Bool.eqb (b' x) (b x)) eqn:X.
    + cbn in F. destruct (IH F) as (u & Hu & e). exists u. split; [now right|auto].
    + eexists. split; [now left|]. cbn. unfold eval_lit. cbn. destruct (b' x), (b x); auto; discriminate.
Qed.

Lemma iterLoop_ok mx rel all F Kn com unc : forall fuel s c bs,
  s_forms s = F ++ map (blk rel) bs -> s_known s = Kn -> (Kn = [] -> rel = []) -> Sim c com (unc ++ map (modelOf all) bs) ->
  (forall b, In b bs -> satisfies b F) -> distinct rel bs -> (forall m, mx = Some m -> length bs < m \/ bs = []) -> 2 ^ length rel < fuel + length bs ->
  let '(r, s1, c1) := iterLoop E K fuel mx rel all (length bs) s c in
  s_states s1 = s_states s /\ s_next s1 = s_next s /\
  exists bs', Sim c1 com (unc ++ map (modelOf all) bs') /\ (forall b, In b bs' -> satisfies b F) /\ distinct rel bs' /\
  match r with
  | IFinished => (uncancelled E -> forall b, satisfies b F -> In (proj rel b) (map (proj rel) bs')) /\ forall m, mx = Some m -> length bs' < m \/ bs' = []
  | IMore => exists m bs2, mx = Some m /\ (forall b, In b bs2 -> satisfies b F) /\ distinct rel bs2 /\ m <= length bs2
  | ICanceled => ~ uncancelled E
  | IPanic | IFuel => False
  end.
Proof.
  induction fuel as [|fuel IH]; intros s c bs HF HK Hn HS Hb D Bd Fu; cbn [iterLoop].
  { apply distinct_len in D. lia. }
  unfold call. set (s1 := mkSolver (s_forms s) _ _ _ _).
  destruct (e_solve E (s_time s) (s_forms s) []) as [|b|] eqn:Es.
  - split; [reflexivity|]. split; [reflexivity|]. exists bs. repeat (split; [assumption|]). split; [|assumption]. intros [U _]. now apply U in Es.
  - apply (eo_sat _ OK) in Es as [Sb _]. rewrite HF, satisfies_app in Sb. destruct Sb as [Sb1 Sb2].
    assert (New : ~ In (proj rel b) (map (proj rel) bs)).
    { intros H. apply in_map_iff in H as (b2 & e & H). assert (X : eval b (blk rel b2) = true) by (apply Sb2; now apply in_map).
      apply eval_blk in X. congruence. }
    assert (D2 : distinct rel (bs ++ [b])) by now apply distinct_snoc.
    assert (Hb2 : forall b0, In b0 (bs ++ [b]) -> satisfies b0 F) by (intros b0 H0; apply in_app_or in H0 as [H0|[<- |[]]]; auto).
    destruct (reached mx (S (length bs))) eqn:Rc.
    + split; [reflexivity|]. split; [reflexivity|]. exists bs. repeat (split; [assumption|]).
      unfold reached in Rc. destruct mx as [m|]; [|discriminate]. apply Nat.leb_le in Rc. exists m, (bs ++ [b]).
      repeat (split; [auto|]). rewrite app_length. cbn. lia.
    + destruct (ask E s1) as [resume s2] eqn:A. apply ask_ok in A as ([Af Ak] & [As An] & Ar).
      assert (HS2 : Sim (c_add K c (modelOf all b)) com (unc ++ map (modelOf all) (bs ++ [b]))).
      { rewrite map_app, app_assoc. cbn [map]. now apply sim_add. }
      assert (Bd2 : forall m, mx = Some m -> length (bs ++ [b]) < m \/ bs ++ [b] = []).
      { intros m e. left. rewrite app_length. cbn. unfold reached in Rc. rewrite e in Rc. apply Nat.leb_gt in Rc. lia. }
      destruct resume.
      * assert (Kn2 : s_known s2 = Kn) by (rewrite Ak; cbn; rewrite app_nil_r; exact HK).
        destruct (s_known s2) as [|k kr] eqn:Ek.
        -- split; [rewrite As; reflexivity|]. split; [rewrite An; reflexivity|]. exists (bs ++ [b]). repeat (split; [assumption|]).
           split; [|assumption]. intros _ b0 _. symmetry in Kn2. rewrite (Hn Kn2). cbn. rewrite map_app. apply in_or_app. right. now left.
        -- specialize (IH (block rel b s2) (c_add K c (modelOf all b)) (bs ++ [b])).
           rewrite app_length in IH. cbn [length] in IH. rewrite Nat.add_1_r in IH.
           destruct (iterLoop E K fuel mx rel all (S (length bs)) (block rel b s2) (c_add K c (modelOf all b))) as [[r s3] c3].
           cbn [block s_states s_next] in IH. rewrite As, An in IH. apply IH; auto.
           ++ cbn. rewrite Af. cbn. rewrite HF, map_app, <- app_assoc. reflexivity.
           ++ cbn. congruence.
           ++ intros m e. destruct (Bd2 m e) as [H|H]; [left; rewrite app_length in H; cbn in H; lia|destruct bs; discriminate].
           ++ lia.
      * split; [rewrite As; reflexivity|]. split; [rewrite An; reflexivity|]. exists (bs ++ [b]). repeat (split; [assumption|]). auto.
  - split; [reflexivity|]. split; [reflexivity|]. exists bs. repeat (split; [assumption|]). split; [|assumption]. intros _ b Sb.
    destruct (in_dec (list_eq_dec string_dec) (proj rel b) (map (proj rel) bs)) as [|N]; auto. exfalso.
    apply (eo_unsat _ OK _ _ _ Es b); [|intros u []]. rewrite HF, satisfies_app. split; auto.
    intros u Hu. apply in_map_iff in Hu as (b2 & <- & Hb2). apply eval_blk. intros e. apply N. rewrite e. now apply in_map.
Qed.

Lemma iterate_ok s c vs ad mx com : Sim c com [] ->
  let '(r, s1, c1) := iterate E K s c vs ad mx in
  let rel := filter (knows s) vs in
  let all := rel ++ filter (knows s) (without vs ad) in
  same s s1 /\ ext s s1 /\
  exists bs, Sim c1 com (map (modelOf all) bs) /\ (forall b, In b bs -> satisfies b (s_forms s)) /\ distinct rel bs /\
  match r with
  | IFinished => (uncancelled E -> forall b, satisfies b (s_forms s) -> In (proj rel b) (map (proj rel) bs)) /\ forall m, mx = Some m -> length bs < m \/ bs = []
  | IMore => exists m bs2, mx = Some m /\ (forall b, In b bs2 -> satisfies b (s_forms s)) /\ distinct rel bs2 /\ m <= length bs2
  | ICanceled => ~ uncancelled E
  | IPanic | IFuel => False
  end.
Proof.
  intros HS. unfold iterate. destruct (saveState s) as [id s0] eqn:Sv.
  pose proof (save_same _ _ _ Sv) as [Sf Sk].
  assert (Kn : forall x, knows s0 x = knows s x) by (intros x; unfold knows; now rewrite Sk).
  rewrite !(filter_ext _ _ Kn). set (rel := filter (knows s) vs). set (all := rel ++ _). cbn zeta.
  pose proof (iterLoop_ok mx rel all (s_forms s) (s_known s) com [] (S (2 ^ length rel)) s0 c []) as L.
  destruct (iterLoop E K (S (2 ^ length rel)) mx rel all 0 s0 c) as [[r s1] c1] eqn:EL. cbn [length] in L. rewrite EL in L.
  destruct L as (Ls & Ln & bs & HS1 & Hb & D & R); auto.
  - cbn. rewrite app_nil_r. auto.
  - intros e. unfold rel. clear - e. induction vs as [|x r IH]; cbn; auto. unfold knows in *. rewrite e in *. cbn. auto.
  - intros b [].
  - constructor.
  - lia.
  - cbn [app] in HS1. destruct (load_ok s id s0 s1 Sv (ext_refl _ _ Ls Ln)) as (s2 & Ld & Sm & Ex).
    destruct r; try contradiction; rewrite Ld; repeat (split; [assumption|]); exists bs; auto.
Qed.

(** ** The recursion *)

Variables (S0 : strategy) (vars add : list string) (fs : list tree) (K0 : list string).
Let Z := filter (fun x => negb (existsb (String.eqb x) K0)) add.
Hypothesis st_split_ok : forall d vs s, incl (st_split S0 (S d) vs s) vs.
Hypothesis st_reduce_ok : forall vs d, incl (st_reduce S0 vs d) vs.
Hypothesis Z_vars : forall z, In z Z -> ~ In z vars.
Hypothesis extra_ok : forall l, In l extra -> In (fst l) Z /\ snd l = false.

Lemma Z_in z : In z Z <-> In z add /\ ~ In z K0.
Proof.
  unfold Z. rewrite filter_In, negb_true_iff. split; intros [A B]; split; auto.
  - intros H. assert (existsb (String.eqb z) K0 = true); [|congruence]. apply existsb_exists. exists z. split; auto. apply String.eqb_refl.
  - destruct (existsb (String.eqb z) K0) eqn:X; auto. apply existsb_exists in X as (y & Hy & e). apply String.eqb_eq in e. subst. contradiction.
Qed.

Definition kv : list string := filter (fun x => existsb (String.eqb x) K0) vars.
Lemma kv_in x : In x kv <-> In x vars /\ In x K0.
Proof.
  unfold kv. rewrite filter_In, existsb_exists. split; intros [A B]; split; auto.
  - destruct B as (y & Hy & e). apply String.eqb_eq in e. now subst.
  - exists x. split; auto. apply String.eqb_refl.
Qed.

Record okS (s : solver) : Prop := mkOkS {
  os_vars : forall x, In x vars -> (In x (s_known s) <-> In x K0);
  os_known : incl K0 (s_known s);
  os_forms : forall b, satisfies b (s_forms s) -> satisfies b fs;
  os_extra : forall z, In z Z -> In z (s_known s) -> forall b, satisfies b (s_forms s) -> b z = false;
  os_dep : forall b b', (forall x, In x (s_known s) -> b x = b' x) -> satisfies b (s_forms s) -> satisfies b' (s_forms s)
}.
Lemma okS_same s s' : same s s' -> okS s -> okS s'.
Proof. intros [F Kn] [A B C1 D D']. split; rewrite ?F, ?Kn; auto. Qed.

(** A literal list that a split may add. *)
Definition okLits (sp : list lit) : Prop := forall l, In l sp -> In (fst l) kv \/ (In (fst l) Z /\ snd l = false).
Lemma satisfies_lits b ls : satisfies b (map TLit ls) <-> allTrue b ls.
Proof.
  split.
  - intros H l Hl. apply (H (TLit l)). now apply in_map.
  - intros H u Hu. apply in_map_iff in Hu as (l & <- & Hl). now apply H.
Qed.
Lemma okS_add s sp : okS s -> okLits sp -> okS (addLits s sp).
Proof.
  intros [A B C1 D D'] L. split; cbn.
  - intros x Hx. rewrite in_app_iff, A by auto. split; [|auto]. intros [H|H]; auto.
    apply in_map_iff in H as (l & <- & Hl). destruct (L l Hl) as [Hk|[Hz _]]; [now apply kv_in in Hk|]. apply Z_vars in Hz. contradiction.
  - intros x Hx. apply in_or_app. auto.
  - intros b Sb. apply satisfies_app in Sb. apply C1. tauto.
  - intros z Hz Hk b Sb. apply satisfies_app in Sb as [Sb Sl]. apply in_app_or in Hk as [Hk|Hk]; [eauto|].
    apply in_map_iff in Hk as (l & <- & Hl). apply satisfies_lits in Sl. destruct (L l Hl) as [Hk|[_ e]].
    + apply kv_in in Hk as [Hk _]. apply Z_vars in Hz. contradiction.
    + apply Sl in Hl. unfold eval_lit in Hl. rewrite e in Hl. now apply negb_true_iff in Hl.
  - intros b b' H Sb. apply satisfies_app in Sb as [Sb Sl]. apply satisfies_app. split.
    + apply (D' b); auto. intros x Hx. apply H, in_or_app. auto.
    + apply satisfies_lits. apply satisfies_lits in Sl. intros l Hl. rewrite <- (Sl l Hl). unfold eval_lit.
      rewrite (H (fst l)); auto. apply in_or_app. right. now apply in_map.
Qed.

(** What a collected model says. *)
Definition raw (b : asg) (n : list lit) : Prop :=
  (forall x v, In (x, v) n -> v = b x /\ (In x vars \/ In x add) /\ (In x vars -> In x K0) /\ (In x Z -> v = false)) /\
  (forall x, In x vars \/ In x add -> In x K0 -> In (x, b x) n).

Lemma rel_kv s : okS s -> filter (knows s) vars = kv.
Proof.
  intros [A _ _ _ _]. apply filter_ext_in. intros x Hx. apply eq_true_iff_eq. rewrite knows_in, A by auto.
  rewrite existsb_exists. split.
  - intros H. exists x. split; auto. apply String.eqb_refl.
  - intros (y & Hy & e). apply String.eqb_eq in e. now subst.
Qed.
Lemma without_in ys xs x : In x (without ys xs) <-> In x xs /\ ~ In x ys.
Proof.
  unfold without. rewrite filter_In, negb_true_iff. split; intros [A B]; split; auto.
  - intros H. assert (existsb (String.eqb x) ys = true); [|congruence]. apply existsb_exists. exists x. split; auto. apply String.eqb_refl.
  - destruct (existsb (String.eqb x) ys) eqn:X; auto. apply existsb_exists in X as (y & Hy & e). apply String.eqb_eq in e. subst. contradiction.
Qed.
Lemma raw_ok s b : okS s -> satisfies b (s_forms s) ->
  raw b (modelOf (filter (knows s) vars ++ filter (knows s) (without vars add)) b).
Proof.
  intros [A B C1 D _] Sb. unfold modelOf. split.
  - intros x v H. apply in_map_iff in H as (y & e & H). injection e as -> <-. split; auto.
    apply in_app_or in H as [H|H]; apply filter_In in H as [H Hk]; apply knows_in in Hk.
    + split; [auto|]. split; [intros _; now apply A|]. intros Hz. apply Z_vars in Hz. contradiction.
    + apply without_in in H as [H N]. split; [auto|]. split; [contradiction|]. intros Hz. eauto.
  - intros x H Hk. apply in_map_iff. exists x. split; auto. apply in_or_app.
    destruct (in_dec string_dec x vars) as [Hv|N].
    + left. apply filter_In. split; auto. apply knows_in. auto.
    + right. apply filter_In. split; [|apply knows_in; auto]. apply without_in. split; auto. destruct H; [contradiction|auto].
Qed.

(** The outcome of a part of the search: [ns] are the models committed. *)
Definition found (bs : list asg) (ns : list (list lit)) (P : asg -> Prop) : Prop :=
  Forall2 raw bs ns /\ (forall b, In b bs -> satisfies b fs /\ P b) /\ distinct kv bs.
Definition complete (bs : list asg) (P : asg -> Prop) : Prop := forall b, P b -> In (proj kv b) (map (proj kv) bs).

Lemma restore_ok s id s0 s' (c : C) r : saveState s = (id, s0) -> ext s0 s' ->
  exists s2, restore s' id c r = (r, s2, c) /\ same s s2 /\ ext s s2.
Proof.
  intros Sv Ex. destruct (load_ok _ _ _ _ Sv Ex) as (s2 & L & Sm & Ex2). exists s2. unfold restore. rewrite L. auto.
Qed.

Lemma splitLoop_ok s id s0 depth com : saveState s = (id, s0) -> forall fuel s1 c split,
  ext s0 s1 -> Sim c com [] ->
  match splitLoop E K S0 fuel depth id s1 c split with
  | inl (split', s2, c2) => incl split' split /\ same s1 s2 /\ ext s0 s2 /\
      exists bs, Sim c2 com (map (modelOf (filter (knows s1) split')) bs) /\ (forall b, In b bs -> satisfies b (s_forms s1)) /\
        distinct (filter (knows s1) split') bs /\
        (uncancelled E -> forall b, satisfies b (s_forms s1) -> In (proj (filter (knows s1) split') b) (map (proj (filter (knows s1) split')) bs))
  | inr (RecFuel, s2, c2) => True
  | inr (RecCanceled, s2, c2) => ~ uncancelled E /\ Sim c2 com [] /\ same s s2 /\ ext s s2
  | inr (RecPanic, _, _) | inr (RecOk, _, _) => False
  end.
Proof.
  intros Sv. induction fuel as [|fuel IH]; intros s1 c split Ex HS; cbn [splitLoop]; auto.
  pose proof (iterate_ok s1 c split [] (st_maxSplit S0 depth) com HS) as I.
  destruct (iterate E K s1 c split [] (st_maxSplit S0 depth)) as [[r s2] c2]. cbn zeta in I.
  cbn [without filter] in I. rewrite app_nil_r in I. destruct I as (Sm & Ex2 & bs & HS2 & Hb & D & R).
  assert (Ex3 : ext s0 s2) by (eapply ext_trans; eauto).
  destruct r; try contradiction.
  - split; [apply incl_refl|]. repeat (split; [assumption|]). exists bs. repeat (split; [assumption|]). apply R.
  - destruct (ask E s2) as [resume s3] eqn:A. pose proof (ask_ok _ _ _ _ A) as (Sm3 & _ & Ar).
    assert (Ex4 : ext s0 s3) by (eapply ext_trans; [eauto|eapply ask_ext; eauto]).
    apply sim_rollback in HS2. destruct resume.
    + specialize (IH s3 (c_rollback K c2) (st_reduce S0 split depth) Ex4 HS2).
      destruct (splitLoop E K S0 fuel depth id s3 (c_rollback K c2) (st_reduce S0 split depth)) as [[[sp s4] c4]|[[rr s4] c4]]; auto.
      destruct IH as (I1 & I2 & I3 & I4). split; [eapply incl_tran; [exact I1|apply st_reduce_ok]|].
      assert (Sm4 : same s1 s3) by (eapply same_trans; eauto).
      split; [eapply same_trans; eauto|]. split; auto.
      destruct Sm4 as [Ff Fk]. assert (Kn : forall x, knows s3 x = knows s1 x) by (intros x; unfold knows; now rewrite Fk).
      rewrite !(filter_ext _ _ Kn), Ff in I4. exact I4.
    + destruct (restore_ok s id s0 s3 (c_rollback K c2) RecCanceled Sv Ex4) as (s4 & -> & Sm4 & Ex5). auto.
  - apply sim_rollback in HS2. destruct (restore_ok s id s0 s2 (c_rollback K c2) RecCanceled Sv Ex3) as (s4 & -> & Sm4 & Ex5).
    destruct (ask E s4) as [resume s5] eqn:A. cbn. pose proof (ask_ok _ _ _ _ A) as (Sm5 & _ & _).
    split; auto. split; auto. split; [eapply same_trans; eauto|]. eapply ext_trans; [eauto|eapply ask_ext; eauto].
Qed.

(** Postcondition of the recursion started in [s] with the literals [sp]. *)
Definition recPost (s : solver) (sp : list lit) (com : list (list lit)) (res : recRes * solver * C) : Prop :=
  let '(r, s', c') := res in
  r = RecFuel \/
  (r <> RecPanic /\ (same s s' \/ same (addLits s sp) s') /\ ext s s' /\ (uncancelled E -> r = RecOk /\ same s s') /\
   exists bs ns, Sim c' (com ++ ns) [] /\ found bs ns (fun b => satisfies b (s_forms s) /\ allTrue b sp) /\
     (uncancelled E -> complete bs (fun b => satisfies b (s_forms s) /\ allTrue b sp))).

Lemma found_app bs1 ns1 bs2 ns2 P : found bs1 ns1 P -> found bs2 ns2 P ->
  (forall b1 b2, In b1 bs1 -> In b2 bs2 -> proj kv b1 <> proj kv b2) -> found (bs1 ++ bs2) (ns1 ++ ns2) P.
Proof.
  intros (A1 & B1 & D1) (A2 & B2 & D2) X. split; [now apply Forall2_app|]. split.
  - intros b Hb. apply in_app_or in Hb as [Hb|Hb]; auto.
  - unfold distinct. rewrite map_app. apply NoDup_app; auto. intros p H1 H2.
    apply in_map_iff in H1 as (b1 & <- & H1). apply in_map_iff in H2 as (b2 & e & H2). exact (X b1 b2 H1 H2 (eq_sym e)).
Qed.
Lemma found_weak bs ns (P Q : asg -> Prop) : (forall b, P b -> Q b) -> found bs ns P -> found bs ns Q.
Proof. intros H (A & B & D). split; auto. split; auto. intros b Hb. destruct (B b Hb). auto. Qed.

Lemma model_true xs b b' : allTrue b' (modelOf xs b) <-> proj xs b' = proj xs b.
Proof.
  rewrite proj_eq. unfold modelOf, allTrue. split.
  - intros H x Hx. specialize (H (x, b x)). assert (In (x, b x) (map (fun x => (x, b x)) xs)) by (apply in_map_iff; eauto).
    apply H in H0. unfold eval_lit in H0. cbn in H0. destruct (b x), (b' x); auto; discriminate.
  - intros H l Hl. apply in_map_iff in Hl as (x & <- & Hx). unfold eval_lit. cbn. rewrite (H x Hx). destruct (b x); auto.
Qed.
Lemma allTrue_app b l m : allTrue b (l ++ m) <-> allTrue b l /\ allTrue b m.
Proof.
  unfold allTrue. split.
  - intros H. split; intros x Hx; apply H, in_or_app; auto.
  - intros [A B] x Hx. apply in_app_or in Hx as [?|?]; auto.
Qed.

(** The children. *)
Lemma childLoop_ok rec s id s0 sp rel : saveState s = (id, s0) -> incl rel kv -> okLits sp ->
  (forall s1 c a com, okS s1 -> okLits (a ++ sp) -> Sim c com [] -> recPost s1 (a ++ sp) com (rec s1 c a)) ->
  forall todo s1 c com, okS s1 -> ext s0 s1 -> Sim c com [] -> distinct rel todo ->
  (forall b, satisfies b (s_forms s1) -> satisfies b (s_forms s) /\ allTrue b sp) ->
  (uncancelled E -> same (addLits s sp) s1) ->
  let '(r, s', c') := childLoop E K rec id s1 c (map (fun m => extra ++ m) (map (modelOf rel) todo)) in
  r = RecFuel \/
  (r <> RecPanic /\ same s s' /\ ext s s' /\ (uncancelled E -> r = RecOk) /\
   exists bs ns, Sim c' (com ++ ns) [] /\
     found bs ns (fun b => (satisfies b (s_forms s) /\ allTrue b sp) /\ exists b0, In b0 todo /\ proj rel b = proj rel b0) /\
     (uncancelled E -> complete bs (fun b => (satisfies b (s_forms s) /\ allTrue b sp /\ allTrue b extra) /\ exists b0, In b0 todo /\ proj rel b = proj rel b0))).
Proof.
  intros Sv Irel Osp Rec. induction todo as [|b0 todo IH]; intros s1 c com O Ex HS D Sat Un; cbn [map childLoop].
  - destruct (restore_ok s id s0 s1 c RecOk Sv Ex) as (s2 & -> & Sm & Ex2). right. split; [discriminate|]. split; [auto|]. split; [auto|].
    split; [auto|]. exists [], []. rewrite app_nil_r. split; [auto|]. split; [split; [constructor|split; [intros b []|constructor]]|].
    intros _ b (_ & b0 & [] & _).
  - unfold distinct in D. cbn [map] in D. apply NoDup_cons_iff in D as [D0 D].
    assert (Oa : okLits ((extra ++ modelOf rel b0) ++ sp)).
    { intros l Hl. apply in_app_or in Hl as [Hl|Hl]; [|auto]. apply in_app_or in Hl as [Hl|Hl].
      - right. auto.
      - left. unfold modelOf in Hl. apply in_map_iff in Hl as (x & <- & Hx). cbn. auto. }
    pose proof (Rec s1 c (extra ++ modelOf rel b0) com O Oa HS) as R.
    destruct (rec s1 c (extra ++ modelOf rel b0)) as [[r1 s2] c2]. cbn [recPost] in R.
    destruct R as [-> |(Np & Sm & Ex2 & Un2 & bs1 & ns1 & HS2 & F1 & C1)]; [now left|].
    destruct r1; try (exfalso; apply Np; reflexivity); [| |now left].
    all: cbn zeta; destruct (ask E s2) as [resume s3] eqn:A; pose proof (ask_ok _ _ _ _ A) as (Sm3 & _ & Ar).
    all: assert (Ex3 : ext s0 s3) by (eapply ext_trans; [exact Ex|]; eapply ext_trans; [exact Ex2|eapply ask_ext; eauto]).
    all: apply sim_commit in HS2; rewrite app_nil_r in HS2.
    all: assert (F1' : found bs1 ns1 (fun b => (satisfies b (s_forms s) /\ allTrue b sp) /\ exists b1, In b1 (b0 :: todo) /\ proj rel b = proj rel b1))
      by (eapply found_weak; [|exact F1]; intros b [H1 H2]; split; [now apply Sat|]; exists b0; split; [now left|];
          apply allTrue_app in H2 as [H2 _]; apply allTrue_app in H2 as [_ H2]; now apply model_true).
    all: assert (O3 : okS s3) by (apply (okS_same s2); auto; destruct Sm as [Sm|Sm]; [now apply (okS_same s1)|apply (okS_same (addLits s1 ((extra ++ modelOf rel b0) ++ sp))); auto; now apply okS_add]).
    all: assert (Sat3 : forall b, satisfies b (s_forms s3) -> satisfies b (s_forms s1))
      by (intros b; rewrite (proj1 Sm3); destruct Sm as [[-> _]|[-> _]]; auto; cbn; rewrite satisfies_app; tauto).
    all: destruct resume.
    all: try (destruct (restore_ok s id s0 s3 (c_commit K c2) RecCanceled Sv Ex3) as (s4 & -> & Sm4 & Ex5); right;
        split; [discriminate|]; split; [auto|]; split; [auto|]; split; [intros U; exfalso; now apply Ar|];
        exists bs1, ns1; split; [auto|]; split; [auto|]; intros U; exfalso; now apply Ar).
    all: assert (Un3 : uncancelled E -> same (addLits s sp) s3)
      by (intros U; eapply same_trans; [apply Un; auto|]; eapply same_trans; [apply Un2; auto|auto]).
    all: specialize (IH s3 (c_commit K c2) (com ++ ns1) O3 Ex3 HS2 D (fun b H => Sat b (Sat3 b H)) Un3).
    all: destruct (childLoop E K rec id s3 (c_commit K c2) (map (fun m => extra ++ m) (map (modelOf rel) todo))) as [[r4 s4] c4].
    all: destruct IH as [-> |(Np4 & Sm4 & Ex4 & Un4 & bs2 & ns2 & HS4 & F2 & C2)]; [now left|].
    all: right; split; [auto|]; split; [auto|]; split; [auto|]; split; [auto|].
    all: exists (bs1 ++ bs2), (ns1 ++ ns2); split; [rewrite app_assoc; auto|]; split.
    all: try (apply found_app; [auto|eapply found_weak; [|exact F2]; intros b (H1 & b1 & H2 & H3); split; auto; exists b1; split; [now right|auto]|];
       intros b1 b2 H1 H2 e; destruct F1 as (_ & F1 & _), F2 as (_ & F2 & _); destruct (F1 _ H1) as (_ & _ & G1); destruct (F2 _ H2) as (_ & _ & b3 & G2 & G3);
       apply allTrue_app in G1 as [G1 _]; apply allTrue_app in G1 as [_ G1]; apply model_true in G1; apply D0;
       rewrite <- G1, (proj_incl rel kv b1 b2 Irel e), G3; now apply in_map).
    all: intros U b ((H1 & H2 & H2') & b1 & H3 & H4); rewrite map_app; apply in_or_app; destruct H3 as [<- |H3]; [left; apply C1; auto|right; apply C2; auto; split; auto; eauto].
    all: split; [rewrite (proj1 (Un U)); cbn; apply satisfies_app; split; auto; now apply satisfies_lits|].
    all: apply allTrue_app; split; auto; apply allTrue_app; split; auto; now apply model_true.
Qed.

Lemma iterRecursive_ok rfuel : forall fuel depth split s c sp com, okS s -> okLits sp -> incl split vars -> Sim c com [] ->
  recPost s sp com (iterRecursive E K S0 vars add fuel rfuel depth split s c sp).
Proof.
  induction fuel as [|fuel IH]; intros depth split s c sp com O Osp Isp HS; cbn [iterRecursive]; [now left|].
  destruct (saveState s) as [id s0] eqn:Sv. pose proof (save_same _ _ _ Sv) as Sm0.
  set (s1 := addLits s0 sp).
  assert (Sm1 : same (addLits s sp) s1) by (destruct Sm0 as [F Kn]; split; cbn; congruence).
  assert (O1 : okS s1) by (apply (okS_same (addLits s sp)); auto; now apply okS_add).
  assert (Ex1 : ext s0 s1) by (apply ext_refl; reflexivity).
  assert (Sat1 : forall b, satisfies b (s_forms s1) <-> satisfies b (s_forms s) /\ allTrue b sp).
  { intros b. rewrite (proj1 Sm1). cbn. now rewrite satisfies_app, satisfies_lits. }
  clearbody s1.
  pose proof (iterate_ok s1 c vars add (st_maxIter S0 depth) com HS) as I.
  destruct (iterate E K s1 c vars add (st_maxIter S0 depth)) as [[r s2] c2]. cbn zeta in I.
  destruct I as (Sm2 & Ex2 & bs & HS2 & Hb & D & R). rewrite (rel_kv s1 O1) in *.
  assert (Ex02 : ext s0 s2) by (eapply ext_trans; eauto).
  assert (F : found bs (map (modelOf (kv ++ filter (knows s1) (without vars add))) bs) (fun b => satisfies b (s_forms s) /\ allTrue b sp)).
  { split; [|split; auto].
    - clear - Hb O1 Z_vars. induction bs as [|b bs IH]; cbn; constructor.
      + rewrite <- (rel_kv s1 O1). apply raw_ok; auto. apply Hb. now left.
      + apply IH. intros b0 H0. apply Hb. now right.
    - intros b H. split; [apply (os_forms _ O1); auto|apply Sat1; auto]. }
  destruct r; try contradiction.
  - apply sim_commit in HS2. destruct (ask E s2) as [resume s3] eqn:A. pose proof (ask_ok _ _ _ _ A) as (Sm3 & _ & Ar).
    assert (Ex3 : ext s0 s3) by (eapply ext_trans; [exact Ex02|eapply ask_ext; eauto]).
    destruct (restore_ok s id s0 s3 (c_commit K c2) (if resume then RecOk else RecCanceled) Sv Ex3) as (s4 & -> & Sm4 & Ex4).
    right. split; [destruct resume; discriminate|]. split; [auto|]. split; [auto|]. split.
    { intros U. split; auto. destruct resume; auto. exfalso. now apply Ar. }
    exists bs. eexists. split; [exact HS2|]. split; [exact F|]. intros U b Hb2. apply R; auto. now apply Sat1.
  - apply sim_rollback in HS2. destruct (ask E s2) as [resume s3] eqn:A. pose proof (ask_ok _ _ _ _ A) as (Sm3 & _ & Ar).
    assert (Ex3 : ext s0 s3) by (eapply ext_trans; [exact Ex02|eapply ask_ext; eauto]).
    assert (Nil : forall s', (uncancelled E -> False) -> same s s' -> ext s s' -> forall c', Sim c' com [] -> recPost s sp com (RecCanceled, s', c')).
    { intros s' U S1 X1 c' HS'. right. split; [discriminate|]. split; [auto|]. split; [auto|]. split; [intros H; now apply U in H|].
      exists [], []. rewrite app_nil_r. split; auto. split; [split; [constructor|split; [intros b []|constructor]]|]. intros H; now apply U in H. }
    destruct resume.
    2: { destruct (restore_ok s id s0 s3 (c_rollback K c2) RecCanceled Sv Ex3) as (s4 & -> & Sm4 & Ex4). apply Nil; auto. intros U. now apply Ar. }
    assert (Sm13 : same s1 s3) by (eapply same_trans; eauto).
    pose proof (splitLoop_ok s id s0 depth com Sv rfuel s3 (c_rollback K c2) split Ex3 HS2) as SL.
    destruct (splitLoop E K S0 rfuel depth id s3 (c_rollback K c2) split) as [[[sp' s4] c4]|[[rr s4] c4]].
    2: { destruct rr; try contradiction; [|now left]. destruct SL as (U & HS4 & Sm4 & Ex4). apply Nil; auto. }
    destruct SL as (Isp' & Sm4 & Ex4 & bs3 & HS4 & Hb3 & D3 & R3).
    assert (O3 : okS s3) by now apply (okS_same s1).
    set (rel := filter (knows s3) sp') in *.
    assert (Irel : incl rel kv).
    { intros x Hx. apply filter_In in Hx as [Hx Hk]. apply knows_in in Hk. apply kv_in.
      assert (In x vars) by (apply Isp, Isp'; auto). split; auto. now apply (os_vars _ O3). }
    rewrite (sim_models _ _ _ HS4). pose proof HS4 as HS4'. apply sim_rollback in HS4'.
    destruct (ask E s4) as [resume s5] eqn:A2. pose proof (ask_ok _ _ _ _ A2) as (Sm5 & _ & Ar5).
    assert (Ex5 : ext s0 s5) by (eapply ext_trans; [exact Ex4|eapply ask_ext; eauto]).
    destruct resume.
    2: { destruct (restore_ok s id s0 s5 (c_rollback K c4) RecCanceled Sv Ex5) as (s6 & -> & Sm6 & Ex6). apply Nil; auto. intros U. now apply Ar5. }
    set (next := st_split S0 (S depth) _ s5).
    assert (Inext : incl next vars).
    { intros x Hx. apply st_split_ok in Hx. apply without_in in Hx as [Hx _]. now apply without_in in Hx as [Hx _]. }
    assert (Sm35 : same s1 s5) by (eapply same_trans; [exact Sm13|]; eapply same_trans; eauto).
    assert (O5 : okS s5) by now apply (okS_same s1).
    pose proof (childLoop_ok (fun s c a => iterRecursive E K S0 vars add fuel rfuel (S depth) next s c (a ++ sp)) s id s0 sp rel Sv Irel Osp) as CL.
    specialize (CL (fun s1 c a com H1 H2 H3 => IH (S depth) next s1 c (a ++ sp) com H1 H2 Inext H3)).
    specialize (CL bs3 s5 (c_rollback K c4) com O5 Ex5 HS4' D3).
    destruct (childLoop E K (fun s c a => iterRecursive E K S0 vars add fuel rfuel (S depth) next s c (a ++ sp)) id s5 (c_rollback K c4)
      (map (fun m => extra ++ m) (map (modelOf rel) bs3))) as [[r6 s6] c6].
    destruct CL as [-> |(Np & Sm6 & Ex6 & Un6 & bs6 & ns6 & HS6 & F6 & C6)].
    + intros b Sb. rewrite (proj1 Sm35) in Sb. now apply Sat1.
    + intros _. eapply same_trans; eauto.
    + now left.
    + right. split; [auto|]. split; [auto|]. split; [auto|]. split; [auto|]. exists bs6, ns6. split; [auto|].
      split; [eapply found_weak; [|exact F6]; intros b [H _]; exact H|].
      intros U b Hb6. apply Sat1 in Hb6.
      set (b' := fun x => if in_dec string_dec x Z then (if in_dec string_dec x (s_known s1) then b x else false) else b x).
      assert (Kb : forall x, In x (s_known s1) -> b x = b' x).
      { intros x Hx. unfold b'. destruct (in_dec string_dec x Z); auto. destruct (in_dec string_dec x (s_known s1)); [auto|contradiction]. }
      assert (Sb' : satisfies b' (s_forms s1)) by (apply (os_dep _ O1 b); auto).
      assert (Pb : proj kv b = proj kv b').
      { apply proj_eq. intros x Hx. apply Kb. apply kv_in in Hx as [_ Hx]. apply (os_known _ O1). auto. }
      rewrite Pb. apply C6; auto. split.
      * apply Sat1 in Sb' as [S1 S2]. split; auto. split; auto. intros l Hl. destruct (extra_ok l Hl) as [Hz e].
        unfold eval_lit. rewrite e. apply negb_true_iff. unfold b'. destruct (in_dec string_dec (fst l) Z); [|contradiction].
        destruct (in_dec string_dec (fst l) (s_known s1)) as [ki|]; auto. apply (os_extra _ O1 _ Hz ki b). auto.
      * assert (Sb3 : satisfies b' (s_forms s3)) by (rewrite (proj1 Sm13); auto).
        specialize (R3 U b' Sb3). apply in_map_iff in R3 as (b0 & e & Hb0). exists b0. split; auto.
  - apply sim_commit in HS2. destruct (ask E s2) as [resume s3] eqn:A. pose proof (ask_ok _ _ _ _ A) as (Sm3 & _ & Ar). cbn [snd].
    right. split; [discriminate|]. split; [right; eapply same_trans; [exact Sm1|]; eapply same_trans; eauto|].
    split; [eapply ext_trans; [eapply save_ext; eauto|]; eapply ext_trans; [exact Ex02|eapply ask_ext; eauto]|].
    split; [intros U; contradiction|]. exists bs. eexists. split; [exact HS2|]. split; [exact F|]. intros U. contradiction.
Qed.
(** ** Termination *)

(** The limits allow three models, and splitting at least two variables leads
    to fewer variables, but at least one. *)
Record shrinks : Prop := mkShrinks {
  sh_iter : forall d m, st_maxIter S0 d = Some m -> 3 <= m;
  sh_max : forall d m, st_maxSplit S0 d = Some m -> 3 <= m;
  sh_split : forall d vs s, length (st_split S0 (S d) vs s) <= length vs /\ (2 <= length vs -> st_split S0 (S d) vs s <> []);
  sh_reduce : forall vs d, 2 <= length vs -> length (st_reduce S0 vs d) < length vs /\ st_reduce S0 vs d <> []
}.

Lemma filter_length_le {A} (p : A -> bool) l : length (filter p l) <= length l.
Proof. induction l as [|x l IH]; cbn; auto. destruct (p x); cbn; lia. Qed.
Lemma two_of xs bs : distinct xs bs -> 3 <= length bs -> 2 <= length xs.
Proof.
  intros D L. apply distinct_len in D. destruct xs as [|x [|y r]]; cbn in *; lia.
Qed.

Lemma splitLoop_term : shrinks -> forall fuel depth id s c split com, Sim c com [] -> length split < fuel ->
  match splitLoop E K S0 fuel depth id s c split with
  | inl (split', _, _) => split <> [] -> split' <> []
  | inr (r, _, _) => r <> RecFuel
  end.
Proof.
  intros Sh. induction fuel as [|fuel IH]; intros depth id s c split com HS L; [lia|]. cbn [splitLoop].
  pose proof (iterate_ok s c split [] (st_maxSplit S0 depth) com HS) as I.
  destruct (iterate E K s c split [] (st_maxSplit S0 depth)) as [[r s2] c2]. cbn zeta in I.
  destruct I as (Sm & Ex2 & bs & HS2 & Hb & D & R). destruct r; try contradiction; auto.
  - destruct R as (m & bs2 & em & _ & D2 & Lm). apply (sh_max Sh) in em.
    assert (L2 : 2 <= length split).
    { apply two_of in D2; [|lia]. pose proof (filter_length_le (knows s) split). lia. }
    destruct (sh_reduce Sh split depth L2) as [R1 R2]. apply sim_rollback in HS2.
    destruct (ask E s2) as [[|] s3].
    + specialize (IH depth id s3 (c_rollback K c2) (st_reduce S0 split depth) com HS2 ltac:(lia)).
      destruct (splitLoop E K S0 fuel depth id s3 (c_rollback K c2) (st_reduce S0 split depth)) as [[[sp' s4] c4]|[[rr s4] c4]]; auto.
    + unfold restore. destruct (loadState s3 id); discriminate.
  - unfold restore. destruct (loadState s2 id); discriminate.
Qed.

Lemma childLoop_term rec sp id ok : (forall l, In l ok -> okLits (l ++ sp)) ->
  (forall s1 c a com, okS s1 -> In a ok -> Sim c com [] ->
    recPost s1 (a ++ sp) com (rec s1 c a) /\ fst (fst (rec s1 c a)) <> RecFuel) ->
  forall todo s1 c com, incl todo ok -> okS s1 -> Sim c com [] -> fst (fst (childLoop E K rec id s1 c todo)) <> RecFuel.
Proof.
  intros Ok Rec. induction todo as [|a todo IH]; intros s1 c com I O HS; cbn [childLoop].
  - unfold restore. destruct (loadState s1 id); discriminate.
  - assert (Ia : In a ok) by (apply I; now left).
    destruct (Rec s1 c a com O Ia HS) as [P N].
    destruct (rec s1 c a) as [[r1 s2] c2]. cbn [recPost] in P. cbn [fst] in N.
    destruct P as [-> |(Np & Sm & Ex2 & Un2 & bs1 & ns1 & HS2 & _)]; [now contradiction N|].
    assert (O2 : okS s2).
    { destruct Sm as [Sm|Sm]; [now apply (okS_same s1)|]. apply (okS_same (addLits s1 (a ++ sp))); auto. apply okS_add; auto. }
    destruct r1; cbn zeta; try discriminate; try (now contradiction N).
    all: destruct (ask E s2) as [[|] s3] eqn:A; [|unfold restore; destruct (loadState s3 id); discriminate].
    all: apply ask_ok in A as (Sm3 & _); apply sim_commit in HS2; rewrite app_nil_r in HS2.
    all: apply (IH s3 (c_commit K c2) (com ++ ns1)); [|now apply (okS_same s2)|exact HS2].
    all: intros x Hx; apply I; now right.
Qed.

Lemma existsb_In l y : existsb (String.eqb y) l = true <-> In y l.
Proof. rewrite existsb_exists. split; [intros (z & H & e); apply String.eqb_eq in e; now subst|]. intros H. exists y. split; auto. apply String.eqb_refl. Qed.
Lemma filter_lt {A} (p q : A -> bool) l x : In x l -> p x = false -> q x = true -> (forall y, p y = true -> q y = true) -> length (filter p l) < length (filter q l).
Proof.
  intros Hx Px Qx PQ. assert (Le : forall m, length (filter p m) <= length (filter q m)).
  { induction m as [|y m IH]; cbn; auto. pose proof (PQ y). destruct (p y), (q y); cbn; try lia; specialize (H eq_refl); discriminate. }
  induction l as [|y l IH]; [contradiction|]. destruct Hx as [-> |Hx].
  - cbn. rewrite Px, Qx. cbn. specialize (Le l). lia.
  - specialize (IH Hx). cbn. pose proof (PQ y). destruct (p y), (q y); cbn; try lia; specialize (H eq_refl); discriminate.
Qed.
Lemma without_lt ys zs xs x : incl ys zs -> In x xs -> In x zs -> ~ In x ys -> length (without zs xs) < length (without ys xs).
Proof.
  intros I Hx Hz Hy.
  assert (X : forall l y, existsb (String.eqb y) l = true <-> In y l).
  { intros l y. rewrite existsb_exists. split; [intros (z & H & e); apply String.eqb_eq in e; now subst|]. intros H. exists y. split; auto. apply String.eqb_refl. }
  apply (filter_lt _ _ xs x); auto.
  - apply negb_false_iff, X. auto.
  - apply negb_true_iff. destruct (existsb (String.eqb x) ys) eqn:e; auto. apply X in e. contradiction.
  - intros y. rewrite !negb_true_iff. intros H. destruct (existsb (String.eqb y) ys) eqn:e; auto. apply X, I, X in e. congruence.
Qed.
Lemma without_two ys zs xs : without ys (without zs xs) = without (zs ++ ys) xs.
Proof.
  unfold without. induction xs as [|x xs IH]; cbn; auto. rewrite existsb_app, negb_orb.
  destruct (negb (existsb (String.eqb x) zs)); cbn; [|auto]. destruct (negb (existsb (String.eqb x) ys)); cbn; [|auto]. now f_equal.
Qed.

Lemma iterRecursive_term rfuel : shrinks -> incl vars K0 -> length vars < rfuel ->
  forall fuel depth split s c sp com, okS s -> okLits sp -> incl split (without (map fst sp) vars) -> length split <= length vars -> Sim c com [] ->
  ((2 <= length (without (map fst sp) vars) -> split <> []) /\ length (without (map fst sp) vars) < fuel) \/
   S (length (without (map fst sp) vars)) < fuel ->
  fst (fst (iterRecursive E K S0 vars add fuel rfuel depth split s c sp)) <> RecFuel.
Proof.
  intros Sh Kn Lr. induction fuel as [|fuel IH]; intros depth split s c sp com O Osp Isp Lsp HS Mu; [lia|]. cbn [iterRecursive].
  assert (Ivs : incl split vars) by (intros x Hx; apply Isp, without_in in Hx; tauto).
  destruct (saveState s) as [id s0] eqn:Sv. pose proof (save_same _ _ _ Sv) as Sm0.
  set (s1 := addLits s0 sp).
  assert (Sm1 : same (addLits s sp) s1) by (destruct Sm0 as [F Kf]; split; cbn; congruence).
  assert (O1 : okS s1) by (apply (okS_same (addLits s sp)); auto; now apply okS_add).
  assert (Ex1 : ext s0 s1) by (apply ext_refl; reflexivity).
  assert (Sat1 : forall b, satisfies b (s_forms s1) -> allTrue b sp).
  { intros b. rewrite (proj1 Sm1). cbn. rewrite satisfies_app, satisfies_lits. tauto. }
  clearbody s1.
  pose proof (iterate_ok s1 c vars add (st_maxIter S0 depth) com HS) as I.
  destruct (iterate E K s1 c vars add (st_maxIter S0 depth)) as [[r s2] c2]. cbn zeta in I.
  destruct I as (Sm2 & Ex2 & bs & HS2 & Hb & D & R). rewrite (rel_kv s1 O1) in *.
  assert (Ex02 : ext s0 s2) by (eapply ext_trans; eauto).
  destruct r; try contradiction.
  - destruct (ask E s2) as [resume s3]. unfold restore. destruct (loadState s3 id); [destruct resume|]; discriminate.
  - destruct R as (m & bs2 & em & Sb2 & D2 & Lm). apply (sh_iter Sh) in em.
    assert (Two : 2 <= length (without (map fst sp) vars)).
    { apply (two_of _ bs2); [|lia]. clear - D2 Sb2 Sat1. unfold distinct in *.
      set (g := proj (without (map fst sp) vars)). induction bs2 as [|b l IH]; cbn; constructor.
      - cbn in D2. apply NoDup_cons_iff in D2 as [N _]. intros H. apply N. apply in_map_iff in H as (b' & e & H').
        apply in_map_iff. exists b'. split; auto. apply proj_eq. intros x Hx. apply kv_in in Hx as [Hx _].
        unfold g in e. rewrite proj_eq in e. destruct (in_dec string_dec x (map fst sp)) as [Hi|Hi].
        + apply in_map_iff in Hi as (l0 & <- & Hl). pose proof (Sat1 b' (Sb2 b' (or_intror H')) l0 Hl) as T1.
          pose proof (Sat1 b (Sb2 b (or_introl eq_refl)) l0 Hl) as T2. unfold eval_lit in T1, T2.
          destruct (snd l0), (b (fst l0)), (b' (fst l0)); auto; discriminate.
        + apply e. now apply without_in.
      - cbn in D2. apply NoDup_cons_iff in D2 as [_ D2]. apply IH; auto. intros b1 H1. apply Sb2. now right. }
    apply sim_rollback in HS2. destruct (ask E s2) as [resume s3] eqn:A. pose proof (ask_ok _ _ _ _ A) as (Sm3 & _ & _).
    assert (Ex3 : ext s0 s3) by (eapply ext_trans; [exact Ex02|eapply ask_ext; eauto]).
    destruct resume; [|unfold restore; destruct (loadState s3 id); discriminate].
    assert (O3 : okS s3) by (apply (okS_same s2); [exact Sm3|]; now apply (okS_same s1)).
    pose proof (splitLoop_ok s id s0 depth com Sv rfuel s3 (c_rollback K c2) split Ex3 HS2) as SL.
    pose proof (splitLoop_term Sh rfuel depth id s3 (c_rollback K c2) split com HS2 ltac:(lia)) as ST.
    destruct (splitLoop E K S0 rfuel depth id s3 (c_rollback K c2) split) as [[[sp' s4] c4]|[[rr s4] c4]]; [|exact ST].
    destruct SL as (Isp' & Sm4 & Ex4 & bs3 & HS4 & Hb3 & D3 & R3).
    assert (Rel : filter (knows s3) sp' = sp').
    { assert (A3 : forall x, In x sp' -> knows s3 x = true).
      { intros x Hx. apply knows_in, (os_known _ O3), Kn, Ivs, Isp', Hx. }
      clear - A3. induction sp' as [|x l IHl]; cbn; auto. rewrite A3 by now left. f_equal. apply IHl. intros y Hy. apply A3. now right. }
    rewrite Rel in *. rewrite (sim_models _ _ _ HS4). pose proof HS4 as HS4'. apply sim_rollback in HS4'.
    destruct (ask E s4) as [resume s5] eqn:A2. pose proof (ask_ok _ _ _ _ A2) as (Sm5 & _ & _).
    destruct resume; [|unfold restore; destruct (loadState s5 id); discriminate].
    assert (O5 : okS s5) by (apply (okS_same s4); [exact Sm5|]; now apply (okS_same s3)).
    rewrite without_two. set (rem := without (sp' ++ map fst sp) vars). set (next := st_split S0 (S depth) rem s5).
    destruct (sh_split Sh depth rem s5) as [Nl Nn]. fold next in Nl, Nn.
    assert (Lrem : length rem <= length vars) by apply filter_length_le.
    assert (Inext : incl next rem) by apply st_split_ok.
    assert (Fst : forall a, In a (map (fun m => extra ++ m) (map (modelOf sp') bs3)) -> without (map fst (a ++ sp)) vars = rem).
    { intros a Ha. apply in_map_iff in Ha as (a1 & <- & Ha). apply in_map_iff in Ha as (b & <- & Hb4).
      unfold rem, without. apply filter_ext_in. intros x Hx. f_equal. apply eq_true_iff_eq. rewrite !existsb_In.
      rewrite !map_app, !in_app_iff. assert (Mm : map fst (modelOf sp' b) = sp') by (unfold modelOf; rewrite map_map; apply map_id).
      assert (Xn : ~ In x (map fst extra)).
      { intros Hy. apply in_map_iff in Hy as (l & <- & Hl). apply extra_ok in Hl as [Hl _]. now apply Z_vars in Hl. }
      assert (Mi : In x (map fst (modelOf sp' b)) <-> In x sp') by now rewrite Mm.
      split; [intros [[Hq|Hq]|Hq]; [now contradiction Xn|left; now apply Mi|now right]|intros [Hq|Hq]; [left; right; now apply Mi|now right]]. }
    apply (childLoop_term _ sp id (map (fun m => extra ++ m) (map (modelOf sp') bs3))) with (com := com).
    + intros a Ha l Hl. apply in_app_or in Hl as [Hl|Hl]; [|auto]. apply in_map_iff in Ha as (a1 & <- & Ha). apply in_map_iff in Ha as (b & <- & Hb4).
      apply in_app_or in Hl as [Hl|Hl]; [right; auto|]. left. unfold modelOf in Hl. apply in_map_iff in Hl as (x & <- & Hx). cbn. apply kv_in.
      split; [now apply Ivs, Isp'|]. apply Kn, Ivs, Isp', Hx.
    + intros s6 c6 a com6 O6 Ha HS6. 
      assert (Oa : okLits (a ++ sp)).
      { intros l Hl. apply in_app_or in Hl as [Hl|Hl]; [|auto]. apply in_map_iff in Ha as (a1 & <- & Ha). apply in_map_iff in Ha as (b & <- & Hb4).
        apply in_app_or in Hl as [Hl|Hl]; [right; auto|]. left. unfold modelOf in Hl. apply in_map_iff in Hl as (x & <- & Hx). cbn. apply kv_in.
        split; [now apply Ivs, Isp'|]. apply Kn, Ivs, Isp', Hx. }
      split.
      * apply iterRecursive_ok; auto. intros x Hx. apply Inext, without_in in Hx. tauto.
      * apply (IH (S depth) next s6 c6 (a ++ sp) com6); auto.
        -- rewrite (Fst a Ha). exact Inext.
        -- lia.
        -- rewrite (Fst a Ha). left. split; [exact Nn|].
           assert (Rl : length rem <= length (without (map fst sp) vars)).
           { unfold rem. rewrite <- without_two. assert (Cm : without (map fst sp) (without sp' vars) = without sp' (without (map fst sp) vars)).
             { rewrite !without_two. unfold without. apply filter_ext. intros x. now rewrite !existsb_app, orb_comm. }
             rewrite Cm. apply filter_length_le. }
           destruct Mu as [[Mu1 Mu2]|Mu]; [|lia].
           specialize (ST (Mu1 Two)). destruct sp' as [|x l]; [now contradiction ST|].
           assert (Hx : In x (without (map fst sp) vars)) by (apply Isp, Isp'; now left). apply without_in in Hx as [Hx1 Hx2].
           pose proof (without_lt (map fst sp) ((x :: l) ++ map fst sp) vars x) as W. fold rem in W. 
           assert (length rem < length (without (map fst sp) vars)).
           { apply W; auto. - intros y Hy. apply in_or_app. now right. - now left. }
           lia.
    + intros a Ha. exact Ha.
    + exact O5.
    + exact HS4'.
  - cbn. discriminate.
Qed.
End Iteration.
