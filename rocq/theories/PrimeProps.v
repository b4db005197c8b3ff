(** * C43: prime implicants and prime implicates *)
From Coq Require Import String Ascii List Bool Arith Lia ZArith DecimalString NArith.
From Verif Require Import NfBase Spec Solver Optimize OptimizeProps ExplainSpec Mus Smus SmusProps Primes PrimeSpec.
Import ListNotations.

(** ** Strings *)

Lemma append_length : forall x y, String.length (x ++ y) = String.length x + String.length y.
Proof. induction x; cbn; intros; auto. Qed.
Lemma append_inj : forall x y s t, String.length s = String.length t -> (x ++ s)%string = (y ++ t)%string -> x = y /\ s = t.
Proof.
  induction x as [|c x IH]; intros [|d y] s t L H; cbn in H; auto.
  - subst s. cbn in L. rewrite append_length in L. lia.
  - subst t. cbn in L. rewrite append_length in L. lia.
  - injection H as -> H. apply IH in H as [-> ->]; auto.
Qed.
Lemma newVar_inj l m : newVar l = newVar m -> l = m.
Proof.
  destruct l as [x v], m as [y w]. unfold newVar. cbn. intros H.
  apply append_inj in H as [-> H]; [|destruct v, w; reflexivity]. destruct v, w; try discriminate; auto.
Qed.

Fixpoint lastc (d : ascii) (s : string) : ascii := match s with EmptyString => d | String c r => lastc c r end.
Lemma lastc_app : forall x d s, lastc d (x ++ s) = lastc (lastc d x) s.
Proof. induction x; cbn; auto. Qed.
Lemma lastc_digit : forall u d, lastc d (NilEmpty.string_of_uint u) <> "S"%char /\ lastc d (NilEmpty.string_of_uint u) <> "G"%char \/ lastc d (NilEmpty.string_of_uint u) = d.
Proof.
  induction u; intros d; cbn; auto; (left; match goal with |- context [lastc ?c _] => destruct (IHu c) as [H|H] end; [exact H|rewrite H; split; discriminate]).
Qed.
Lemma newVar_unreserved l : ~ reserved (newVar l).
Proof.
  intros [i H]. apply (f_equal (lastc "0"%char)) in H. unfold newVar, selName in H. rewrite !lastc_app in H.
  assert (EL : forall d, lastc d (if snd l then "_POS" else "_NEG")%string = if snd l then "S"%char else "G"%char) by (intros d; destruct (snd l); reflexivity).
  rewrite EL in H.
  destruct (lastc_digit (N.to_uint (N.of_nat i)) (lastc "0"%char "@SEL_OPT_")) as [[H1 H2]|H1].
  - destruct (snd l); congruence.
  - rewrite H1 in H. destruct (snd l); cbn in H; discriminate.
Qed.

(** ** Literals *)

Lemma litEqb_spec l m : reflect (l = m) (litEqb l m).
Proof.
  destruct l as [x v], m as [y w]. unfold litEqb. cbn.
  destruct (String.eqb_spec x y); destruct (Bool.eqb_spec v w); constructor; congruence.
Qed.
Lemma negl_negl l : negl (negl l) = l.
Proof. destruct l as [x []]; auto. Qed.
Lemma negl_neq l : negl l <> l.
Proof. destruct l as [x []]; discriminate. Qed.
Lemma removeLit_in l m ls : In m (removeLit l ls) <-> In m ls /\ m <> l.
Proof. unfold removeLit. rewrite filter_In. destruct (litEqb_spec l m); cbn; split; intros [A B]; split; auto; congruence. Qed.
Lemma dedup_in m : forall ls, In m (dedup ls) <-> In m ls.
Proof.
  induction ls as [|l ls IH]; cbn; [tauto|]. rewrite removeLit_in, IH.
  destruct (litEqb_spec l m); split; intros; try tauto; destruct H; subst; auto.
Qed.
Lemma dedup_nodup : forall ls, NoDup (dedup ls).
Proof.
  induction ls as [|l ls IH]; cbn; constructor.
  - rewrite removeLit_in. tauto.
  - apply NoDup_filter; auto.
Qed.
Lemma NoDup_snoc {A} (l : list A) x : NoDup l -> ~ In x l -> NoDup (l ++ [x]).
Proof.
  induction l as [|y l IH]; cbn; intros N H; [constructor; auto; constructor|].
  apply NoDup_cons_iff in N as [N1 N2]. constructor.
  - intros Hy. apply in_app_or in Hy as [?|[-> |[]]]; auto.
  - apply IH; auto.
Qed.

Lemma allLits_in vs l : In l (allLits vs) <-> In (fst l) vs.
Proof.
  unfold allLits. rewrite in_flat_map. split.
  - intros (x & Hx & [<- |[<- |[]]]); auto.
  - intros H. exists (fst l). split; auto. destruct l as [x []]; cbn; auto.
Qed.
Lemma allLits_nodup vs : NoDup vs -> NoDup (allLits vs).
Proof.
  induction vs as [|x vs IH]; intros N; [constructor|]. apply NoDup_cons_iff in N as [N1 N2].
  cbn. constructor; [|constructor; auto].
  - intros [H|H]; [discriminate|]. apply allLits_in in H. auto.
  - intros H. apply allLits_in in H. auto.
Qed.
Lemma allLits_len vs : length (allLits vs) = 2 * length vs.
Proof. induction vs; cbn; auto. unfold allLits in *. lia. Qed.

(** ** Reduction *)

Section Reduce.
Variable E : env.
Hypothesis OK : env_ok E.
Variables (g : lit -> lit) (fs : list tree).
(** Unsatisfiability with the given assumptions. *)
Definition enough (ls : list lit) : Prop := forall b, satisfies b fs -> satisfies b (map TLit (map g ls)) -> False.

Lemma enough_mono l m : incl l m -> enough l -> enough m.
Proof.
  intros I H b S1 S2. apply (H b S1). intros t Ht. apply S2. apply in_map_iff in Ht as (x & <- & Hx).
  apply in_map_iff in Hx as (y & <- & Hy). apply in_map, in_map. auto.
Qed.

Lemma reduceLoop_ok : forall todo s cur r s', s_forms s = fs -> NoDup cur -> NoDup todo -> incl todo cur ->
  enough cur -> (forall l, In l cur -> ~ In l todo -> ~ enough (removeLit l cur)) ->
  reduceLoop E s g todo cur = (r, s') ->
  s_forms s' = fs /\
  match r with
  | RSet p => NoDup p /\ incl p cur /\ enough p /\ forall l, In l p -> ~ enough (removeLit l p)
  | RCanceled => ~ uncancelled E
  end.
Proof.
  induction todo as [|l todo IH]; intros s cur r s' F Nc Nt I En Nd H; cbn [reduceLoop] in H.
  - injection H as <- <-. split; auto. repeat split; auto. intros x Hx; exact Hx.
  - apply NoDup_cons_iff in Nt as [N1 N2].
    assert (Ncr : NoDup (removeLit l cur)) by now apply NoDup_filter.
    unfold call in H. destruct (e_solve E (s_time s) (s_forms s) (map g (removeLit l cur))) as [|b|] eqn:Es.
    + injection H as <- <-. split; auto. intros [U _]. now apply U in Es.
    + assert (Nen : ~ enough (removeLit l cur)).
      { apply (eo_sat _ OK) in Es as [S1 S2]. rewrite F in S1. intros En'. exact (En' b S1 S2). }
      assert (Il : In l cur) by (apply I; now left).
      assert (Same : forall m, In m (removeLit l cur ++ [l]) <-> In m cur).
      { intros m. rewrite in_app_iff, removeLit_in. cbn. destruct (litEqb_spec l m); [subst; tauto|]. split; [|intros; left; auto].
        intros [[A _]|[A|[]]]; auto. subst; auto. }
      apply (IH _ (removeLit l cur ++ [l])) in H; cbn; auto.
      * destruct H as [F' R]. split; auto. destruct r as [p|]; auto. destruct R as (A & B & C & D). split; [auto|split; [|auto]].
        intros m Hm. apply Same. auto.
      * apply NoDup_snoc; auto. rewrite removeLit_in. tauto.
      * intros m Hm. apply Same. apply I. now right.
      * eapply enough_mono; [|exact En]. intros m Hm. now apply Same.
      * intros m Hm Nm En'. apply Same in Hm.
        assert (En2 : enough (removeLit m cur)).
        { eapply enough_mono; [|exact En']. intros k Hk. apply removeLit_in in Hk as [K1 K2]. apply removeLit_in. split; auto. now apply Same. }
        destruct (litEqb_spec l m) as [<- |Ne]; [contradiction|]. apply (Nd m); auto. intros [?|?]; auto.
    + assert (En' : enough (removeLit l cur)).
      { intros b S1 S2. rewrite <- F in S1. exact (eo_unsat _ OK _ _ _ Es b S1 S2). }
      apply (IH _ (removeLit l cur)) in H; cbn; auto.
      * destruct H as [F' R]. split; auto. destruct r as [p|]; auto. destruct R as (A & B & C & D). split; [auto|split; [|auto]].
        intros m Hm. apply B in Hm. apply removeLit_in in Hm. tauto.
      * intros m Hm. apply removeLit_in. split; [apply I; now right|]. intros ->; auto.
      * intros m Hm Nm En2. apply removeLit_in in Hm as [M1 M2]. apply (Nd m); auto.
        -- intros [?|?]; auto.
        -- eapply enough_mono; [|exact En2]. intros k Hk. apply removeLit_in in Hk as [K1 K2]. apply removeLit_in in K1 as [K3 K4].
           apply removeLit_in. auto.
Qed.

Lemma reduce_ok s ls r s' : s_forms s = fs -> NoDup ls -> enough ls -> reduce E s g ls = (r, s') ->
  s_forms s' = fs /\
  match r with
  | RSet p => NoDup p /\ incl p ls /\ enough p /\ forall l, In l p -> ~ enough (removeLit l p)
  | RCanceled => ~ uncancelled E
  end.
Proof.
  intros F N En H. unfold reduce in H. destruct (e_resume E (s_time s)) eqn:Er.
  - apply (reduceLoop_ok ls _ (dedup ls)) in H; auto.
    + destruct H as [F' R]. split; auto. destruct r as [p|]; auto. destruct R as (A & B & C & D). split; [auto|split; [|auto]].
      intros m Hm. apply dedup_in. auto.
    + apply dedup_nodup.
    + intros m Hm. now apply dedup_in.
    + eapply enough_mono; [|exact En]. intros m Hm. now apply dedup_in.
    + intros l Hl Nl. exfalso. exact (Nl (proj1 (dedup_in l ls) Hl)).
  - injection H as <- <-. split; auto. intros [_ U]. now rewrite U in Er.
Qed.
End Reduce.

(** ** Sets of literals as assignments *)

Definition consistent (ls : list lit) : Prop := forall l, In l ls -> ~ In (negl l) ls.
Definition mem (l : lit) (ls : list lit) : bool := existsb (litEqb l) ls.
Lemma mem_in l ls : mem l ls = true <-> In l ls.
Proof.
  unfold mem. rewrite existsb_exists. split.
  - intros (m & Hm & e). destruct (litEqb_spec l m); [now subst|discriminate].
  - intros H. exists l. split; auto. destruct (litEqb_spec l l); congruence.
Qed.
Definition asgOf (ls : list lit) : asg := fun x => mem (x, true) ls.
Lemma asgOf_true ls : consistent ls -> allTrue (asgOf ls) ls.
Proof.
  intros C [x v] H. unfold eval_lit, asgOf. cbn. destruct v.
  - now apply mem_in.
  - destruct (mem (x, true) ls) eqn:M; auto. apply mem_in in M. exfalso. apply (C _ M). exact H.
Qed.
Lemma allTrue_consistent b ls : allTrue b ls -> consistent ls.
Proof. intros A l H1 H2. apply A in H1. apply A in H2. rewrite eval_negl, H1 in H2. discriminate. Qed.
Lemma allTrue_incl b l m : incl l m -> allTrue b m -> allTrue b l.
Proof. intros I A x Hx. auto. Qed.
Lemma some_dec b ls : someTrue b ls \/ allTrue b (map negl ls).
Proof.
  destruct (existsb (eval_lit b) ls) eqn:X.
  - left. apply existsb_exists in X as (l & A & B). exists l; auto.
  - right. intros l Hl. apply in_map_iff in Hl as (m & <- & Hm). rewrite eval_negl.
    destruct (eval_lit b m) eqn:Em; auto. exfalso. assert (existsb (eval_lit b) ls = true); [apply existsb_exists; eauto|congruence].
Qed.
Lemma some_not b ls : allTrue b (map negl ls) -> ~ someTrue b ls.
Proof. intros A (l & Hl & e). apply (in_map negl) in Hl. apply A in Hl. rewrite eval_negl, e in Hl. discriminate. Qed.

Lemma implicant_hits t ls J : consistent ls -> implicant t ls -> implicate t J -> (exists b, ~ someTrue b J) ->
  exists l, In l ls /\ In l J.
Proof.
  intros C I1 I2 [b0 N]. destruct (existsb (fun l => mem l J) ls) eqn:X.
  - apply existsb_exists in X as (l & A & B). exists l. split; auto. now apply mem_in.
  - exfalso. assert (CJ : allTrue b0 (map negl J)) by (destruct (some_dec b0 J); [contradiction|auto]).
    apply allTrue_consistent in CJ.
    assert (Dis : forall l, In l ls -> ~ In l J).
    { intros l H1 H2. assert (existsb (fun l => mem l J) ls = true); [|congruence].
      apply existsb_exists. exists l. split; auto. now apply mem_in. }
    assert (CC : consistent (ls ++ map negl J)).
    { intros l Hl Hn. apply in_app_or in Hl, Hn. destruct Hl as [Hl|Hl], Hn as [Hn|Hn].
      - apply (C l); auto.
      - apply in_map_iff in Hn as (m & e & Hm). apply (f_equal negl) in e. rewrite !negl_negl in e. subst m. apply (Dis l); auto.
      - apply in_map_iff in Hl as (m & <- & Hm). rewrite negl_negl in Hn. apply (Dis m); auto.
      - apply (CJ l); auto. }
    pose proof (asgOf_true _ CC) as A.
    assert (e : eval (asgOf (ls ++ map negl J)) t = true) by (apply I1; eapply allTrue_incl; [|exact A]; intros x Hx; apply in_or_app; auto).
    apply I2 in e. revert e. apply some_not. eapply allTrue_incl; [|exact A]. intros x Hx; apply in_or_app; auto.
Qed.

Lemma implicant_incl t l m : incl l m -> implicant t l -> implicant t m.
Proof. intros I H b A. apply H. eapply allTrue_incl; eauto. Qed.
Lemma implicate_incl t l m : incl l m -> implicate t l -> implicate t m.
Proof. intros I H b A. destruct (H b A) as (x & H1 & H2). exists x; auto. Qed.

Lemma removeLit_split a l c : NoDup (a ++ l :: c) -> incl (a ++ c) (removeLit l (a ++ l :: c)).
Proof.
  intros N x Hx. apply removeLit_in. apply NoDup_remove_2 in N. split.
  - apply in_app_or in Hx. apply in_or_app. cbn. tauto.
  - intros ->. contradiction.
Qed.

(** The result of the reductions is prime. *)
Lemma enough_implicant t ls : enough (fun l => l) [TNot t] ls <-> implicant t ls.
Proof.
  unfold enough, implicant. split.
  - intros H b A. destruct (eval b t) eqn:Ev; auto. exfalso. apply (H b).
    + apply satisfies_one. cbn. now rewrite Ev.
    + intros u Hu. apply in_map_iff in Hu as (l & <- & Hl). rewrite map_id in Hl. apply A; auto.
  - intros H b S1 S2. apply satisfies_one in S1. cbn in S1. rewrite H in S1; [discriminate|].
    intros l Hl. apply (S2 (TLit l)). apply in_map. rewrite map_id. auto.
Qed.
Lemma enough_implicate t ls : enough negl [t] ls <-> implicate t ls.
Proof.
  unfold enough, implicate. split.
  - intros H b Ev. destruct (some_dec b ls) as [|A]; auto. exfalso. apply (H b).
    + now apply satisfies_one.
    + intros u Hu. apply in_map_iff in Hu as (l & <- & Hl). apply A; auto.
  - intros H b S1 S2. apply satisfies_one in S1. apply H in S1. revert S1. apply some_not.
    intros l Hl. apply (S2 (TLit l)). now apply in_map.
Qed.

Lemma reduced_implicant t p : NoDup p -> consistent p -> enough (fun l => l) [TNot t] p ->
  (forall l, In l p -> ~ enough (fun l => l) [TNot t] (removeLit l p)) -> prime_implicant t p.
Proof.
  intros N C En Nd. split; [exists (asgOf p); now apply asgOf_true|]. split; [now apply enough_implicant|].
  intros a l c -> I. apply (Nd l); [apply in_or_app; right; now left|]. apply enough_implicant.
  eapply implicant_incl; [|exact I]. now apply removeLit_split.
Qed.
Lemma reduced_implicate t p : NoDup p -> consistent p -> enough negl [t] p ->
  (forall l, In l p -> ~ enough negl [t] (removeLit l p)) -> prime_implicate t p.
Proof.
  intros N C En Nd. split.
  { exists (asgOf (map negl p)). apply some_not, asgOf_true. intros l H1 H2.
    apply in_map_iff in H1 as (m & <- & Hm). rewrite negl_negl in H2. apply in_map_iff in H2 as (k & e & Hk).
    subst m. apply (C _ Hm). rewrite negl_negl. exact Hk. }
  split; [now apply enough_implicate|].
  intros a l c -> I. apply (Nd l); [apply in_or_app; right; now left|]. apply enough_implicate.
  eapply implicate_incl; [|exact I]. now apply removeLit_split.
Qed.

(** A prime implicant has no repetitions and only literals of the formula. *)
Lemma prime_nodup t ls : prime_implicant t ls -> NoDup ls.
Proof.
  intros (_ & I & M). assert (H : forall pre, (forall a l c, pre ++ ls = a ++ l :: c -> ~ implicant t (a ++ c)) -> implicant t (pre ++ ls) -> NoDup ls).
  { clear I M. induction ls as [|x ls IH]; intros pre M I; constructor.
    - intros Hin. apply (M pre x ls eq_refl). eapply implicant_incl; [|exact I].
      intros y Hy. apply in_app_or in Hy as [?|[<- |?]]; apply in_or_app; auto.
    - apply (IH (pre ++ [x])); rewrite <- app_assoc; auto. }
  apply (H []); auto.
Qed.
Lemma prime_vars t ls : prime_implicant t ls -> forall l, In l ls -> In (fst l) (varsOf t).
Proof.
  intros (Ex & I & M) l Hl. destruct (in_dec string_dec (fst l) (varsOf t)) as [|N]; auto. exfalso.
  pose proof (prime_nodup t ls (conj Ex (conj I M))) as Nd.
  apply in_split in Hl as (a & c & ->). apply (M a l c eq_refl). intros b A.
  rewrite <- (I (setTo b (fst l) (snd l))).
  - apply eval_agree. intros x Hx. unfold setTo. destruct (String.eqb_spec x (fst l)); auto. subst; contradiction.
  - destruct Ex as [b0 Ab]. apply allTrue_consistent in Ab. intros m Hm. unfold eval_lit, setTo.
    destruct (String.eqb_spec (fst m) (fst l)) as [e|ne].
    + assert (m = l \/ m = negl l) as [-> | ->].
      { destruct m as [x v], l as [y w]. cbn in *. subst. unfold negl. cbn. destruct v, w; auto. }
      * destruct (snd l); auto.
      * exfalso. apply (Ab l); auto. apply in_or_app; right; now left.
    + apply A. apply in_app_or in Hm as [?|[<- |?]]; [apply in_or_app; auto|congruence|apply in_or_app; auto].
Qed.

(** ** The loop *)

Section Main.
Variable E : env.
Hypothesis OK : env_ok E.
Variables (t : tree) (vs : list string) (mx : bool).
Hypothesis Vs : forall x, In x (varsOf t) -> In x vs.
Hypothesis Nvs : NoDup vs.
Let ol := allLits vs.
Let nl := map newVar ol.

Lemma nl_nodup : NoDup nl.
Proof. apply FinFun.Injective_map_NoDup; [intros l m; apply newVar_inj|now apply allLits_nodup]. Qed.
Lemma nl_in l : In l ol -> In (newVar l) nl. Proof. apply in_map. Qed.

Lemma eval_constraint b : eval b (constraintFormula vs) = true <-> forall x, In x vs -> ~ (b (newVar (x, true)) = true /\ b (newVar (x, false)) = true).
Proof.
  unfold constraintFormula. cbn [eval]. rewrite forallb_forall. split.
  - intros H x Hx [A B]. specialize (H (amo2 (newVar (x, true)) (newVar (x, false)))).
    assert (e : eval b (amo2 (newVar (x, true)) (newVar (x, false))) = true) by (apply H, in_map_iff; eauto).
    unfold amo2 in e. cbn [eval wsum cmp_holds] in e. unfold eval_lit in e. cbn [fst snd] in e. rewrite A, B in e. discriminate.
  - intros H u Hu. apply in_map_iff in Hu as (x & <- & Hx). specialize (H x Hx).
    unfold amo2. cbn [eval wsum cmp_holds]. unfold eval_lit. cbn [fst snd].
    destruct (b (newVar (x, true))), (b (newVar (x, false))); cbn; auto.
Qed.

Definition Hsat (b : asg) (imps ices : list (list lit)) : Prop :=
  (forall x, In x vs -> ~ (b (newVar (x, true)) = true /\ b (newVar (x, false)) = true)) /\
  (forall I, In I imps -> exists l, In l I /\ b (newVar l) = false) /\
  (forall J, In J ices -> exists l, In l J /\ b (newVar l) = true).

Definition hInv (s : solver) (imps ices : list (list lit)) : Prop :=
  (forall b, satisfies b (s_forms s) <-> Hsat b imps ices) /\ incl nl (s_known s) /\
  (forall u x, In u (s_forms s) -> reserved x -> ~ In x (varsOf u)).

Definition bset (ls : list lit) : asg := fun y => existsb (fun l => String.eqb (newVar l) y) ls.
Lemma bset_in ls l : bset ls (newVar l) = true <-> In l ls.
Proof.
  unfold bset. rewrite existsb_exists. split.
  - intros (m & Hm & e). apply String.eqb_eq, newVar_inj in e. now subst.
  - intros H. exists l. split; auto. apply String.eqb_refl.
Qed.
Lemma bset_out ls l : bset ls (newVar l) = false <-> ~ In l ls.
Proof. rewrite <- bset_in. destruct (bset ls (newVar l)); split; congruence. Qed.

Lemma trueOf_bset ls : NoDup ls -> incl ls ol -> trueOf (bset ls) (posLits nl) = length ls.
Proof.
  intros N I. rewrite trueOf_pos. unfold nl. 
  assert (e : filter (bset ls) (map newVar ol) = map newVar (filter (fun l => mem l ls) ol)).
  { clear I. induction ol as [|l r IH]; cbn; auto.
    destruct (bset ls (newVar l)) eqn:B.
    - apply bset_in, mem_in in B. rewrite B, IH. reflexivity.
    - destruct (mem l ls) eqn:M; auto. apply mem_in, bset_in in M. congruence. }
  rewrite e, map_length. apply Nat.le_antisymm.
  - apply NoDup_incl_length; [apply NoDup_filter; now apply allLits_nodup|]. intros l Hl. apply filter_In in Hl as [_ Hl]. now apply mem_in.
  - apply NoDup_incl_length; auto. intros l Hl. apply filter_In. split; auto. now apply mem_in.
Qed.

(** The literals chosen by an assignment of the new variables. *)
Definition chosen (b : asg) : list lit := filter (fun l => b (newVar l)) ol.
Lemma chosen_in b l : In l (chosen b) <-> In l ol /\ b (newVar l) = true.
Proof. unfold chosen. now rewrite filter_In. Qed.
Lemma filter_map_new b l : filter b (map newVar l) = map newVar (filter (fun l => b (newVar l)) l).
Proof. induction l as [|x r IH]; cbn; auto. destruct (b (newVar x)); cbn; congruence. Qed.
Lemma trueOf_chosen b : trueOf b (posLits nl) = length (chosen b).
Proof. rewrite trueOf_pos. unfold nl, chosen. now rewrite filter_map_new, map_length. Qed.
Lemma find_new l : forall k, In l k -> find (fun m => String.eqb (newVar m) (newVar l)) k = Some l.
Proof.
  induction k as [|m k IH]; cbn; intros H; [contradiction|].
  destruct (String.eqb_spec (newVar m) (newVar l)) as [e|ne].
  - apply newVar_inj in e. now subst.
  - apply IH. destruct H as [-> |]; [congruence|auto].
Qed.
Lemma transform_chosen b : transformModel ol (modelOf nl b) = chosen b.
Proof.
  unfold transformModel. rewrite posVars_model. unfold nl. rewrite filter_map_new. fold (chosen b).
  assert (I : incl (chosen b) ol) by (intros l Hl; now apply chosen_in in Hl).
  induction (chosen b) as [|l r IH]; cbn; auto. rewrite find_new by (apply I; now left). cbn. f_equal.
  apply IH. intros x Hx. apply I. now right.
Qed.
Lemma chosen_nodup b : NoDup (chosen b).
Proof. apply NoDup_filter. now apply allLits_nodup. Qed.
Lemma chosen_incl b : incl (chosen b) ol.
Proof. intros l Hl. now apply chosen_in in Hl. Qed.

Lemma Hsat_chosen b imps ices : (forall I, In I imps -> incl I ol) -> (forall J, In J ices -> incl J ol) ->
  Hsat b imps ices <-> Hsat (bset (chosen b)) imps ices.
Proof.
  intros H1 H2. assert (X : forall l, In l ol -> bset (chosen b) (newVar l) = b (newVar l)).
  { intros l Hl. destruct (b (newVar l)) eqn:B.
    - apply bset_in, chosen_in. auto.
    - apply bset_out. rewrite chosen_in. intros [_ ?]. congruence. }
  assert (Y : forall x v, In x vs -> In (x, v) ol) by (intros; now apply allLits_in).
  unfold Hsat. split; intros (A & B & C); (split; [|split]).
  - intros x Hx. rewrite !X; auto.
  - intros I HI. destruct (B I HI) as (l & P & Q). exists l. split; auto. rewrite X; auto. apply (H1 I HI); auto.
  - intros J HJ. destruct (C J HJ) as (l & P & Q). exists l. split; auto. rewrite X; auto. apply (H2 J HJ); auto.
  - intros x Hx. rewrite <- !X; auto.
  - intros I HI. destruct (B I HI) as (l & P & Q). exists l. split; auto. rewrite <- X; auto. apply (H1 I HI); auto.
  - intros J HJ. destruct (C J HJ) as (l & P & Q). exists l. split; auto. rewrite <- X; auto. apply (H2 J HJ); auto.
Qed.

Lemma negl_fst l : fst (negl l) = fst l. Proof. reflexivity. Qed.

Lemma Hsat_consistent ls : consistent ls -> forall x, ~ (bset ls (newVar (x, true)) = true /\ bset ls (newVar (x, false)) = true).
Proof. intros C x [A B]. apply bset_in in A, B. apply (C _ A). exact B. Qed.
Lemma consistent_chosen b imps ices : Hsat b imps ices -> consistent (chosen b).
Proof.
  intros (A & _) [x v] H1 H2. apply chosen_in in H1 as [O1 B1], H2 as [O2 B2]. apply allLits_in in O1. cbn in O1.
  apply (A x O1). unfold negl in *. cbn in *. destruct v; auto.
Qed.

(** The literals made true by an assignment of the old variables. *)
Definition total (b : asg) : list lit := filter (eval_lit b) ol.
Lemma total_in b l : In l (total b) <-> In l ol /\ eval_lit b l = true.
Proof. unfold total. now rewrite filter_In. Qed.
Lemma total_true b : allTrue b (total b). Proof. intros l Hl. now apply total_in in Hl. Qed.

(** The invariant. *)
Definition good_imps (imps : list (list lit)) : Prop := forall I, In I imps -> prime_implicant t I /\ incl I ol.
Definition good_ices (ices : list (list lit)) : Prop := forall J, In J ices -> prime_implicate t J /\ incl J ol.

Record pInv (S0 : primeSolvers) (imps ices visited : list (list lit)) : Prop := mkPInv {
  pi_h : hInv (ps_h S0) imps ices;
  pi_f : s_forms (ps_f S0) = [TNot t];
  pi_reg : exists c, incl (e_reg E c (TNot t)) (s_known (ps_f S0));
  pi_im : s_forms (ps_implicant S0) = [TNot t];
  pi_ic : s_forms (ps_implicate S0) = [t];
  pi_imps : good_imps imps;
  pi_ices : good_ices ices;
  pi_nodup : NoDup visited;
  pi_sub : forall P, In P visited -> sublist P ol;
  pi_gone : forall P, In P visited -> ~ Hsat (bset P) imps ices
}.

Definition covers (imps ices : list (list lit)) : Prop :=
  good_imps imps /\ good_ices ices /\
  (forall b, eval b t = true <-> exists I, In I imps /\ allTrue b I) /\
  (forall b, eval b t = true <-> forall J, In J ices -> someTrue b J) /\
  (forall ls, prime_implicant t ls -> exists I, In I imps /\ same_lits I ls).

(** At the end. *)
Lemma end_ok imps ices : good_imps imps -> good_ices ices -> (forall b, ~ Hsat b imps ices) -> covers imps ices.
Proof.
  intros GI GJ U. assert (Dich : forall ls, consistent ls -> (exists I, In I imps /\ incl I ls) \/ (exists J, In J ices /\ forall l, In l J -> ~ In l ls)).
  { intros ls C.
    destruct (existsb (fun I => forallb (fun l => mem l ls) I) imps) eqn:X.
    { left. apply existsb_exists in X as (I & HI & F). exists I. split; auto. rewrite forallb_forall in F. intros l Hl. apply mem_in; auto. }
    destruct (existsb (fun J => forallb (fun l => negb (mem l ls)) J) ices) eqn:Y.
    { right. apply existsb_exists in Y as (J & HJ & F). exists J. split; auto. rewrite forallb_forall in F. intros l Hl Hin.
      apply F in Hl. apply mem_in in Hin. rewrite Hin in Hl. discriminate. }
    exfalso. apply (U (bset ls)). split; [|split].
    - intros x _. now apply Hsat_consistent.
    - intros I HI. destruct (forallb (fun l => mem l ls) I) eqn:F.
      + assert (existsb (fun I => forallb (fun l => mem l ls) I) imps = true) by (apply existsb_exists; eauto). congruence.
      + clear X Y U GI HI. induction I as [|l I IH]; cbn in F; [discriminate|]. destruct (mem l ls) eqn:M.
        * cbn in F. destruct (IH F) as (m & A & B). exists m. split; [now right|auto].
        * exists l. split; [now left|]. apply bset_out. rewrite <- mem_in. congruence.
    - intros J HJ. destruct (forallb (fun l => negb (mem l ls)) J) eqn:F.
      + assert (existsb (fun J => forallb (fun l => negb (mem l ls)) J) ices = true) by (apply existsb_exists; eauto). congruence.
      + clear X Y U GJ HJ. induction J as [|l J IH]; cbn in F; [discriminate|]. destruct (mem l ls) eqn:M.
        * exists l. split; [now left|]. apply bset_in. now apply mem_in.
        * cbn in F. destruct (IH F) as (m & A & B). exists m. split; [now right|auto]. }
  split; [exact GI|]. split; [exact GJ|]. split; [|split].
  - intros b. split.
    + intros Ev. destruct (Dich (total b) (allTrue_consistent b _ (total_true b))) as [(I & HI & In_)|(J & HJ & Dis)].
      * exists I. split; auto. eapply allTrue_incl; [exact In_|apply total_true].
      * exfalso. destruct (GJ J HJ) as [(_ & IJ & _) IO]. destruct (IJ b Ev) as (l & Hl & e). apply (Dis l Hl). apply total_in. split; auto.
    + intros (I & HI & A). destruct (GI I HI) as [(_ & II & _) _]. auto.
  - intros b. split.
    + intros Ev J HJ. destruct (GJ J HJ) as [(_ & IJ & _) _]. auto.
    + intros A. destruct (Dich (total b) (allTrue_consistent b _ (total_true b))) as [(I & HI & In_)|(J & HJ & Dis)].
      * destruct (GI I HI) as [(_ & II & _) _]. apply II. eapply allTrue_incl; [exact In_|apply total_true].
      * exfalso. destruct (A J HJ) as (l & Hl & e). destruct (GJ J HJ) as [_ IO]. apply (Dis l Hl). apply total_in. split; auto.
  - intros ls P. pose proof P as (Ex & IL & ML). pose proof (proj1 P) as [b0 A0].
    destruct (Dich ls (allTrue_consistent _ _ A0)) as [(I & HI & In_)|(J & HJ & Dis)].
    + exists I. split; auto. intros l. split; [apply In_|]. intros Hl. destruct (in_dec lit_dec l I) as [|N]; auto. exfalso.
      apply in_split in Hl as (a & c & e). subst ls. apply (ML a l c eq_refl). destruct (GI I HI) as [(_ & II & _) _].
      eapply implicant_incl; [|exact II]. intros m Hm. specialize (In_ m Hm). apply in_app_or in In_ as [?|[<- |?]]; [apply in_or_app; auto|contradiction|apply in_or_app; auto].
    + exfalso. destruct (GJ J HJ) as [(FJ & IJ & _) _].
      destruct (implicant_hits t ls J (allTrue_consistent _ _ A0) IL IJ FJ) as (l & H1 & H2). apply (Dis l); auto.
Qed.
Lemma eval_clause b v p : eval b (TOr (map (fun l => TLit (newVar l, v)) p)) = true <-> exists l, In l p /\ b (newVar l) = v.
Proof.
  cbn [eval]. rewrite existsb_exists. split.
  - intros (u & Hu & e). apply in_map_iff in Hu as (l & <- & Hl). exists l. split; auto.
    cbn in e. unfold eval_lit in e. cbn in e. destruct v, (b (newVar l)); auto.
  - intros (l & Hl & e). exists (TLit (newVar l, v)). split; [apply in_map_iff; eauto|].
    cbn. unfold eval_lit. cbn. rewrite e. destruct v; auto.
Qed.
Lemma clause_plain v p u x : In u [TOr (map (fun l => TLit (newVar l, v)) p)] -> reserved x -> ~ In x (varsOf u).
Proof.
  intros [<- |[]] R H. cbn in H. apply in_flat_map in H as (u & Hu & H). apply in_map_iff in Hu as (l & <- & _).
  cbn in H. destruct H as [<- |[]]. revert R. apply newVar_unreserved.
Qed.
Lemma hInv_imp s s' imps ices p : hInv s imps ices -> s_forms s' = s_forms s ++ [TOr (map (fun l => TLit (newVar l, false)) p)] ->
  incl (s_known s) (s_known s') -> hInv s' (imps ++ [p]) ices.
Proof.
  intros (A & B & C) F K. split; [|split].
  - intros b. rewrite F, satisfies_app, satisfies_one, A, eval_clause. unfold Hsat. split.
    + intros ((X & Y & Z) & W). split; [auto|split; [|auto]]. intros I HI. apply in_app_or in HI as [HI|[<- |[]]]; auto.
    + intros (X & Y & Z). split; [split; [auto|split; [|auto]]|]; intros; apply Y, in_or_app; cbn; auto.
  - intros x Hx. auto.
  - intros u x Hu. rewrite F in Hu. apply in_app_or in Hu as [Hu|Hu]; [auto|now apply (clause_plain false p)].
Qed.
Lemma hInv_ice s s' imps ices p : hInv s imps ices -> s_forms s' = s_forms s ++ [TOr (map (fun l => TLit (newVar l, true)) p)] ->
  incl (s_known s) (s_known s') -> hInv s' imps (ices ++ [p]).
Proof.
  intros (A & B & C) F K. split; [|split].
  - intros b. rewrite F, satisfies_app, satisfies_one, A, eval_clause. unfold Hsat. split.
    + intros ((X & Y & Z) & W). split; [auto|split; [auto|]]. intros I HI. apply in_app_or in HI as [HI|[<- |[]]]; auto.
    + intros (X & Y & Z). split; [split; [auto|split; [auto|]]|]; intros; apply Z, in_or_app; cbn; auto.
  - intros x Hx. auto.
  - intros u x Hu. rewrite F in Hu. apply in_app_or in Hu as [Hu|Hu]; [auto|now apply (clause_plain true p)].
Qed.
Lemma hInv_same s s' imps ices : hInv s imps ices -> s_forms s' = s_forms s -> s_known s' = s_known s -> hInv s' imps ices.
Proof. intros (A & B & C) F K. unfold hInv. rewrite F, K. auto. Qed.

Lemma h_ok s imps ices r s' : hInv s imps ices -> optimize E s mx (posLits nl) [] = (r, s') ->
  match r with
  | OModel m => hInv s' imps ices /\ exists b, transformModel ol m = chosen b /\ Hsat b imps ices /\
      forall b', Hsat b' imps ices -> if mx then length (chosen b') <= length (chosen b) else length (chosen b) <= length (chosen b')
  | OUnsat => forall b, ~ Hsat b imps ices
  | OCanceled _ => ~ uncancelled E
  | OPanic | OFuel => False
  end.
Proof.
  intros (A & B & C) O. apply (optimize_ok E s mx) in O as (Gd & F2 & K2 & _); auto.
  2: { split; auto. intros l Hl. unfold posLits in Hl. apply in_map_iff in Hl as (y & <- & Hy). cbn.
       unfold nl in Hy. apply in_map_iff in Hy as (m & <- & _). apply newVar_unreserved. }
  cbn [app] in Gd. rewrite posLits_fst, nodup_fix in Gd by apply nl_nodup.
  rewrite filter_all in Gd by (intros x Hx; apply knows_in; auto).
  destruct r as [|m|om| |]; cbn [good] in Gd; try contradiction.
  - intros b Hb. apply (Gd b). now apply A.
  - split; [apply (hInv_same s); auto; unfold hInv; auto|]. destruct Gd as (b & -> & [Sb Opt]). exists b.
    split; [apply transform_chosen|]. split; [now apply A|].
    intros b' Hb'. apply A in Hb'. specialize (Opt b' Hb'). rewrite !trueOf_chosen in Opt. exact Opt.
  - destruct om; tauto.
Qed.

Lemma chosen_bset_len ls : NoDup ls -> incl ls ol -> length (chosen (bset ls)) = length ls.
Proof. intros N I. rewrite <- trueOf_chosen. now apply trueOf_bset. Qed.

Lemma not_incl_ex (I ls : list lit) : ~ incl I ls -> exists l, In l I /\ ~ In l ls.
Proof.
  induction I as [|l I IH]; intros H; [exfalso; apply H; intros x []|].
  destruct (in_dec lit_dec l ls) as [i|n]; [|exists l; split; [now left|auto]].
  destruct IH as (m & A & B); [|exists m; split; [now right|auto]].
  intros J. apply H. intros x [<- |Hx]; auto.
Qed.

(** With a minimal choice an implicant is prime. *)
Lemma min_prime b imps ices : good_ices ices -> Hsat b imps ices ->
  (forall b', Hsat b' imps ices -> length (chosen b) <= length (chosen b')) ->
  implicant t (chosen b) -> prime_implicant t (chosen b).
Proof.
  intros GJ Hb Opt Im. pose proof (consistent_chosen _ _ _ Hb) as Co.
  split; [exists (asgOf (chosen b)); now apply asgOf_true|]. split; auto.
  intros a l c e Im'. assert (Sub : incl (a ++ c) (chosen b)).
  { intros x Hx. rewrite e. apply in_app_or in Hx. apply in_or_app. cbn. tauto. }
  assert (Co' : consistent (a ++ c)) by (intros x H1 H2; exact (Co x (Sub _ H1) (Sub _ H2))).
  assert (Nd : NoDup (a ++ c)) by (eapply NoDup_remove_1; rewrite <- e; apply chosen_nodup).
  assert (Hs : Hsat (bset (a ++ c)) imps ices).
  { split; [|split].
    - intros x _. now apply Hsat_consistent.
    - intros I HI. destruct Hb as (_ & Hb & _). destruct (Hb I HI) as (m & H1 & H2). exists m. split; auto.
      apply bset_out. intros H3. apply Sub, chosen_in in H3 as [_ H3]. congruence.
    - intros J HJ. destruct (GJ J HJ) as [(FJ & IJ & _) _].
      destruct (implicant_hits t (a ++ c) J Co' Im' IJ FJ) as (m & H1 & H2). exists m. split; auto. now apply bset_in. }
  apply Opt in Hs. rewrite chosen_bset_len in Hs; auto.
  - rewrite e in Hs. rewrite !app_length in Hs. cbn in Hs. lia.
  - intros x Hx. eapply chosen_incl; eauto.
Qed.

(** With a maximal choice that is no implicant all variables are chosen. *)
Lemma max_total b b0 imps ices : good_imps imps -> good_ices ices -> Hsat b imps ices ->
  (forall b', Hsat b' imps ices -> length (chosen b') <= length (chosen b)) ->
  eval b0 t = false -> allTrue b0 (chosen b) -> incl (total b0) (chosen b).
Proof.
  intros GI GJ Hb Opt Ev A. assert (Sub : incl (chosen b) (total b0)).
  { intros l Hl. apply total_in. split; [eapply chosen_incl; eauto|auto]. }
  assert (Hs : Hsat (bset (total b0)) imps ices).
  { split; [|split].
    - intros x _. apply Hsat_consistent. eapply allTrue_consistent, total_true.
    - intros I HI. destruct (not_incl_ex I (total b0)) as (l & H1 & H2).
      + intros In_. destruct (GI I HI) as [(_ & II & _) _]. rewrite (II b0) in Ev; [discriminate|].
        eapply allTrue_incl; [exact In_|apply total_true].
      + exists l. split; auto. now apply bset_out.
    - intros J HJ. destruct Hb as (_ & _ & Hb). destruct (Hb J HJ) as (l & H1 & H2). exists l. split; auto.
      apply bset_in, Sub, chosen_in. split; auto. destruct (GJ J HJ) as [_ IO]. auto. }
  apply Opt in Hs. rewrite chosen_bset_len in Hs.
  - apply NoDup_length_incl; auto. apply chosen_nodup.
  - apply NoDup_filter. now apply allLits_nodup.
  - intros l Hl. now apply total_in in Hl.
Qed.

Lemma max_implicate b b0 : incl (total b0) (chosen b) -> eval b0 t = false -> implicate t (map negl (chosen b)).
Proof.
  intros I Ev b1 E1. destruct (some_dec b1 (map negl (chosen b))) as [|A]; auto. exfalso.
  rewrite map_map, (map_ext (fun x => negl (negl x)) (fun x => x)), map_id in A by apply negl_negl.
  assert (e : eval b1 t = eval b0 t); [|congruence].
  apply eval_agree. intros x Hx. apply Vs in Hx.
  assert (H : In (x, b0 x) (total b0)).
  { apply total_in. split; [now apply allLits_in|]. unfold eval_lit. cbn. destruct (b0 x); auto. }
  apply I, A in H. unfold eval_lit in H. cbn in H. destruct (b0 x), (b1 x); auto; discriminate.
Qed.

Lemma min_implicate c s b0 : incl (e_reg E c (TNot t)) (s_known s) -> eval b0 t = false ->
  implicate t (map negl (createModel s b0 vs)).
Proof.
  intros K Ev b1 E1. destruct (some_dec b1 (map negl (createModel s b0 vs))) as [|A]; auto. exfalso.
  rewrite map_map, (map_ext (fun x => negl (negl x)) (fun x => x)), map_id in A by apply negl_negl.
  set (b2 := fun x => if in_dec string_dec x vs then b1 x else b0 x).
  assert (e : eval b2 t = eval b1 t).
  { apply eval_agree. intros x Hx. apply Vs in Hx. unfold b2. destruct (in_dec string_dec x vs); [auto|contradiction]. }
  assert (e2 : eval b2 (TNot t) = eval b0 (TNot t)).
  { apply (eo_reg _ OK c). intros x Hx. unfold b2. destruct (in_dec string_dec x vs) as [i|]; auto.
    assert (H : In (x, b0 x) (createModel s b0 vs)).
    { unfold createModel. apply in_map_iff. exists x. split; auto. apply filter_In. split; auto. apply knows_in. auto. }
    apply A in H. unfold eval_lit in H. cbn in H. destruct (b0 x), (b1 x); auto; discriminate. }
  cbn in e2. rewrite e, E1, Ev in e2. discriminate.
Qed.

Lemma neg_consistent b ls : allTrue b ls -> consistent (map negl ls).
Proof.
  intros A l H1 H2. apply in_map_iff in H1 as (m & <- & Hm). apply A in Hm. rewrite negl_negl in H2.
  apply in_map_iff in H2 as (k & e & Hk). apply A in Hk. subst m. rewrite eval_negl, Hk in Hm. discriminate.
Qed.
Lemma neg_nodup (ls : list lit) : NoDup ls -> NoDup (map negl ls).
Proof. apply FinFun.Injective_map_NoDup. intros a c e. rewrite <- (negl_negl a), <- (negl_negl c). now f_equal. Qed.

Lemma visited_step P imps ices imps' ices' visited :
  NoDup visited -> (forall Q, In Q visited -> sublist Q ol) -> (forall Q, In Q visited -> ~ Hsat (bset Q) imps ices) ->
  incl imps imps' -> incl ices ices' -> sublist P ol -> Hsat (bset P) imps ices -> ~ Hsat (bset P) imps' ices' ->
  NoDup (P :: visited) /\ (forall Q, In Q (P :: visited) -> sublist Q ol) /\ forall Q, In Q (P :: visited) -> ~ Hsat (bset Q) imps' ices'.
Proof.
  intros N S1 G I1 I2 SP H1 H2. split; [|split].
  - constructor; auto. intros H. exact (G P H H1).
  - intros Q [<- |H]; auto.
  - intros Q [<- |H] Hs; auto. apply (G Q H). destruct Hs as (A & B & C). split; [auto|split; intros; auto].
Qed.

Lemma primeLoop_ok : forall fuel time S0 imps ices visited, pInv S0 imps ices visited ->
  2 ^ (2 * length vs) < fuel + length visited ->
  match primeLoop fuel E time vs mx S0 imps ices with
  | PRes is js => covers is js
  | PCanceled => ~ uncancelled E
  | PPanic | PFuel => False
  end.
Proof.
  induction fuel as [|fuel IH]; intros time S0 imps ices visited [Ih If Ireg Iim Iic Iis Ijs Ind Isub Igone] Fu.
  - cbn [primeLoop]. assert (length visited <= 2 ^ (2 * length vs)); [|lia].
    rewrite <- allLits_len, <- allSubs_len. apply NoDup_incl_length; auto. intros P HP. apply allSubs_in. now apply Isub.
  - cbn [primeLoop]. fold ol. fold nl.
    destruct (optimize E (atTime time (ps_h S0)) mx (posLits nl) []) as [o h1] eqn:O.
    apply (h_ok _ imps ices) in O; [|apply (hInv_same (ps_h S0)); auto].
    destruct o as [|m|om| |]; try contradiction; [apply end_ok; auto| |auto].
    destruct O as (Hh1 & b & -> & Hb & Opt).
    pose proof (consistent_chosen _ _ _ Hb) as Co.
    assert (HI : forall I, In I imps -> incl I ol) by (intros I HI; now apply Iis).
    assert (HJ : forall J, In J ices -> incl J ol) by (intros J HJ; now apply Ijs).
    pose proof (proj1 (Hsat_chosen b imps ices HI HJ) Hb) as HbP.
    assert (SP : sublist (chosen b) ol) by apply sublist_filter.
    unfold call at 1. cbn [atTime s_forms s_known s_states s_next s_time].
    set (f1 := mkSolver _ _ _ _ _). rewrite If.
    assert (F1 : s_forms f1 = [TNot t]) by exact If.
    assert (K1 : exists c, incl (e_reg E c (TNot t)) (s_known f1)).
    { destruct Ireg as [c R]. exists c. intros x Hx. cbn. apply in_or_app. left. auto. }
    assert (T1 : s_time f1 = S (s_time h1)) by reflexivity. clearbody f1. rewrite <- T1.
    destruct (e_solve E (s_time h1) [TNot t] (chosen b)) as [|b0|] eqn:Es.
    + intros [U _]. now apply U in Es.
    + apply (eo_sat _ OK) in Es as [S1 S2]. apply satisfies_one in S1. cbn in S1. apply negb_true_iff in S1.
      assert (AP : allTrue b0 (chosen b)) by (intros l Hl; apply (S2 (TLit l)); now apply in_map).
      set (ls := if mx then chosen b else createModel f1 b0 vs).
      assert (Lim : implicate t (map negl ls)).
      { unfold ls. destruct mx.
        - eapply max_implicate; eauto. eapply max_total; eauto.
        - destruct K1 as [c K1]. eapply min_implicate; eauto. }
      assert (Lb : allTrue b0 ls).
      { unfold ls. destruct mx; auto. intros l Hl. unfold createModel in Hl. apply in_map_iff in Hl as (x & <- & _).
        unfold eval_lit. cbn. destruct (b0 x); auto. }
      assert (Lol : incl ls ol).
      { unfold ls. destruct mx; [apply chosen_incl|]. intros l Hl. unfold createModel in Hl. apply in_map_iff in Hl as (x & <- & Hx).
        apply filter_In in Hx as [Hx _]. now apply allLits_in. }
      assert (Ln : NoDup ls).
      { unfold ls. destruct mx; [apply chosen_nodup|]. unfold createModel. apply FinFun.Injective_map_NoDup.
        - intros x y e. now injection e.
        - now apply NoDup_filter. }
      clearbody ls.
      destruct (reduce E (atTime (s_time f1) (ps_implicate S0)) negl (map negl ls)) as [r ic1] eqn:R.
      apply (reduce_ok E OK negl [t]) in R as [F2 R]; auto.
      2: { apply neg_nodup; auto. }
      2: { now apply enough_implicate. }
      destruct r as [p|]; [|auto]. destruct R as (Np & Ip & En & Nd).
      assert (Cp : consistent p) by (intros l H1 H2; exact (neg_consistent b0 ls Lb l (Ip _ H1) (Ip _ H2))).
      assert (Pp : prime_implicate t p) by now apply reduced_implicate.
      assert (Op : incl p ol).
      { intros l Hl. apply Ip, in_map_iff in Hl as (m0 & <- & Hm). apply Lol, allLits_in in Hm. apply allLits_in. exact Hm. }
      destruct (visited_step (chosen b) imps ices imps (ices ++ [p]) visited) as (V1 & V2 & V3); auto.
      * apply incl_refl.
      * apply incl_appl, incl_refl.
      * intros (_ & _ & C). destruct (C p) as (l & Hl & e); [apply in_or_app; right; now left|].
        apply bset_in in e. apply AP in e. apply Ip, in_map_iff in Hl as (m0 & <- & Hm). apply Lb in Hm. rewrite eval_negl, Hm in e. discriminate.
      * apply (IH _ _ _ _ (chosen b :: visited)).
        -- split; cbn [ps_h ps_f ps_implicant ps_implicate]; auto.
           ++ eapply hInv_ice; [exact Hh1|reflexivity|]. cbn. intros x Hx. apply in_or_app. auto.
           ++ intros J HJ2. apply in_app_or in HJ2 as [HJ2|[<- |[]]]; auto.
        -- cbn [length]. lia.
    + assert (Im : implicant t (chosen b)).
      { apply enough_implicant. intros b1 S1 S2. rewrite map_id in S2. exact (eo_unsat _ OK _ _ _ Es b1 S1 S2). }
      destruct (if mx then reduce E (atTime (s_time f1) (ps_implicant S0)) (fun l : lit => l) (chosen b)
                else (RSet (chosen b), atTime (s_time f1) (ps_implicant S0))) as [r im1] eqn:R.
      assert (RR : s_forms im1 = [TNot t] /\ match r with RSet p => prime_implicant t p /\ incl p (chosen b) | RCanceled => ~ uncancelled E end).
      { destruct mx.
        - apply (reduce_ok E OK (fun l => l) [TNot t]) in R as [F2 R]; auto.
          2: apply chosen_nodup. 2: now apply enough_implicant.
          split; auto. destruct r as [p|]; auto. destruct R as (Np & Ip & En & Nd). split; auto.
          apply reduced_implicant; auto. intros l H1 H2. exact (Co l (Ip _ H1) (Ip _ H2)).
        - injection R as <- <-. split; auto. split; [eapply min_prime; eauto|apply incl_refl]. }
      destruct RR as [F2 RR]. destruct r as [p|]; [|auto]. destruct RR as [Pp Ip].
      destruct (visited_step (chosen b) imps ices (imps ++ [p]) ices visited) as (V1 & V2 & V3); auto.
      * apply incl_appl, incl_refl.
      * apply incl_refl.
      * intros (_ & C & _). destruct (C p) as (l & Hl & e); [apply in_or_app; right; now left|].
        apply bset_out in e. auto.
      * apply (IH _ _ _ _ (chosen b :: visited)).
        -- split; cbn [ps_h ps_f ps_implicant ps_implicate]; auto.
           ++ eapply hInv_imp; [exact Hh1|reflexivity|]. cbn. intros x Hx. apply in_or_app. auto.
           ++ intros J HJ2. apply in_app_or in HJ2 as [HJ2|[<- |[]]]; auto. split; auto. intros l Hl. eapply chosen_incl; eauto.
        -- cbn [length]. lia.
Qed.
End Main.

(** ** The whole computation *)

Section Whole.
Variable E : env.
Hypothesis OK : env_ok E.

Lemma constraint_known vs c x v : NoDup vs -> In x vs -> In (newVar (x, v)) (e_reg E c (constraintFormula vs)).
Proof.
  intros N Hx. apply (reg_needed E OK _ _ _ (bset [(x, negb v)])).
  assert (e1 : eval (bset [(x, negb v)]) (constraintFormula vs) = true).
  { apply eval_constraint. intros y _ [A B]. apply bset_in in A, B. destruct A as [A|[]], B as [B|[]]. congruence. }
  rewrite e1. intros e2. symmetry in e2. apply (proj1 (eval_constraint vs _)) with (x := x) in e2; auto. apply e2.
  assert (f : bset [(x, negb v)] (newVar (x, v)) = false).
  { apply bset_out. intros [H|[]]. injection H as H. destruct v; discriminate. }
  assert (f2 : bset [(x, negb v)] (newVar (x, negb v)) = true) by (apply bset_in; now left).
  assert (ne : newVar (x, negb v) <> newVar (x, v)) by (intros e; apply newVar_inj in e; injection e as e; destruct v; discriminate).
  assert (g1 : setTo (bset [(x, negb v)]) (newVar (x, v)) (negb (bset [(x, negb v)] (newVar (x, v)))) (newVar (x, v)) = true).
  { unfold setTo. rewrite String.eqb_refl, f. reflexivity. }
  assert (g2 : setTo (bset [(x, negb v)]) (newVar (x, v)) (negb (bset [(x, negb v)] (newVar (x, v)))) (newVar (x, negb v)) = true).
  { unfold setTo. destruct (String.eqb_spec (newVar (x, negb v)) (newVar (x, v))); [contradiction|]. exact f2. }
  destruct v; cbn [negb] in *; auto.
Qed.

Lemma computeGeneric_ok t mx :
  match computeGeneric (primeFuel t) E t mx with
  | PRes is js => covers t (nodup string_dec (varsOf t)) is js
  | PCanceled => ~ uncancelled E
  | PPanic | PFuel => False
  end.
Proof.
  unfold computeGeneric. set (vs := nodup string_dec (varsOf t)).
  assert (Nv : NoDup vs) by apply NoDup_nodup.
  assert (Vs : forall x, In x (varsOf t) -> In x vs) by (intros x Hx; now apply nodup_In).
  apply (primeLoop_ok E OK t vs mx Vs Nv _ _ _ _ _ []).
  - split; cbn [ps_h ps_f ps_implicant ps_implicate]; auto.
    + split; [|split].
      * intros b. cbn. rewrite satisfies_one, eval_constraint. unfold Hsat. split.
        -- intros H. split; [auto|split; intros I []].
        -- intros (H & _). auto.
      * intros y Hy. apply in_map_iff in Hy as ([x v] & <- & Hl). apply allLits_in in Hl. cbn in *. now apply constraint_known.
      * intros u x Hu R Hx. cbn in Hu. destruct Hu as [<- |[]]. unfold constraintFormula in Hx. cbn in Hx.
        apply in_flat_map in Hx as (u & Hu & Hx). apply in_map_iff in Hu as (y & <- & _). unfold amo2 in Hx. cbn in Hx.
        destruct Hx as [<- |[<- |[]]]; revert R; [apply (newVar_unreserved (y, true))|apply (newVar_unreserved (y, false))].
    + cbn. eexists. apply incl_refl.
    + intros I [].
    + intros I [].
    + constructor.
    + intros I [].
  - unfold primeFuel. fold vs. cbn [length]. lia.
Qed.
End Whole.

(** Duality. *)
Lemma negl_negl_map ls : map negl (map negl ls) = ls.
Proof. rewrite map_map. rewrite (map_ext (fun x => negl (negl x)) (fun x => x)) by apply negl_negl. apply map_id. Qed.
Lemma all_not_some b ls : allTrue b ls <-> ~ someTrue b (map negl ls).
Proof.
  split.
  - intros A. apply some_not. now rewrite negl_negl_map.
  - intros N. destruct (some_dec b (map negl ls)) as [|A]; [contradiction|]. now rewrite negl_negl_map in A.
Qed.
Lemma some_not_all b ls : someTrue b ls <-> ~ allTrue b (map negl ls).
Proof.
  split.
  - intros H A. revert H. now apply some_not.
  - intros N. destruct (some_dec b ls) as [|A]; [auto|contradiction].
Qed.
Lemma implicant_dual t ls : implicant (TNot t) ls <-> implicate t (map negl ls).
Proof.
  unfold implicant, implicate. split; intros H b; specialize (H b); cbn in *; rewrite ?some_not_all, ?negl_negl_map in *.
  - intros e A. apply H in A. rewrite e in A. discriminate.
  - intros A. destruct (eval b t); auto. exfalso. now apply H.
Qed.
Lemma implicate_dual t ls : implicate (TNot t) ls <-> implicant t (map negl ls).
Proof.
  unfold implicant, implicate. split; intros H b; specialize (H b); cbn in *; rewrite ?some_not_all in *.
  - intros A. destruct (eval b t); auto. exfalso. now apply H.
  - intros e A. apply H in A. rewrite A in e. discriminate.
Qed.
Lemma map_split ls a l c : map negl ls = a ++ l :: c -> ls = map negl a ++ negl l :: map negl c.
Proof. intros e. rewrite <- (negl_negl_map ls), e, map_app. reflexivity. Qed.
Lemma prime_dual t ls : prime_implicant (TNot t) ls <-> prime_implicate t (map negl ls).
Proof.
  unfold prime_implicant, prime_implicate. rewrite implicant_dual. split; intros ((b & A) & I & M).
  - split; [exists b; now apply all_not_some|]. split; auto. intros a l c e I'. apply map_split in e. apply (M _ _ _ e).
    apply implicant_dual. now rewrite <- map_app, negl_negl_map.
  - split; [exists b; now apply all_not_some|]. split; auto. intros a l c e I'. apply (M (map negl a) (negl l) (map negl c)).
    + rewrite e, map_app. reflexivity.
    + rewrite <- map_app. now apply implicant_dual.
Qed.
Lemma prime_dual' t ls : prime_implicate (TNot t) ls <-> prime_implicant t (map negl ls).
Proof.
  unfold prime_implicant, prime_implicate. rewrite implicate_dual. split; intros ((b & A) & I & M).
  - split; [exists b; apply all_not_some; now rewrite negl_negl_map|]. split; auto. intros a l c e I'. apply map_split in e. apply (M _ _ _ e).
    apply implicate_dual. now rewrite <- map_app, negl_negl_map.
  - split; [exists b; apply all_not_some in A; now rewrite negl_negl_map in A|]. split; auto. intros a l c e I'. apply (M (map negl a) (negl l) (map negl c)).
    + rewrite e, map_app. reflexivity.
    + rewrite <- map_app. now apply implicate_dual.
Qed.

(** ** C43 *)

(** For every correct solver, every handler, every formula, both strategies and
    both cover sorts: a computation that was not cancelled returns prime
    implicants that together are equivalent to the formula, prime implicates
    that together are equivalent to the formula, and all primes of the chosen
    sort.  It never runs into the panic for an optimum that is missing, and
    [primeFuel] rounds are enough. *)
Theorem C43_primes : forall E t c maximize, env_ok E ->
  match primes (primeFuel t) E t c maximize with
  | PRes imps ices =>
      (forall I, In I imps -> prime_implicant t I) /\
      (forall J, In J ices -> prime_implicate t J) /\
      (forall b, eval b t = true <-> exists I, In I imps /\ allTrue b I) /\
      (forall b, eval b t = true <-> forall J, In J ices -> someTrue b J) /\
      match c with
      | CoverImplicants => forall ls, prime_implicant t ls -> exists I, In I imps /\ same_lits I ls
      | CoverImplicates => forall ls, prime_implicate t ls -> exists J, In J ices /\ same_lits J ls
      end
  | PCanceled => ~ uncancelled E
  | PPanic | PFuel => False
  end.
Proof.
  intros E t c mx OK. unfold primes. destruct (e_resume E 0) eqn:R; [|intros [_ U]; now rewrite U in R].
  destruct c.
  - pose proof (computeGeneric_ok E OK t mx) as H. destruct (computeGeneric (primeFuel t) E t mx); auto.
    destruct H as (A & B & C & D & F). split; [intros I HI; now apply A|]. split; [intros I HI; now apply B|]. auto.
  - pose proof (computeGeneric_ok E OK (TNot t) mx) as H. change (primeFuel (TNot t)) with (primeFuel t) in H.
    destruct (computeGeneric (primeFuel t) E (TNot t) mx) as [imps ices| | |]; auto.
    destruct H as (A & B & C & D & F). split; [|split; [|split; [|split]]].
    + intros I HI. apply in_map_iff in HI as (J & <- & HJ). apply prime_dual'. now apply B.
    + intros J HJ. apply in_map_iff in HJ as (I & <- & HI). apply prime_dual. now apply A.
    + intros b. specialize (D b). cbn in D. split.
      * intros e. rewrite e in D. cbn in D.
        assert (N : ~ forall J, In J ices -> someTrue b J) by (intros H; apply D in H; discriminate).
        destruct (existsb (fun J => forallb (fun l => negb (eval_lit b l)) J) ices) eqn:X.
        -- apply existsb_exists in X as (J & HJ & X). exists (map negl J). split; [now apply in_map|].
           rewrite forallb_forall in X. intros l Hl. apply in_map_iff in Hl as (m & <- & Hm). rewrite eval_negl. auto.
        -- exfalso. apply N. intros J HJ. destruct (some_dec b J) as [|Al]; auto. exfalso.
           assert (existsb (fun J => forallb (fun l => negb (eval_lit b l)) J) ices = true); [|congruence].
           apply existsb_exists. exists J. split; auto. apply forallb_forall. intros l Hl. rewrite <- eval_negl. apply Al. now apply in_map.
      * intros (I & HI & Al). apply in_map_iff in HI as (J & <- & HJ). destruct (eval b t); auto. exfalso.
        destruct D as [D _]. specialize (D eq_refl J HJ). revert D. now apply some_not.
    + intros b. specialize (C b). cbn in C. split.
      * intros e J HJ. apply in_map_iff in HJ as (I & <- & HI). apply some_not_all. rewrite negl_negl_map. intros Al.
        rewrite e in C. destruct C as [_ C]. discriminate C. eauto.
      * intros H. destruct (eval b t); auto. destruct C as [C _]. destruct (C eq_refl) as (I & HI & Al). exfalso.
        specialize (H _ (in_map _ _ _ HI)). apply some_not_all in H. now rewrite negl_negl_map in H.
    + intros ls P. rewrite <- (negl_negl_map ls) in P. apply prime_dual in P. destruct (F _ P) as (I & HI & Sm).
      exists (map negl I). split; [now apply in_map|]. intros x. split; intros Hx.
      * apply in_map_iff in Hx as (m & <- & Hm). apply Sm in Hm. apply in_map_iff in Hm as (k & <- & Hk). now rewrite negl_negl.
      * apply in_map_iff. exists (negl x). split; [apply negl_negl|]. apply Sm, in_map. auto.
Qed.

(** A computation whose calls are not cancelled returns a result. *)
Theorem C43_completes : forall E t c maximize, env_ok E -> uncancelled E ->
  exists imps ices, primes (primeFuel t) E t c maximize = PRes imps ices.
Proof.
  intros E t c mx OK U. pose proof (C43_primes E t c mx OK) as H. destruct (primes (primeFuel t) E t c mx) as [i j| | |]; try contradiction. eauto.
Qed.

(** The hypotheses can be met: with the exhaustive search as solver,
    the primes of (a | b) & (~a | c) are found. *)
Definition exPrime : tree :=
  (TAnd [TOr [TLit ("a", true); TLit ("b", true)]; TOr [TLit ("a", false); TLit ("c", true)]])%string.
Example C43_ex : primes 40 bruteEnv exPrime CoverImplicants false =
  PRes [[("a", true); ("c", true)]; [("b", true); ("c", true)]; [("b", true); ("a", false)]]%string
       [[("b", true); ("c", true)]; [("b", true); ("a", true)]; [("a", false); ("c", true)]]%string.
Proof. vm_compute. reflexivity. Qed.

Print Assumptions C43_primes.
Print Assumptions C43_completes.
