(** * C40: model enumeration and counting, the theorems *)
From Coq Require Import String List Bool Arith Lia ZArith Permutation.
From Verif Require Import Spec Solver Optimize OptimizeProps ExplainSpec Smus SmusProps PrimeSpec Primes PrimeProps Enum EnumProps.
Import ListNotations.

(** ** Specification *)

(** The values a model gives to the variables. *)
Definition valuesOf (vars : list string) (m : list lit) : list bool :=
  map (fun x => existsb (fun l => String.eqb x (fst l) && snd l) m) vars.

(** Each model in the list is a model of the formulas, over exactly the given
    variables, and no two models agree on the enumerated variables. *)
Definition are_models (fs : list tree) (vars add : list string) (ms : list (list lit)) : Prop :=
  (forall m, In m ms -> exists b, satisfies b fs /\ forall x v, In (x, v) m <-> (In x vars \/ In x add) /\ v = b x) /\
  NoDup (map (valuesOf vars) ms).

(** Each model of the formulas is represented in the list. *)
Definition all_models (fs : list tree) (vars : list string) (ms : list (list lit)) : Prop :=
  forall b, satisfies b fs -> In (map b vars) (map (valuesOf vars) ms).

(** [n] is the number of ways to give values to the variables that can be
    extended to a model of the formulas. *)
Definition model_count (fs : list tree) (vars : list string) (n : N) : Prop :=
  exists vals : list (list bool), NoDup vals /\ n = N.of_nat (length vals) /\
    forall v, In v vals <-> exists b, satisfies b fs /\ v = map b vars.

(** The split variables come from the variables that are left. *)
Definition splits_inside (S0 : strategy) : Prop :=
  (forall d vs s, incl (st_split S0 d vs s) vs) /\ (forall vs d, incl (st_reduce S0 vs d) vs).

(** Formulas on a solver depend on variables with an index only. *)
Definition registered (s : solver) : Prop :=
  forall b b', (forall x, In x (s_known s) -> b x = b' x) -> satisfies b (s_forms s) -> satisfies b' (s_forms s).

(** ** Don't care variables *)

Lemma cartesian_in : forall D acc m, NoDup D -> In m (cartesian D acc) <-> exists a b, In a acc /\ m = a ++ modelOf D b.
Proof.
  induction D as [|x D IH]; intros acc m N; cbn [cartesian modelOf map].
  - split.
    + intros H. exists m, (fun _ => true). split; auto. now rewrite app_nil_r.
    + intros (a & b & Ha & ->). now rewrite app_nil_r.
  - apply NoDup_cons_iff in N as [N1 N2]. rewrite IH by auto. split.
    + intros (a & b & Ha & ->). apply in_flat_map in Ha as (a0 & H0 & Ha).
      assert (Ex : exists v, a = a0 ++ [(x, v)]) by (destruct Ha as [<- |[<- |[]]]; eauto). destruct Ex as [v ->].
      exists a0, (setTo b x v). split; auto. rewrite <- app_assoc. f_equal. cbn. f_equal.
      * unfold setTo. now rewrite String.eqb_refl.
      * apply map_ext_in. intros y Hy. unfold setTo. destruct (String.eqb_spec y x); [subst; contradiction|reflexivity].
    + intros (a & b & Ha & ->). exists (a ++ [(x, b x)]), b. split; [|rewrite <- app_assoc; reflexivity].
      apply in_flat_map. exists a. split; auto. destruct (b x); cbn; auto.
Qed.
Lemma cartesian_len : forall D acc, length (cartesian D acc) = length acc * 2 ^ length D.
Proof.
  induction D as [|x D IH]; intros acc; cbn [cartesian length]; [cbn; lia|].
  rewrite IH. match goal with |- context [length (flat_map ?f acc)] => assert (H : length (flat_map f acc) = 2 * length acc) end.
  { clear IH. induction acc; cbn in *; lia. }
  etransitivity; [apply f_equal2; [exact H|reflexivity]|]. rewrite Nat.pow_succ_r'. ring.
Qed.
Lemma cartesian_nodup : forall D acc, NoDup acc -> NoDup (cartesian D acc).
Proof.
  induction D as [|x D IH]; intros acc N; cbn [cartesian]; auto. apply IH.
  induction acc as [|a acc IA]; cbn; [constructor|]. apply NoDup_cons_iff in N as [N1 N2].
  assert (X : forall v, ~ In (a ++ [(x, v)]) (flat_map (fun ls => [ls ++ [(x, true)]; ls ++ [(x, false)]]) acc)).
  { intros v H. apply in_flat_map in H as (a0 & H0 & [e|[e|[]]]); apply app_inj_tail in e as [e _]; subst; contradiction. }
  constructor; [|constructor; auto].
  - intros [e|H]; [|now apply (X true)]. apply app_inj_tail in e as [_ e]. discriminate.
Qed.

(** ** Expanding the models *)

Lemma map_eq_ext (b b' : asg) : forall l, map b l = map b' l -> forall x, In x l -> b x = b' x.
Proof. induction l as [|y r IH]; cbn; intros e x Hx; [contradiction|]. injection e as e1 e2. destruct Hx as [<- |Hx]; auto. Qed.

Section Expand.
Variables (vars add K0 : list string) (fs : list tree).
Hypothesis Nv : NoDup vars.
Let Z := filter (fun x => negb (existsb (String.eqb x) K0)) add.
Let D := filter (fun x => negb (existsb (String.eqb x) K0)) vars.
Hypothesis Z_vars : forall z, In z Z -> ~ In z vars.
Hypothesis Dep : forall b b', (forall x, In x K0 -> b x = b' x) -> satisfies b fs -> satisfies b' fs.
Let extra := map (fun x => (x, false)) Z.
Let base := cartesian D [[]].

Definition expand (ns : list (list lit)) : list (list lit) := flat_map (fun m => map (fun bm => bm ++ extra ++ m) base) ns.

Lemma notin_in x l : In x (filter (fun x => negb (existsb (String.eqb x) K0)) l) <-> In x l /\ ~ In x K0.
Proof. apply (Z_in l K0 x). Qed.

Definition merge (d b : asg) : asg := fun x => if in_dec string_dec x D then d x else if in_dec string_dec x Z then false else b x.
Lemma merge_D d b x : In x D -> merge d b x = d x.
Proof. intros H. unfold merge. destruct (in_dec string_dec x D); [auto|contradiction]. Qed.
Lemma merge_K d b x : In x K0 -> merge d b x = b x.
Proof.
  intros H. unfold merge. destruct (in_dec string_dec x D) as [i|]; [apply notin_in in i; tauto|].
  destruct (in_dec string_dec x Z) as [i|]; auto. apply notin_in in i. tauto.
Qed.

Lemma expand_one d b n : raw vars add K0 b n -> satisfies b fs ->
  satisfies (merge d b) fs /\ forall x v, In (x, v) (modelOf D d ++ extra ++ n) <-> (In x vars \/ In x add) /\ v = merge d b x.
Proof.
  intros [R1 R2] Sb. split; [apply (Dep b); auto; intros x Hx; symmetry; now apply merge_K|].
  intros x v. rewrite !in_app_iff. unfold extra, modelOf. rewrite !in_map_iff. split.
  - intros [(y & e & Hy)|[(y & e & Hy)|H]].
    + injection e as -> <-. split; [left; now apply notin_in in Hy|]. symmetry. now apply merge_D.
    + injection e as -> <-. split; [right; now apply notin_in in Hy|]. unfold merge.
      destruct (in_dec string_dec x D) as [i|]; [apply notin_in in i as [i _]; apply Z_vars in Hy; contradiction|].
      destruct (in_dec string_dec x Z); [auto|contradiction].
    + destruct (R1 x v H) as (-> & A & B & C). split; auto. unfold merge.
      destruct (in_dec string_dec x D) as [i|]; [apply notin_in in i as [i N]; exfalso; auto|].
      destruct (in_dec string_dec x Z) as [i|]; auto.
  - intros [A ->]. destruct (in_dec string_dec x K0) as [k|k].
    + right. right. rewrite merge_K by auto. auto.
    + destruct (in_dec string_dec x vars) as [i|i].
      * left. exists x. assert (In x D) by now apply notin_in. split; auto. now rewrite merge_D.
      * right. left. destruct A as [A|A]; [contradiction|]. exists x. assert (HZ : In x Z) by now apply notin_in. split; auto. unfold merge.
        destruct (in_dec string_dec x D) as [j|]; [apply notin_in in j; tauto|]. destruct (in_dec string_dec x Z); [auto|contradiction].
Qed.
Lemma values_one m b : (forall x v, In (x, v) m <-> (In x vars \/ In x add) /\ v = b x) -> valuesOf vars m = map b vars.
Proof.
  intros H. apply map_ext_in. intros x Hx. apply eq_true_iff_eq. rewrite existsb_exists. split.
  - intros ([y v] & Hl & e). cbn in e. apply andb_true_iff in e as [e ->]. apply String.eqb_eq in e. subst y. apply H in Hl. now destruct Hl.
  - intros e. exists (x, true). split; [apply H; auto|]. cbn. now rewrite String.eqb_refl.
Qed.

Lemma D_nodup : NoDup D. Proof. now apply NoDup_filter. Qed.
Lemma base_in m : In m base <-> exists d, m = modelOf D d.
Proof.
  unfold base. rewrite cartesian_in by apply D_nodup. split.
  - intros (a & b & [<- |[]] & ->). exists b. reflexivity.
  - intros (d & ->). exists [], d. split; [now left|reflexivity].
Qed.

Lemma expand_ok bs ns : Forall2 (raw vars add K0) bs ns -> (forall b, In b bs -> satisfies b fs) -> distinct (kv vars K0) bs ->
  are_models fs vars add (expand ns).
Proof.
  intros F. induction F as [|b n bs ns R F IH]; intros Sb Di; cbn [expand flat_map].
  - split; [intros m []|constructor].
  - unfold distinct in Di. cbn [map] in Di. apply NoDup_cons_iff in Di as [Di1 Di2].
    destruct IH as [IH1 IH2]; auto; [intros b0 H0; apply Sb; now right|].
    assert (Sb0 : satisfies b fs) by (apply Sb; now left).
    split.
    + intros m Hm. apply in_app_or in Hm as [Hm|Hm]; [|auto]. apply in_map_iff in Hm as (bm & <- & Hb).
      apply base_in in Hb as (d & ->). exists (merge d b). now apply expand_one.
    + rewrite map_app. apply NoDup_app; auto.
      * rewrite map_map.
        assert (N : NoDup base) by (apply cartesian_nodup; constructor; [intros []|constructor]).
        assert (I : incl base base) by apply incl_refl. revert N I. generalize base at 1 2 4 as l.
        induction l as [|bm l IL]; intros N I; cbn; [constructor|]. apply NoDup_cons_iff in N as [N1 N2]. constructor.
        -- intros H. apply in_map_iff in H as (bm2 & e & H2).
           assert (B1 : In bm base) by (apply I; now left). assert (B2 : In bm2 base) by (apply I; now right).
           apply base_in in B1 as (d1 & ->). apply base_in in B2 as (d2 & ->).
           pose proof (values_one _ _ (proj2 (expand_one d1 b n R Sb0))) as e1. pose proof (values_one _ _ (proj2 (expand_one d2 b n R Sb0))) as e2.
           assert (e' : map (merge d2 b) vars = map (merge d1 b) vars) by (rewrite <- e1, <- e2; exact e). clear e. rename e' into e.
           apply N1. replace (modelOf D d1) with (modelOf D d2); auto. apply map_ext_in. intros x Hx. f_equal.
           rewrite <- (merge_D d1 b x Hx), <- (merge_D d2 b x Hx). apply (map_eq_ext _ _ vars e). now apply notin_in in Hx.
        -- apply IL; auto. intros z Hz. apply I. now right.
      * intros v H1 H2. apply in_map_iff in H1 as (m1 & <- & H1). apply in_map_iff in H1 as (bm & <- & Hb).
        apply base_in in Hb as (d & ->). apply in_map_iff in H2 as (m2 & e & H2). apply in_flat_map in H2 as (n2 & Hn2 & H2). apply in_map_iff in H2 as (bm2 & <- & Hb2).
        apply base_in in Hb2 as (d2 & ->).
        assert (Ex : exists b2, In b2 bs /\ raw vars add K0 b2 n2).
        { clear - F Hn2. induction F as [|b n bs ns R F IH]; [contradiction|]. destruct Hn2 as [<- |Hn]; [exists b; split; [now left|auto]|].
          destruct (IH Hn) as (b2 & A & B). exists b2. split; [now right|auto]. }
        destruct Ex as (b2 & Hb2 & R2). assert (Sb2 : satisfies b2 fs) by (apply Sb; now right).
        assert (e' : map (merge d2 b2) vars = map (merge d b) vars).
        { rewrite <- (values_one _ _ (proj2 (expand_one d2 b2 n2 R2 Sb2))), <- (values_one _ _ (proj2 (expand_one d b n R Sb0))). exact e. }
        clear e. rename e' into e.
        apply Di1. replace (proj (kv vars K0) b) with (proj (kv vars K0) b2); [now apply in_map|].
        apply proj_eq. intros x Hx. apply kv_in in Hx as [Hx Hk]. rewrite <- (merge_K d2 b2 x Hk), <- (merge_K d b x Hk). now apply (map_eq_ext _ _ vars).
Qed.

Lemma expand_complete bs ns : Forall2 (raw vars add K0) bs ns -> (forall b, In b bs -> satisfies b fs) ->
  (forall b, satisfies b fs -> In (proj (kv vars K0) b) (map (proj (kv vars K0)) bs)) -> all_models fs vars (expand ns).
Proof.
  intros F Sb Co b Hb. apply Co in Hb. apply in_map_iff in Hb as (b2 & e & Hb2).
  assert (Ex : exists n2, In n2 ns /\ raw vars add K0 b2 n2).
  { clear - F Hb2. induction F as [|b n bs ns R F IH]; [contradiction|]. destruct Hb2 as [<- |Hn]; [exists n; split; [now left|auto]|].
    destruct (IH Hn) as (n2 & A & B). exists n2. split; [now right|auto]. }
  destruct Ex as (n2 & Hn2 & R2). pose proof (Sb _ Hb2) as Sb2.
  apply in_map_iff. exists (modelOf D b ++ extra ++ n2). split.
  - rewrite (values_one _ _ (proj2 (expand_one b b2 n2 R2 Sb2))). apply map_ext_in. intros x Hx.
    destruct (in_dec string_dec x K0) as [k|k].
    + rewrite merge_K by auto. apply (proj1 (proj_eq _ _ _) e). now apply kv_in.
    + apply merge_D. now apply notin_in.
  - apply in_flat_map. exists n2. split; auto. apply in_map_iff. exists (modelOf D b). split; auto. apply base_in. eauto.
Qed.
End Expand.

(** ** The collectors *)

Lemma flat_swap {A B R} (f : A -> B -> R) (la : list A) (lb : list B) :
  Permutation (flat_map (fun a => map (f a) lb) la) (flat_map (fun b => map (fun a => f a b) la) lb).
Proof.
  induction la as [|a la IH]; cbn.
  - induction lb; cbn; auto.
  - rewrite IH. clear IH. induction lb as [|b lb IH]; cbn; auto. apply perm_skip.
    rewrite <- IH. rewrite !app_assoc. apply Permutation_app_tail. apply Permutation_app_comm.
Qed.

Definition simEnum (base : list (list lit)) (extra : list lit) (c : enumState) (com unc : list (list lit)) : Prop :=
  en_base c = base /\ en_extra c = extra /\ en_uncommitted c = map (fun m => extra ++ m) unc /\
  Permutation (en_committed c) (flat_map (fun m => map (fun bm => bm ++ extra ++ m) base) com).
Lemma simEnum_add base extra c com unc m : simEnum base extra c com unc -> simEnum base extra (c_add enumCollector c m) com (unc ++ [m]).
Proof. intros (A & B & C & D). split; [auto|]. split; [auto|]. split; [|auto]. cbn. rewrite C, B, map_app. reflexivity. Qed.
Lemma simEnum_commit base extra c com unc : simEnum base extra c com unc -> simEnum base extra (c_commit enumCollector c) (com ++ unc) [].
Proof.
  intros (A & B & C & D). split; [auto|]. split; [auto|]. split; [auto|]. cbn. rewrite A, C, flat_map_app.
  apply Permutation_app; auto. rewrite (flat_swap (fun b u => b ++ u) base). 
  rewrite flat_map_concat_map, map_map, <- flat_map_concat_map. reflexivity.
Qed.
Lemma simEnum_rollback base extra c com unc : simEnum base extra c com unc -> simEnum base extra (c_rollback enumCollector c) com [].
Proof. intros (A & B & C & D). split; [auto|]. split; [auto|]. split; auto. Qed.
Lemma simEnum_models base extra c com unc : simEnum base extra c com unc -> c_models enumCollector c = map (fun m => extra ++ m) unc.
Proof. intros (A & B & C & D). exact C. Qed.

Definition simCount (factor : N) (c : countState) (com unc : list (list lit)) : Prop :=
  ct_factor c = factor /\ ct_uncommitted c = unc /\ ct_committed c = (N.of_nat (length com) * factor)%N.
Lemma simCount_add f c com unc m : simCount f c com unc -> simCount f (c_add countCollector c m) com (unc ++ [m]).
Proof. intros (A & B & C). split; [auto|]. split; [cbn; now rewrite B|auto]. Qed.
Lemma simCount_commit f c com unc : simCount f c com unc -> simCount f (c_commit countCollector c) (com ++ unc) [].
Proof. intros (A & B & C). split; [auto|]. split; [auto|]. cbn. rewrite A, B, C, app_length. lia. Qed.
Lemma simCount_rollback f c com unc : simCount f c com unc -> simCount f (c_rollback countCollector c) com [].
Proof. intros (A & B & C). split; [auto|]. split; auto. Qed.
Lemma simCount_models f c com unc : simCount f c com unc -> c_models countCollector c = map (fun m => [] ++ m) unc.
Proof. intros (A & B & C). cbn. rewrite B. symmetry. apply map_id. Qed.

(** ** The theorems *)

Lemma ask_same_known E s r s0 : ask E s = (r, s0) -> same s s0 /\ (r = false -> ~ uncancelled E).
Proof. intros A. apply ask_ok in A as (A & _ & B). auto. Qed.

Lemma okS_start vars add s : registered s -> okS vars add (s_forms s) (s_known s) s.
Proof.
  intros R. split; auto.
  - intros x _. tauto.
  - intros x Hx; exact Hx.
  - intros z Hz Hk. apply (Z_in add (s_known s)) in Hz. tauto.
Qed.

Lemma filter_knows s s0 l : same s s0 -> filter (fun x => negb (knows s0 x)) l = filter (fun x => negb (existsb (String.eqb x) (s_known s))) l.
Proof. intros [_ Kn]. unfold knows. now rewrite Kn. Qed.

Lemma NoDup_incl_perm {A} (l m : list A) : Permutation l m -> NoDup m -> NoDup l.
Proof. intros P. apply Permutation_NoDup. now symmetry. Qed.

Lemma flat_len {A B} (g : A -> list B) k (l : list A) : (forall a, length (g a) = k) -> length (flat_map g l) = length l * k.
Proof. intros H. induction l as [|a l IH]; cbn [flat_map length]; [lia|]. rewrite app_length, H, IH. lia. Qed.
Lemma expand_len vars add K0 ns :
  length (expand vars add K0 ns) = length ns * 2 ^ length (filter (fun x => negb (existsb (String.eqb x) K0)) vars).
Proof. unfold expand. apply flat_len. intros a. rewrite map_length, cartesian_len. cbn [length]. lia. Qed.

(** C40: for every correct solver, every handler and every strategy whose split
    variables are variables that are left: an enumeration that ends returns
    models of the content of the solver over the given and the additional
    variables, no two of which agree on the given variables.  The content of
    the solver is as before.  If nothing was cancelled, all models are there.
    A variable may be enumerated and additional only if the solver knows it
    (see [C40_overlap_refuted]). *)
Theorem C40_enumeration : forall E S0 fuel rfuel s vars add r s' ms,
  env_ok E -> splits_inside S0 -> registered s -> (forall x, In x vars -> In x add -> In x (s_known s)) ->
  enumerate fuel rfuel E S0 s vars add = (r, s', ms) -> r <> RecFuel ->
  are_models (s_forms s) (nodup string_dec vars) add ms /\
  s_forms s' = s_forms s /\ s_known s' = s_known s /\ r <> RecPanic /\
  (uncancelled E -> r = RecOk /\ all_models (s_forms s) (nodup string_dec vars) ms).
Proof.
  intros E S0 fuel rfuel s vars0 add0 r s' ms OK [Sp1 Sp2] Reg Ov H Nf. unfold enumerate, iterateAll in H.
  set (vars := nodup string_dec vars0) in *. set (add := nodup string_dec add0) in *.
  assert (Nv : NoDup vars) by apply NoDup_nodup.
  assert (AM : forall ms, are_models (s_forms s) vars add ms -> are_models (s_forms s) vars add0 ms).
  { intros ms0 [A B]. split; auto. intros m Hm. destruct (A m Hm) as (b & Sb & Hb). exists b. split; auto. intros x v. rewrite Hb.
    unfold add. now rewrite nodup_In. }
  destruct (ask E s) as [resume s0] eqn:Ak. apply ask_same_known in Ak as [Sm Ar]. destruct resume.
  2: { injection H as <- <- <-. split; [split; [intros m []|constructor]|]. destruct Sm. repeat (split; [auto; discriminate|]). intros U. exfalso. now apply Ar. }
  rewrite !(filter_knows s s0 _ Sm) in H.
  set (D := filter _ vars) in H. set (Z := filter _ add) in H.
  set (base := cartesian D [[]]). set (extra := map (fun x : string => (x, false)) Z).
  assert (Zv : forall z, In z Z -> ~ In z vars).
  { intros z Hz Hv. apply (Z_in add (s_known s)) in Hz as [Hz N]. apply N, Ov; [now apply nodup_In in Hv|now apply nodup_In in Hz]. }
  pose proof (iterRecursive_ok E OK enumCollector (simEnum base extra) extra (simEnum_add _ _) (simEnum_commit _ _) (simEnum_rollback _ _) (simEnum_models _ _)
    S0 vars add (s_forms s) (s_known s) (fun d => Sp1 (S d)) Sp2 Zv) as T.
  assert (Xo : forall l, In l extra -> In (fst l) Z /\ snd l = false).
  { intros l Hl. apply in_map_iff in Hl as (x & <- & Hx). auto. }
  specialize (T Xo rfuel fuel 0 (st_split S0 0 vars s0) s0 (newEnum D Z) [] []).
  assert (O : okS vars add (s_forms s) (s_known s) s0).
  { eapply (okS_same vars add); [exact Sm|]. now apply okS_start. }
  specialize (T O). destruct (iterRecursive E enumCollector S0 vars add fuel rfuel 0 (st_split S0 0 vars s0) s0 (newEnum D Z) []) as [[r1 s1] c1].
  injection H as -> <- <-.
  destruct T as [-> |(Np & Smr & Ex & Un & bs & ns & HS & (F & Fs & Di) & Co)]; [intros l []|apply Sp1| |contradiction|].
  { split; [reflexivity|]. split; [reflexivity|]. split; [reflexivity|]. cbn. auto. }
  destruct HS as (_ & _ & _ & P). cbn [app] in P.
  assert (Fs' : forall b, In b bs -> satisfies b (s_forms s)) by (intros b Hb; now apply Fs).
  pose proof (expand_ok vars add (s_known s) (s_forms s) Nv Zv Reg bs ns F Fs' Di) as EO.
  change (expand vars add (s_known s) ns) with (flat_map (fun m => map (fun bm => bm ++ extra ++ m) base) ns) in EO.
  set (L := flat_map _ _) in *.
  split.
  { apply AM. destruct EO as [E1 E2]. split.
    - intros m Hm. apply E1. eapply Permutation_in; eauto.
    - eapply NoDup_incl_perm; [|exact E2]. now apply Permutation_map. }
  assert (Sm1 : same s s1).
  { destruct Smr as [Smr|Smr]; [eapply same_trans; eauto|]. eapply same_trans; [exact Sm|]. destruct Smr as [A B]. cbn in A, B.
    rewrite app_nil_r in A, B. split; auto. }
  destruct Sm1 as [Sf Sk]. repeat (split; [assumption|]).
  intros U. split; [apply Un; auto|]. intros b Sb.
  assert (C2 : all_models (s_forms s) vars (expand vars add (s_known s) ns)).
  { apply (expand_complete vars add (s_known s) (s_forms s) Nv Zv Reg bs ns F Fs'). intros b0 Sb0. apply (Co U). split; [|intros l []].
    rewrite (proj1 Sm). exact Sb0. }
  specialize (C2 b Sb). eapply Permutation_in; [|exact C2]. apply Permutation_map. symmetry. exact P.
Qed.

(** C40, counting: the number of ways to give values to the variables that
    extend to a model. *)
Theorem C40_count : forall E S0 fuel rfuel s vars r s' n,
  env_ok E -> splits_inside S0 -> registered s ->
  countModels fuel rfuel E S0 s vars = (r, s', n) -> r <> RecFuel ->
  s_forms s' = s_forms s /\ s_known s' = s_known s /\ r <> RecPanic /\
  (uncancelled E -> r = RecOk /\ model_count (s_forms s) (nodup string_dec vars) n).
Proof.
  intros E S0 fuel rfuel s vars0 r s' n OK [Sp1 Sp2] Reg H Nf. unfold countModels, iterateAll in H.
  set (vars := nodup string_dec vars0) in *.
  assert (Nv : NoDup vars) by apply NoDup_nodup.
  destruct (ask E s) as [resume s0] eqn:Ak. apply ask_same_known in Ak as [Sm Ar]. destruct resume.
  2: { injection H as <- <- <-. destruct Sm. repeat (split; [auto; discriminate|]). intros U. exfalso. now apply Ar. }
  rewrite !(filter_knows s s0 _ Sm) in H. cbn [filter] in H. set (D := filter _ vars) in H.
  set (f := (2 ^ N.of_nat (length D))%N).
  assert (Zv : forall z, In z (filter (fun x => negb (existsb (String.eqb x) (s_known s))) []) -> ~ In z vars) by intros z [].
  pose proof (iterRecursive_ok E OK countCollector (simCount f) [] (simCount_add _) (simCount_commit _) (simCount_rollback _) (simCount_models _)
    S0 vars [] (s_forms s) (s_known s) (fun d => Sp1 (S d)) Sp2 Zv) as T.
  assert (Xo : forall l : lit, In l [] -> In (fst l) (filter (fun x => negb (existsb (String.eqb x) (s_known s))) []) /\ snd l = false) by intros l [].
  specialize (T Xo rfuel fuel 0 (st_split S0 0 vars s0) s0 (newCount D []) [] []).
  assert (O : okS vars [] (s_forms s) (s_known s) s0).
  { eapply (okS_same vars []); [exact Sm|]. now apply okS_start. }
  specialize (T O). destruct (iterRecursive E countCollector S0 vars [] fuel rfuel 0 (st_split S0 0 vars s0) s0 (newCount D []) []) as [[r1 s1] c1].
  injection H as -> <- <-.
  destruct T as [-> |(Np & Smr & Ex & Un & bs & ns & HS & (F & Fs & Di) & Co)]; [intros l []|apply Sp1| |contradiction|].
  { split; [reflexivity|]. split; [reflexivity|]. reflexivity. }
  destruct HS as (_ & _ & Cn). cbn [app] in Cn.
  assert (Fs' : forall b, In b bs -> satisfies b (s_forms s)) by (intros b Hb; now apply Fs).
  pose proof (expand_ok vars [] (s_known s) (s_forms s) Nv Zv Reg bs ns F Fs' Di) as [E1 E2].
  assert (Sm1 : same s s1).
  { destruct Smr as [Smr|Smr]; [eapply same_trans; eauto|]. eapply same_trans; [exact Sm|]. destruct Smr as [A B]. cbn in A, B.
    rewrite app_nil_r in A, B. split; auto. }
  destruct Sm1 as [Sf Sk]. repeat (split; [assumption|]).
  intros U. split; [apply Un; auto|]. exists (map (valuesOf vars) (expand vars [] (s_known s) ns)). split; [exact E2|]. split.
  - rewrite Cn, map_length. assert (Ln : length (expand vars [] (s_known s) ns) = length ns * 2 ^ length D).
    { apply expand_len. }
    rewrite Ln. unfold f. rewrite Nnat.Nat2N.inj_mul, Nnat.Nat2N.inj_pow. reflexivity.
  - intros v. split.
    + intros Hv. apply in_map_iff in Hv as (m & <- & Hm). destruct (E1 m Hm) as (b & Sb & Hb). exists b. split; auto.
      exact (values_one vars [] m b Hb).
    + intros (b & Sb & ->). apply (expand_complete vars [] (s_known s) (s_forms s) Nv Zv Reg bs ns F Fs'); auto.
      intros b0 Sb0. apply (Co U). split; [|intros l []]. rewrite (proj1 Sm). exact Sb0.
Qed.

(** ** Termination *)

Lemma nodup_len (l : list string) : length (nodup string_dec l) <= length l.
Proof. induction l as [|x l IH]; cbn; auto. destruct (in_dec string_dec x l); cbn; lia. Qed.
Lemma without_nil xs : without [] xs = xs.
Proof. unfold without. induction xs as [|x xs IH]; cbn in *; auto. now f_equal. Qed.

(** C40: the recursion ends when the solver knows all enumerated variables and
    the strategy makes progress: the limits are at least three models, and
    from two or more variables it takes some, when it reduces not all of them. *)
Theorem C40_terminates : forall E S0 fuel rfuel s vars add,
  env_ok E -> splits_inside S0 -> shrinks S0 -> registered s -> incl vars (s_known s) ->
  (forall s' vs, length (st_split S0 0 vs s') <= length vs) ->
  length vars + 1 < fuel -> length vars < rfuel ->
  fst (fst (enumerate fuel rfuel E S0 s vars add)) <> RecFuel /\ fst (fst (countModels fuel rfuel E S0 s vars)) <> RecFuel.
Proof.
  intros E S0 fuel rfuel s vars0 add0 OK [Sp1 Sp2] Sh Reg Kn L0 Lf Lr. unfold enumerate, countModels, iterateAll.
  pose proof (nodup_len vars0) as Ln.
  set (vars := nodup string_dec vars0) in *. set (add := nodup string_dec add0) in *.
  assert (Kv : incl vars (s_known s)) by (intros x Hx; apply nodup_In in Hx; auto).
  destruct (ask E s) as [[|] s0] eqn:Ak; [|split; discriminate]. apply ask_same_known in Ak as [Sm Ar].
  rewrite !(filter_knows s s0 _ Sm).
  assert (Run : forall (C : Type) (K : collector C) (Sim : C -> list (list lit) -> list (list lit) -> Prop) extra c ad,
    (forall c com unc m, Sim c com unc -> Sim (c_add K c m) com (unc ++ [m])) ->
    (forall c com unc, Sim c com unc -> Sim (c_commit K c) (com ++ unc) []) ->
    (forall c com unc, Sim c com unc -> Sim (c_rollback K c) com []) ->
    (forall c com unc, Sim c com unc -> c_models K c = map (fun m => extra ++ m) unc) ->
    (forall l, In l extra -> In (fst l) (filter (fun x => negb (existsb (String.eqb x) (s_known s))) ad) /\ snd l = false) ->
    Sim c [] [] ->
    fst (fst (iterRecursive E K S0 vars ad fuel rfuel 0 (st_split S0 0 vars s0) s0 c [])) <> RecFuel).
  { intros C K Sim extra c ad H1 H2 H3 H4 H5 H6.
    apply (iterRecursive_term E OK K Sim extra H1 H2 H3 H4 S0 vars ad (s_forms s) (s_known s) (fun d => Sp1 (S d)) Sp2) with (com := []); auto.
    - intros z Hz Hv. apply (Z_in ad (s_known s)) in Hz as [_ Hz]. auto.
    - lia.
    - eapply (okS_same vars ad); [exact Sm|]. now apply okS_start.
    - intros l [].
    - cbn [map]. rewrite without_nil. apply Sp1.
    - cbn [map]. rewrite without_nil. right. lia. }
  split.
  - set (D := filter _ vars). set (Z := filter _ add).
    specialize (Run _ enumCollector (simEnum (cartesian D [[]]) (map (fun x => (x, false)) Z)) (map (fun x => (x, false)) Z) (newEnum D Z) add
      (simEnum_add _ _) (simEnum_commit _ _) (simEnum_rollback _ _) (simEnum_models _ _)).
    destruct (iterRecursive _ _ _ _ _ _ _ _ _ _ _ _) as [[r1 s1] c1]. apply Run.
    + intros l Hl. apply in_map_iff in Hl as (x & <- & Hx). auto.
    + split; [reflexivity|]. split; [reflexivity|]. split; [reflexivity|]. cbn. auto.
  - cbn [filter]. set (D := filter _ vars).
    specialize (Run _ countCollector (simCount (2 ^ N.of_nat (length D))) [] (newCount D []) []
      (simCount_add _) (simCount_commit _) (simCount_rollback _) (simCount_models _)).
    destruct (iterRecursive _ _ _ _ _ _ _ _ _ _ _ _) as [[r1 s1] c1]. apply Run.
    + intros l [].
    + split; [reflexivity|]. split; reflexivity.
Qed.

Lemma firstHalf_incl vs : incl (firstHalf vs) vs.
Proof. unfold firstHalf. intros x Hx. rewrite <- (firstn_skipn (Nat.div2 (length vs)) vs). apply in_or_app. now left. Qed.
Lemma firstHalf_len vs : length (firstHalf vs) = Nat.div2 (length vs).
Proof. unfold firstHalf. rewrite firstn_length. apply Nat.min_l. destruct vs; [auto|]. pose proof (Nat.lt_div2 (length (s :: vs))). cbn [length] in *. lia. Qed.

(** The basic strategy makes progress, whatever limit is asked for. *)
Lemma basic_shrinks p mm : shrinks (basicStrategy p mm).
Proof.
  split; cbn.
  - intros d m e. injection e as <-. lia.
  - intros d m e. injection e as <-. lia.
  - intros d vs s. pose proof (firstHalf_len vs) as L. split.
    + rewrite L. destruct vs; [auto|]. pose proof (Nat.lt_div2 (length (s0 :: vs))). cbn [length] in *. lia.
    + intros T e. rewrite e in L. destruct vs as [|x [|y r]]; cbn in *; lia.
  - intros vs d T. pose proof (firstHalf_len vs) as L. split.
    + rewrite L. apply Nat.lt_div2. lia.
    + intros e. rewrite e in L. destruct vs as [|x [|y r]]; cbn in *; lia.
Qed.
Lemma basic_inside p mm : (forall s vs, incl (p s vs) vs) -> splits_inside (basicStrategy p mm).
Proof.
  intros H. split; cbn.
  - intros [|d] vs s; [apply H|apply firstHalf_incl].
  - intros vs d. apply firstHalf_incl.
Qed.

(** C40 for the basic strategy with any provider that chooses among the given
    variables. *)
Theorem C40_basic_strategy : forall E p mm fuel rfuel s vars add,
  env_ok E -> (forall s' vs, incl (p s' vs) vs /\ NoDup (p s' vs)) -> registered s -> incl vars (s_known s) ->
  length vars + 1 < fuel -> length vars < rfuel ->
  let '(r, s', ms) := enumerate fuel rfuel E (basicStrategy p mm) s vars add in
  are_models (s_forms s) (nodup string_dec vars) add ms /\
  s_forms s' = s_forms s /\ s_known s' = s_known s /\ (r = RecOk \/ r = RecCanceled) /\
  (uncancelled E -> r = RecOk /\ all_models (s_forms s) (nodup string_dec vars) ms).
Proof.
  intros E p mm fuel rfuel s vars add OK Pr Reg Kn Lf Lr.
  assert (Si : splits_inside (basicStrategy p mm)) by (apply basic_inside; intros; apply Pr).
  assert (L0 : forall s' vs, length (st_split (basicStrategy p mm) 0 vs s') <= length vs).
  { intros s' vs. cbn. apply NoDup_incl_length; apply Pr. }
  pose proof (C40_terminates E (basicStrategy p mm) fuel rfuel s vars add OK Si (basic_shrinks p mm) Reg Kn L0 Lf Lr) as [T _].
  destruct (enumerate fuel rfuel E (basicStrategy p mm) s vars add) as [[r s'] ms] eqn:En. cbn [fst] in T.
  destruct (C40_enumeration E _ fuel rfuel s vars add r s' ms OK Si Reg ltac:(intros; auto) En T) as (A & B & C & D & F).
  repeat (split; [assumption|]). split; [|assumption]. destruct r; auto; contradiction.
Qed.

(** C40 without splits: one round suffices. *)
Theorem C40_no_split : forall E s vars add,
  env_ok E -> registered s -> (forall x, In x vars -> In x add -> In x (s_known s)) ->
  let '(r, s', ms) := enumerate 1 0 E noSplit s vars add in
  are_models (s_forms s) (nodup string_dec vars) add ms /\
  s_forms s' = s_forms s /\ s_known s' = s_known s /\ (r = RecOk \/ r = RecCanceled) /\
  (uncancelled E -> r = RecOk /\ all_models (s_forms s) (nodup string_dec vars) ms).
Proof.
  intros E s vars add OK Reg Ov. destruct (enumerate 1 0 E noSplit s vars add) as [[r s'] ms] eqn:En.
  assert (Nf : r <> RecFuel).
  { unfold enumerate, iterateAll in En. destruct (ask E s) as [[|] s0] eqn:Ak; [|injection En as <- <- <-; discriminate].
    set (D := filter _ _) in En. set (Z := filter _ _) in En. unfold noSplit in En. cbn [iterRecursive st_maxIter st_split] in En.
    destruct (saveState s0) as [id s1]. set (s2 := addLits s1 []) in En. clearbody s2.
    pose proof (iterate_ok E OK enumCollector (simEnum (cartesian D [[]]) (map (fun x => (x, false)) Z)) (simEnum_add _ _)
      s2 (newEnum D Z) (nodup string_dec vars) (nodup string_dec add) None []) as I.
    destruct (iterate _ _ _ _ _ _ _) as [[r2 s3] c3]. destruct I as (_ & _ & bs & _ & _ & _ & R).
    { split; [reflexivity|]. split; [reflexivity|]. split; [reflexivity|]. cbn. auto. }
    destruct r2; try contradiction.
    - destruct (ask E s3) as [resume s4]. unfold restore in En. destruct (loadState s4 id); injection En as <- <- <-; [destruct resume|]; discriminate.
    - destruct R as (m & bs2 & e & _). discriminate.
    - injection En as <- <- <-. discriminate. }
  assert (Si : splits_inside noSplit) by (split; intros; intros x []).
  destruct (C40_enumeration E _ 1 0 s vars add r s' ms OK Si Reg Ov En Nf) as (A & B & C & D & F).
  repeat (split; [assumption|]). split; [|assumption]. destruct r; auto; contradiction.
Qed.

(** Solvers to which formulas are added know the variables that matter. *)
Lemma registered_new t : registered (newSolver t).
Proof. intros b b' _ _ u []. Qed.
Lemma registered_add E s u : env_ok E -> registered s -> registered (add E s u).
Proof.
  intros OK R b b' H Sb. assert (A1 : satisfies b (s_forms s ++ [u])) by exact Sb. apply satisfies_app in A1 as [A1 A2].
  change (satisfies b' (s_forms s ++ [u])). apply satisfies_app. split.
  - apply (R b); auto. intros x Hx. apply H. cbn. apply in_or_app. now left.
  - intros w [<- |[]]. rewrite <- (A2 u (or_introl eq_refl)). symmetry. apply (eo_reg E OK (s_time s)).
    intros x Hx. apply H. cbn. apply in_or_app. now right.
Qed.
Lemma registered_addAll E ts s : env_ok E -> registered s -> registered (addAll E s ts).
Proof. intros OK. revert s. induction ts as [|u ts IH]; cbn; auto. intros s R. apply IH. now apply registered_add. Qed.

(** ** Where it fails *)

Open Scope string_scope.
Definition pos (x : string) : tree := TLit (x, true).
Definition exS (xs : list string) : solver := add bruteEnv (newSolver 0) (TOr (map pos xs)).
Definition halves : solver -> list string -> list string := fun _ vs => firstHalf vs.

(** A split variable that is not among the variables, which the provider for
    fixed variables allows: models are found once per value of that variable. *)
Theorem C40_split_outside_refuted : exists S0 s vars r s' n,
  registered s /\ S0 = basicStrategy (fixedProvider ["z"]) 3 /\ incl (vars ++ ["z"]) (s_known s) /\
  countModels 10 10 bruteEnv S0 s vars = (r, s', n) /\ r = RecOk /\ ~ model_count (s_forms s) (nodup string_dec vars) n.
Proof.
  exists (basicStrategy (fixedProvider ["z"]) 3), (exS ["a"; "b"; "z"]), ["a"; "b"]. 
  eexists RecOk, _, 7%N. split; [apply registered_add; [apply bruteEnv_ok|apply registered_new]|]. split; [reflexivity|].
  split; [intros x; cbn; tauto|]. split; [vm_compute; reflexivity|]. split; [reflexivity|].
  intros (vals & Nd & e & Sp). assert (L : length vals <= length [[true; true]; [true; false]; [false; true]; [false; false]]).
  { apply NoDup_incl_length; auto. intros v Hv. apply Sp in Hv as (b & _ & ->). change (nodup string_dec ["a"; "b"]) with ["a"; "b"]. cbn [map].
    destruct (b "a"), (b "b"); cbn; tauto. }
  cbn [length] in L. lia.
Qed.

(** An unknown variable that is enumerated and also additional: a model
    contains both of its literals. *)
Theorem C40_overlap_refuted : exists s vars add r s' ms m,
  registered s /\ enumerate 1 0 bruteEnv noSplit s vars add = (r, s', ms) /\ r = RecOk /\
  In m ms /\ In ("u", true) m /\ In ("u", false) m.
Proof.
  exists (exS ["a"]), ["a"; "u"], ["u"]. eexists RecOk, _, _. eexists.
  split; [apply registered_add; [apply bruteEnv_ok|apply registered_new]|].
  split; [vm_compute; reflexivity|]. split; [reflexivity|]. split; [left; reflexivity|]. cbn. tauto.
Qed.

(** A handler that cancels one SAT call and then resumes: the enumeration is
    reported as successful, but models are missing. *)
Definition cancelCall (t : nat) : env :=
  mkEnv (fun c fs ls => if Nat.eqb c t then Canceled else e_solve bruteEnv c fs ls) (e_reg bruteEnv) (fun _ => true).
Definition cancelAsk (t : nat) : env :=
  mkEnv (e_solve bruteEnv) (e_reg bruteEnv) (fun c => negb (Nat.eqb c t)).
Lemma cancelCall_ok t : env_ok (cancelCall t).
Proof.
  destruct bruteEnv_ok as [[A B C] _]. split; cbn [cancelCall e_solve e_reg].
  - intros c fs ls b. destruct (Nat.eqb c t); [discriminate|]. apply A.
  - intros c fs ls. destruct (Nat.eqb c t); [discriminate|]. apply B.
  - exact C.
Qed.
Lemma cancelAsk_ok t : env_ok (cancelAsk t).
Proof. destruct bruteEnv_ok as [[A B C] _]. split; assumption. Qed.

Theorem C40_cancelled_call_refuted : exists E s vars r s' ms,
  env_ok E /\ registered s /\ enumerate 1 0 E noSplit s vars [] = (r, s', ms) /\ r = RecOk /\
  ~ all_models (s_forms s) (nodup string_dec vars) ms.
Proof.
  exists (cancelCall 7), (exS ["a"; "b"]), ["a"; "b"]. eexists RecOk, _, _. split; [apply cancelCall_ok|].
  split; [apply registered_add; [apply bruteEnv_ok|apply registered_new]|].
  split; [vm_compute; reflexivity|]. split; [reflexivity|]. intros H.
  assert (X : forall b, b "a" = true -> satisfies b (s_forms (exS ["a"; "b"]))).
  { intros b e t [<- |[]]. cbn. unfold eval_lit. cbn. now rewrite e. }
  assert (Y : forall b, b "b" = true -> satisfies b (s_forms (exS ["a"; "b"]))).
  { intros b e t [<- |[]]. cbn. unfold eval_lit. cbn. rewrite e. now destruct (b "a"). }
  pose proof (H (fun _ => true) (X (fun _ => true) eq_refl)) as H1.
  pose proof (H (String.eqb "a") (X (String.eqb "a") eq_refl)) as H2.
  pose proof (H (String.eqb "b") (Y (String.eqb "b") eq_refl)) as H3.
  vm_compute in H1, H2, H3.
  repeat match goal with H : _ \/ _ |- _ => destruct H | H : False |- _ => contradiction end; discriminate.
Qed.

(** A handler that cancels while the models of one split are searched and then
    resumes: the result of that part is dropped (iteration.go:135), the
    enumeration is reported as successful, but models are missing. *)
Theorem C40_cancelled_split_refuted : exists E s vars r s' ms,
  env_ok E /\ (forall c fs ls, e_solve E c fs ls <> Canceled) /\ registered s /\ incl vars (s_known s) /\
  enumerate 10 10 E (basicStrategy halves 3) s vars [] = (r, s', ms) /\ r = RecOk /\
  ~ all_models (s_forms s) (nodup string_dec vars) ms.
Proof.
  exists (cancelAsk 36), (exS ["a"; "b"; "c"]), ["a"; "b"; "c"]. eexists RecOk, _, _. split; [apply cancelAsk_ok|].
  split; [apply bruteEnv_ok|].
  split; [apply registered_add; [apply bruteEnv_ok|apply registered_new]|]. split; [intros x; cbn; tauto|].
  split; [vm_compute; reflexivity|]. split; [reflexivity|]. intros H.
  assert (Sb : forall b, existsb b ["a"; "b"; "c"] = true -> satisfies b (s_forms (exS ["a"; "b"; "c"]))).
  { intros b e t [<- |[]]. cbn in *. unfold eval_lit. cbn. exact e. }
  specialize (H (String.eqb "b") (Sb (String.eqb "b") eq_refl)). vm_compute in H.
  repeat (destruct H as [H|H]; [discriminate|]). contradiction.
Qed.

(** Variables the solver does not know: the recursion need not end, whatever
    correct solver is used and although nothing is cancelled. *)
Section Unknown.
Variable E : env.
Hypotheses (OK : env_ok E) (UN : uncancelled E).
Let V := ["u1"; "u2"; "u3"; "u4"; "u5"; "u6"; "u7"; "u8"; "u9"; "ua"; "a"; "b"].
Let F := [TOr [pos "a"; pos "b"]].
Let Kn := ["a"; "b"].
Let S0 := basicStrategy halves 3.
Let splits := [["u1"; "u2"; "u3"; "u4"; "u5"; "u6"]; ["u7"; "u8"; "u9"]; ["u1"; "u2"; "u3"; "u4"]; ["u5"; "u6"; "u7"; "u8"]].
Let f := (2 ^ 10)%N.

Lemma unknown_diverges rfuel : forall fuel depth split s c com, In split splits ->
  s_forms s = F -> s_known s = Kn -> simCount f c com [] ->
  fst (fst (iterRecursive E countCollector S0 V [] fuel rfuel depth split s c [])) = RecFuel.
Proof.
  induction fuel as [|fuel IH]; intros depth split s c com Hs HF HK HS; [reflexivity|]. cbn [iterRecursive].
  destruct (saveState s) as [id s0] eqn:Sv. pose proof (save_same _ _ _ Sv) as [SF SK].
  set (s1 := addLits s0 []).
  assert (F1 : s_forms s1 = F) by (cbn; rewrite app_nil_r; congruence).
  assert (K1 : s_known s1 = Kn) by (cbn; rewrite app_nil_r; congruence). clearbody s1.
  pose proof (iterate_ok E OK countCollector (simCount f) (simCount_add f) s1 c V [] (st_maxIter S0 depth) com HS) as I.
  destruct (iterate E countCollector s1 c V [] (st_maxIter S0 depth)) as [[r s2] c2]. cbn zeta in I.
  assert (R1 : filter (knows s1) V = ["a"; "b"]) by (unfold knows; rewrite K1; reflexivity). rewrite R1, F1 in I.
  destruct I as (Sm2 & _ & bs & HS2 & Hb & D & R). destruct r; try contradiction.
  - exfalso. destruct R as [Co Le]. specialize (Co UN).
    assert (Sb : forall b, b "a" || b "b" = true -> satisfies b F).
    { intros b e t [<- |[]]. cbn. unfold eval_lit. cbn. now rewrite orb_false_r. }
    assert (L3 : length [["a"; "b"]; ["a"]; ["b"]] <= length (map (proj ["a"; "b"]) bs)).
    { apply NoDup_incl_length.
      - repeat constructor; cbn; intuition discriminate.
      - intros p [<- |[<- |[<- |[]]]].
        + apply (Co (fun _ => true)). now apply Sb.
        + apply (Co (String.eqb "a")). now apply Sb.
        + apply (Co (String.eqb "b")). now apply Sb. }
    rewrite map_length in L3. destruct (Le 3 eq_refl) as [L|L]; [cbn in L3; lia|]. rewrite L in L3. cbn in L3. lia.
  - cbn zeta. destruct (ask E s2) as [resume s3] eqn:A. pose proof (ask_ok _ _ _ _ A) as (Sm3 & _ & Ar).
    destruct resume; [|exfalso; now apply Ar]. apply simCount_rollback in HS2.
    destruct Sm2 as [F2 K2]. destruct Sm3 as [F3 K3].
    assert (F3' : s_forms s3 = F) by congruence. assert (K3' : s_known s3 = Kn) by congruence.
    destruct rfuel as [|rf]; [reflexivity|]. cbn [splitLoop].
    pose proof (iterate_ok E OK countCollector (simCount f) (simCount_add f) s3 (c_rollback countCollector c2) split [] (st_maxSplit S0 depth) com HS2) as I.
    destruct (iterate E countCollector s3 (c_rollback countCollector c2) split [] (st_maxSplit S0 depth)) as [[r4 s4] c4]. cbn zeta in I.
    assert (R3 : filter (knows s3) split = []).
    { unfold knows. rewrite K3'. destruct Hs as [<- |[<- |[<- |[<- |[]]]]]; reflexivity. }
    rewrite R3 in I. cbn [filter without app] in I. destruct I as (Sm4 & _ & bs4 & HS4 & Hb4 & D4 & R4).
    assert (L4 : length bs4 <= 1) by (apply distinct_len in D4; exact D4).
    destruct r4; try contradiction.
    + destruct R4 as [Co4 _]. specialize (Co4 UN (fun _ => true)).
      assert (B1 : exists b, bs4 = [b]).
      { rewrite F3' in Co4. assert (Sb : satisfies (fun _ => true) F) by (intros t [<- |[]]; reflexivity).
        apply Co4 in Sb. destruct bs4 as [|b [|b' l]]; [contradiction|eauto|cbn in L4; lia]. }
      destruct B1 as [b ->].
      assert (Ms : c_models countCollector c4 = [[]]) by (rewrite (simCount_models _ _ _ _ HS4); reflexivity). rewrite Ms.
      destruct (ask E s4) as [resume s5] eqn:A5. pose proof (ask_ok _ _ _ _ A5) as (Sm5 & _ & Ar5).
      destruct resume; [|exfalso; now apply Ar5]. cbn [childLoop app].
      apply simCount_rollback in HS4. destruct Sm4 as [F4 K4]. destruct Sm5 as [F5 K5].
      set (next := st_split S0 (S depth) _ s5).
      assert (Hn : In next splits).
      { unfold next. destruct Hs as [<- |[<- |[<- |[<- |[]]]]]; vm_compute; tauto. }
      specialize (IH (S depth) next s5 (c_rollback countCollector c4) com Hn ltac:(congruence) ltac:(congruence) HS4).
      destruct (iterRecursive E countCollector S0 V [] fuel (S rf) (S depth) next s5 (c_rollback countCollector c4) []) as [[r6 s6] c6].
      cbn [fst] in IH. subst r6. reflexivity.
    + exfalso. destruct R4 as (m & bs5 & em & _ & D5 & L5). apply distinct_len in D5. cbn in D5.
      cbn in em. injection em as <-. lia.
Qed.
End Unknown.

Theorem C40_unknown_variables_refuted : exists s vars, (exists t, s_forms s = [t]) /\ registered s /\
  forall E fuel rfuel, env_ok E -> uncancelled E -> fst (fst (countModels fuel rfuel E (basicStrategy halves 3) s vars)) = RecFuel.
Proof.
  exists (exS ["a"; "b"]), ["u1"; "u2"; "u3"; "u4"; "u5"; "u6"; "u7"; "u8"; "u9"; "ua"; "a"; "b"].
  split; [eexists; reflexivity|]. split; [apply registered_add; [apply bruteEnv_ok|apply registered_new]|].
  intros E fuel rfuel OK UN. unfold countModels.
  change (nodup string_dec ["u1"; "u2"; "u3"; "u4"; "u5"; "u6"; "u7"; "u8"; "u9"; "ua"; "a"; "b"]) with ["u1"; "u2"; "u3"; "u4"; "u5"; "u6"; "u7"; "u8"; "u9"; "ua"; "a"; "b"].
  unfold iterateAll. destruct (ask E (exS ["a"; "b"])) as [resume s0] eqn:A. pose proof (ask_ok _ _ _ _ A) as ([F K] & _ & Ar).
  destruct resume; [|exfalso; now apply Ar].
  set (c0 := newCount _ _).
  assert (HS : simCount (2 ^ 10) c0 [] []).
  { unfold c0. unfold knows. rewrite K. split; [reflexivity|]. split; reflexivity. }
  pose proof (unknown_diverges E OK UN rfuel fuel 0 ["u1"; "u2"; "u3"; "u4"; "u5"; "u6"] s0 c0 [] (or_introl eq_refl) F K HS) as T.
  change (st_split (basicStrategy halves 3) 0 ["u1"; "u2"; "u3"; "u4"; "u5"; "u6"; "u7"; "u8"; "u9"; "ua"; "a"; "b"] s0) with ["u1"; "u2"; "u3"; "u4"; "u5"; "u6"].
  cbv zeta in T. destruct (iterRecursive _ _ _ _ _ _ _ _ _ _ _ _) as [[r s1] c1]. exact T.
Qed.

(** ** The hypotheses can be met *)

Example C40_ex : env_ok bruteEnv /\ uncancelled bruteEnv /\ registered (exS ["a"; "b"; "c"]) /\
  splits_inside (basicStrategy halves 3) /\
  (let '(r, _, ms) := enumerate 10 10 bruteEnv (basicStrategy halves 3) (exS ["a"; "b"; "c"]) ["a"; "b"; "u"] ["c"; "z"] in r = RecOk /\ length ms = 8) /\
  (let '(r, _, n) := countModels 10 10 bruteEnv (basicStrategy halves 3) (exS ["a"; "b"; "c"]) ["a"; "b"; "c"; "u"] in r = RecOk /\ n = 14%N).
Proof.
  split; [apply bruteEnv_ok|]. split; [apply bruteEnv_ok|]. split; [apply registered_add; [apply bruteEnv_ok|apply registered_new]|].
  split; [apply basic_inside; intros; apply firstHalf_incl|]. split; vm_compute; split; reflexivity.
Qed.

Print Assumptions C40_enumeration.
Print Assumptions C40_count.
Print Assumptions C40_basic_strategy.
Print Assumptions C40_no_split.
Print Assumptions C40_unknown_variables_refuted.
