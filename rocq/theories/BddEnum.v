(** * Enumeration of the models of a BDD *)
From Coq Require Import String List Bool ZArith NArith Lia.
From Verif Require Import Spec Factory FactoryProofs FactoryProofs2 FactoryProofs3 FactoryApi FactoryProps Assign NormalForm NfBase NfAssign NfEnc
  Bdd BddApi BddQuery BddTable BddNode BddSem BddQuant BddKernel BddHandles BddCompile BddCanon BddOps BddHist BddPaths BddForm.
Import ListNotations.
Local Open Scope Z_scope.

Section Enum.
Variable k : kernel.
Variable nm : formula -> string.
Definition nmI (i : Z) : string := match getVariableForIndex k i with Some v => nm v | None => EmptyString end.
Definition hasVars (is : list Z) : Prop := forall i, In i is -> exists v, getVariableForIndex k i = Some v.
Definition modelsDen (s : state) (ms : list (list formula)) (nss : list (list lit)) : Prop := Forall2 (fun m ns => Forall2 (litDen s) m ns) ms nss.
Lemma modelsDen_ext s V s' V' ms nss : wext s V s' V' -> modelsDen s ms nss -> modelsDen s' ms nss.
Proof. intros X H. eapply Forall2_impl; [|exact H]. intros m ns Hm. eapply wext_litDens; eauto. Qed.
Lemma modelOf_ok q : forall is s V, winv s V -> named k nm s -> hasVars is ->
  wp (fun _ => modelOf k q is) s V (fun m s' V' => V' = V /\ Forall2 (litDen s') m (map (fun i => (nmI i, negb (q i =? 0))) is)).
Proof.
  induction is as [|i is IH]; intros s V I N Hv; cbn [modelOf map]; [apply wp_ret; auto|]. destruct (Hv i) as [v Ev]; [left; auto|]. rewrite Ev.
  unfold nmI at 1. rewrite Ev. pose proof (N v (getVar_in _ _ _ Ev)) as D.
  assert (Rest : forall l s', winv s' V -> wext s V s' V -> litDen s' l (nm v, negb (q i =? 0)) ->
    wp (fun _ => bind (modelOf k q is) (fun r => ret (l :: r))) s' V (fun ls s2 V2 => V2 = V /\ Forall2 (litDen s2) ls ((nm v, negb (q i =? 0)) :: map (fun i => (nmI i, negb (q i =? 0))) is))).
  { intros l s' I' X' D'. eapply wp_bind; [apply IH; [exact I'|eapply named_ext; eauto|intros j Hj; apply Hv; right; auto]|]. intros ls s2 V2 I2 X2 (-> & HF). apply wp_ret; auto. split; auto. constructor; auto. eapply litDen1_ext; [apply X2|auto]. }
  destruct (q i =? 0).
  - eapply (wp_negateVar v (nm v) (fun _ l => bind (modelOf k q is) (fun r => ret (l :: r)))); auto.
  - apply (wp_bret v (fun _ l => bind (modelOf k q is) (fun r => ret (l :: r)))). apply Rest; auto using wext_refl.
Qed.
Lemma sameModel_ok s : wf s -> forall m ns m' ns', Forall2 (litDen s) m ns -> Forall2 (litDen s) m' ns' -> sameModel m m' = true <-> ns = ns'.
Proof.
  intros [Wn _] m. induction m as [|l m IH]; intros ns m' ns' H H'; (inversion H as [|l0 y m0 l1 H2 H4]; subst; clear H); destruct H' as [|l' np' m' ns' D' H']; cbn [sameModel]; try (split; intros; discriminate); [tauto|].
  rewrite andb_true_iff. destruct (feqb_spec l l') as [->|Ne].
  - rewrite IH by eauto. assert (y = np') as ->. { unfold litDen in *. rewrite H2 in D'. inversion D'. destruct y, np'; cbn in *; congruence. } split; [intros [_ ->]; auto|intros E; inversion E; auto].
  - split; [intros []; discriminate|]. intros E. inversion E; subst. elim Ne. eapply (w_uniq s Wn); eauto.
Qed.
Lemma existsb_model s ms nss m ns : wf s -> modelsDen s ms nss -> Forall2 (litDen s) m ns -> existsb (fun m' => sameModel m' m) ms = true <-> In ns nss.
Proof.
  intros W H Hm. induction H as [|m1 ns1 ms nss H1 H IH]; cbn; [split; [discriminate|intros []]|]. rewrite orb_true_iff, IH. rewrite (sameModel_ok s W m1 ns1 m ns); auto. tauto.
Qed.
(** the completions of a profile *)
Definition completes (q : Z -> Z) (rest : list Z) (c : Z -> bool) : Prop := forall i, In i rest -> q i <> 2 -> c i = negb (q i =? 0).
Definition genPost (all : list Z) (Cp : (Z -> bool) -> Prop) (nss : list (list lit)) (ms : list (list formula)) (s : state) : Prop :=
  exists nss', modelsDen s ms nss' /\ NoDup nss' /\ forall ns, In ns nss' <-> In ns nss \/ exists c, Cp c /\ ns = map (fun i => (nmI i, c i)) all.
Lemma gen_ok all : hasVars all -> forall rest q ms nss s V, winv s V -> named k nm s -> modelsDen s ms nss -> NoDup nss -> incl rest all ->
  (forall i, In i all -> In i rest \/ q i <> 2) ->
  wp (fun _ => generateAllModels k all rest q ms) s V (fun ms' s' V' => V' = V /\ genPost all (completes q all) nss ms' s').
Proof.
  intros Hv. induction rest as [|i rest IH]; intros q ms nss s V I N Hd Hn Hi Ha; cbn [generateAllModels].
  - eapply wp_bind; [apply modelOf_ok; auto|]. intros m s1 V1 I1 X1 (-> & Dm). apply wp_ret; auto. split; auto. set (ns := map (fun i => (nmI i, negb (q i =? 0))) all) in *.
    pose proof (modelsDen_ext _ _ _ _ _ _ X1 Hd) as Hd1. pose proof (existsb_model s1 ms nss m ns (v_wf _ _ I1) Hd1 Dm) as Ex.
    assert (Only : forall ns', (exists c, completes q all c /\ ns' = map (fun i => (nmI i, c i)) all) <-> ns' = ns).
    { intros ns'. split.
      - intros (c & Hc & ->). apply map_ext_in. intros j Hj. f_equal. apply Hc; auto. destruct (Ha j Hj) as [[]|]; auto.
      - intros ->. exists (fun i => negb (q i =? 0)). split; auto. intros j Hj _. auto. }
    destruct (existsb (fun m' => sameModel m' m) ms).
    + exists nss. split; auto. split; auto. intros ns'. rewrite Only. split; auto. intros [H | ->]; auto. apply Ex; auto.
    + exists (nss ++ [ns]). split; [apply Forall2_app; auto|]. split.
      * assert (~ In ns nss) by (intros H; apply Ex in H; discriminate). apply NoDup_rev in Hn. rewrite <- (rev_involutive (nss ++ [ns])). apply NoDup_rev. rewrite rev_app_distr. cbn. constructor; auto. rewrite <- in_rev. auto.
      * intros ns'. rewrite Only, in_app_iff. cbn. split; [intros [H|[<-|[]]]; auto|intros [H| ->]; auto].
  - assert (Ii : In i all) by (apply Hi; left; auto). destruct (Z.eqb_spec (q i) 2) as [E|E]; cbn [negb].
    + assert (Step : forall b rest' c, completes (Bdd.upd q i b) rest' c -> b <> 2 -> (In i rest' -> c i = negb (b =? 0)) /\ completes q rest' c).
      { intros b rest' c Hc Hb. split; [intros Hi'; specialize (Hc i Hi'); unfold Bdd.upd in Hc; rewrite Z.eqb_refl in Hc; auto|]. intros j Hj Nj. specialize (Hc j Hj). unfold Bdd.upd in Hc. destruct (Z.eqb_spec j i); [subst; congruence|auto]. }
      assert (Back : forall b c, completes q all c -> c i = negb (b =? 0) -> completes (Bdd.upd q i b) all c).
      { intros b c Hc Ec j Hj. unfold Bdd.upd. destruct (Z.eqb_spec j i); [subst; auto|]. apply Hc; auto. }
      assert (Ha' : forall b, b <> 2 -> forall j, In j all -> In j rest \/ Bdd.upd q i b j <> 2).
      { intros b Hb j Hj. unfold Bdd.upd. destruct (Z.eqb_spec j i); auto. destruct (Ha j Hj) as [[Ej|]|]; auto. }
      assert (Hi' : incl rest all) by (intros j Hj; apply Hi; right; auto).
      eapply wp_bind; [apply (IH (Bdd.upd q i 0) ms nss); auto; apply Ha'; lia|]. intros ms1 s1 V1 I1 X1 (-> & nss1 & Hd1 & Hn1 & In1).
      eapply wp_conseq; [apply (IH (Bdd.upd q i 1) ms1 nss1); auto; [eapply named_ext; eauto|apply Ha'; lia]|]. intros ms2 s2 V2 I2 X2 (-> & nss2 & Hd2 & Hn2 & In2). split; auto.
      exists nss2. split; auto. split; auto. intros ns. rewrite In2, In1. split.
      * intros [[H|(c & Hc & ->)]|(c & Hc & ->)]; auto; right; exists c; (split; [|auto]); eapply Step; eauto; lia.
      * intros [H|(c & Hc & ->)]; auto. destruct (c i) eqn:Ec; [right|left; right]; exists c; (split; [|auto]); apply Back; auto.
    + eapply wp_conseq; [apply (IH q ms nss); auto; [intros j Hj; apply Hi; right; auto|]|].
      * intros j Hj. destruct (Ha j Hj) as [[Ej|]|]; auto. subst; auto.
      * auto.
Qed.
Lemma genLoop_ok all : hasVars all -> forall qs ms nss s V, winv s V -> named k nm s -> modelsDen s ms nss -> NoDup nss ->
  wp (fun _ => generateLoop k all qs ms) s V (fun ms' s' V' => V' = V /\ genPost all (fun c => exists q, In q qs /\ completes q all c) nss ms' s').
Proof.
  intros Hv. induction qs as [|q qs IH]; intros ms nss s V I N Hd Hn; cbn [generateLoop].
  - apply wp_ret; auto. split; auto. exists nss. split; auto. split; auto. intros ns. split; auto. intros [H|(c & (q & [] & _) & _)]; auto.
  - eapply wp_bind; [apply (gen_ok all Hv all q ms nss); auto using incl_refl|]. intros ms1 s1 V1 I1 X1 (-> & nss1 & Hd1 & Hn1 & In1).
    eapply wp_conseq; [apply (IH ms1 nss1); auto; eapply named_ext; eauto|]. intros ms2 s2 V2 I2 X2 (-> & nss2 & Hd2 & Hn2 & In2). split; auto. exists nss2. split; auto. split; auto.
    intros ns. rewrite In2, In1. split.
    + intros [[H|(c & Hc & ->)]|(c & (q' & Hq & Hc) & ->)]; auto; right; exists c; (split; [|auto]); [exists q|exists q']; (split; [|auto]); [left|right]; auto.
    + intros [H|(c & (q' & [<-|Hq] & Hc) & ->)]; auto; [left; right; eauto|right; exists c; split; eauto].
Qed.
End Enum.

Definition onKernel (k : kernel) (v : formula) : bool := match indexOf v (vlist k) 0 with Some _ => true | None => false end.
Lemma relevant_map k : kinv k -> forall vs, (forall i, In i (relevantIndices k vs) -> 0 <= i < varnum k) /\
  Forall2 (fun i v => getVariableForIndex k i = Some v) (relevantIndices k vs) (filter (onKernel k) vs).
Proof.
  intros K. induction vs as [|v vs [IH1 IH2]]; cbn; [split; [intros i []|constructor]|]. unfold onKernel at 1. destruct (indexOf v (vlist k) 0) as [i|] eqn:E; cbn; [|auto].
  apply indexOf_some in E as [H1 H2]. rewrite Z.sub_0_r in H2. pose proof (vlist_range k (Z.to_nat i) v K H2) as Hr. rewrite Z2Nat.id in Hr by lia. split.
  - intros j [<-|Hj]; auto.
  - constructor; auto. unfold getVariableForIndex. destruct (Z.ltb_spec i 0); [lia|auto].
Qed.
Lemma bddEnum_ok s V k n p nm vs : winv s V -> kinv k -> named k nm s -> Denotes k n p ->
  cvp (bddModelEnumeration n vs) s V k (fun ms s' V' k' => k' = with_refstack [] k /\ exists nss, modelsDen s' ms nss /\ NoDup nss /\
    forall ns, In ns nss <-> exists a : asg, p (fun v => a (nm v)) = true /\ ns = map (fun v => (nm v, a (nm v))) (filter (onKernel k) vs)).
Proof.
  intros I K N D. pose proof D as (t & R & S). pose proof (o_core _ _ (ki_op _ K)) as C. pose proof (Rep_robt _ _ C _ _ R) as B. unfold bddModelEnumeration.
  eapply cvp_bindK; [exact I|apply (allPaths_ok true k n t K R)|]. intros ps k1 (-> & HF).
  apply cvp_bindK with (P := fun a k2 => a = with_refstack [] k /\ k2 = with_refstack [] k); [exact I|apply kwp_get; auto|]. intros a0 k2 (-> & ->).
  set (k1 := with_refstack [] k). destruct (relevant_map k K vs) as [Hr Hm]. change (relevantIndices k1 vs) with (relevantIndices k vs). set (all := relevantIndices k vs) in *.
  apply cvp_onM. eapply wp_conseq; [apply (genLoop_ok k1 nm all) with (nss := []); auto; [|constructor|constructor]|].
  { intros i Hi. clear -Hm Hi. induction Hm; destruct Hi; subst; eauto. }
  intros ms s1 V1 I1 X1 (-> & nss & Hd & Hn & Hin). split; auto. exists nss. split; auto. split; auto. intros ns. rewrite Hin. clear Hin Hd Hn.
  assert (Names : forall c : Z -> bool, forall a : asg, (forall i v, In i all -> getVariableForIndex k i = Some v -> c i = a (nm v)) -> map (fun i => (nmI k1 nm i, c i)) all = map (fun v => (nm v, a (nm v))) (filter (onKernel k) vs)).
  { intros c a. clear -Hm. induction Hm as [|i v is vs' Ev Hm IH]; intros Hc; cbn; auto. rewrite IH by (intros j w Hj; apply Hc; right; auto). f_equal. unfold nmI. change (getVariableForIndex k1 i) with (getVariableForIndex k i). rewrite Ev. f_equal. apply Hc; [left; auto|auto]. }
  assert (HV : forall i, In i all -> exists v, getVariableForIndex k i = Some v). { intros i Hi. clear -Hm Hi. induction Hm; destruct Hi; subst; eauto. }
  split.
  - intros [[]|(c & (q & Hq & Hc) & ->)]. destruct (Forall2_in_r _ _ _ q HF Hq) as (ph & Hph & Rp).
    set (x := fun l => match assoc l ph with Some b => b | None => c (level2var k l) end).
    assert (On : onpath x ph). { intros l b Hl. unfold x. rewrite (tpaths_assoc _ _ _ _ _ _ B Hph Hl). auto. }
    pose (a := fun y => match find (fun v => String.eqb (nm v) y) (vlist k) with Some v => vvals k x v | None => false end).
    assert (Ea : forall v, In v (vlist k) -> a (nm v) = vvals k x v).
    { intros v Hv. unfold a. destruct (find (fun w => String.eqb (nm w) (nm v)) (vlist k)) as [w|] eqn:Ef.
      - apply find_some in Ef as [Hw Eq]. apply String.eqb_eq in Eq. f_equal. pose proof (N v Hv) as Dv. pose proof (N w Hw) as Dw. rewrite Eq in Dw. eapply (w_uniq s (proj1 (v_wf _ _ I))); eauto.
      - eapply find_none in Ef; eauto. rewrite String.eqb_refl in Ef. discriminate. }
    exists a. split.
    + rewrite <- (S x); [apply tpaths_sem; eauto|]. intros i v Ei. rewrite (vvals_agr k x K i v Ei). symmetry. apply Ea. eapply nth_error_In; eauto.
    + apply Names. intros i v Hi Ev. rewrite Ea by (eapply getVar_in; eauto). unfold getVariableForIndex in Ev. destruct (Z.ltb_spec i 0); [discriminate|].
      pose proof (vvals_agr k x K (Z.to_nat i) v Ev) as Ex. rewrite Z2Nat.id in Ex by lia. rewrite <- Ex. unfold x. pose proof (Rp i (Hr i Hi)) as Eq. unfold code in Eq. specialize (Hc i Hi).
      destruct (assoc (var2level k i) ph) as [[]|].
      * rewrite Hc by (rewrite Eq; lia). rewrite Eq. auto.
      * rewrite Hc by (rewrite Eq; lia). rewrite Eq. auto.
      * destruct (ki_perm _ K i (Hr i Hi)) as [_ ->]. auto.
  - intros (a & Pa & ->). right. rewrite <- (S (nval k nm a)) in Pa by (apply (lvals_agr k (fun v => a (nm v)) K)). apply tpaths_sem in Pa as (ph & Hph & On).
    destruct (Forall2_in_l _ _ _ ph HF Hph) as (q & Hq & Rp). exists (fun i => nval k nm a (var2level k i)). split.
    + exists q. split; auto. intros i Hi Ni. rewrite (Rp i (Hr i Hi)) in *. rewrite (onpath_code true t _ ph (nval k nm a) B Hph) in On. rewrite (On _ Ni). destruct (code_range ph (var2level k i)) as [E|[E|E]]; rewrite E in *; auto; try congruence.
    + symmetry. apply Names. intros i v Hi Ev. apply nval_var; auto.
Qed.
