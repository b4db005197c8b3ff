(** * Proofs about the CNF dispatcher and and-inverter graphs *)
From Coq Require Import String Ascii List Bool ZArith NArith Lia.
From Verif Require Import Spec Factory FactoryProofs FactoryProofs2 FactoryProofs3 FactoryApi FactoryProps Assign NormalForm NfBase NfAssign NfEnc NfNnf NfCnf NfFun NfTseitin NfPg.
Import ListNotations.
Local Open Scope N_scope.

(** ** CNF with any algorithm *)
Lemma tsPost_pg t g s V : tsPost t g s V -> pgPost t g s V.
Proof. intros (w & A & B & C & _). exists w. auto. Qed.
Lemma cnfPost_pg t g s V : cnfPost SAnd t g s V -> pgPost t g s V.
Proof. intros (w & A & B & C). exists w. split; auto. split; auto. apply repr_auxrepr; auto. Qed.
Lemma pgPost_ext t g s V s' V' : wext s V s' V' -> pgPost t g s V -> pgPost t g s' V'.
Proof.
  intros X (w & A & B & C1 & C2 & C3). exists w. split; [eapply wext_Den; eauto|]. split; auto. split; auto. split; auto.
  intros b Hb. apply C2. apply X; auto.
Qed.

Lemma singleAdvanced_ok cf nf t s V f h : winv s V -> Den s f t -> encodable cf t ->
  wp (fun n => singleAdvanced n cf nf f h) s V (fun r s' V' => pgPost t (fst r) s' V').
Proof.
  intros I Hd He. unfold singleAdvanced. eapply wp_bind; [apply (factorizedCNFWithHandler_ok factorizationHandler cf t s V f h I Hd He)|].
  intros [[g|] h1] s1 V1 I1 X1 HP; simpl in *.
  - apply wp_ret; auto. simpl. apply cnfPost_pg. auto.
  - assert (G : wp (fun n => match n_fallback nf with
          | CNFPlaistedGreenbaum => pgCNF n cf (n_atom nf) f newAuxState
          | _ => tseitinCNF n cf (n_atom nf) f newAuxState
          end) s1 V1 (fun r s' V' => pgPost t (fst r) s' V')).
    { pose proof (wext_Den _ _ _ _ _ _ X1 Hd) as Hd1.
      assert (T : wp (fun n => tseitinCNF n cf (n_atom nf) f newAuxState) s1 V1 (fun r s' V' => pgPost t (fst r) s' V')).
      { eapply wp_conseq; [apply (tseitinCNF_ok cf (n_atom nf) t s1 V1 f newAuxState I1 (xinv_new s1 V1) Hd1 He)|].
        intros r s2 V2 _ _ [HH _]. apply tsPost_pg; auto. }
      destruct (n_fallback nf); auto. apply (pgCNF_ok cf (n_atom nf) t s1 V1 f newAuxState I1 (pinv_new s1 V1) Hd1 He). }
    eapply wp_bind; [exact G|]. intros r s2 V2 I2 X2 HH. apply wp_ret; auto.
Qed.

Lemma mapF_ok {St} (h : nat -> formula -> St -> M (formula * St)) : forall l ts s V (x : St),
  (forall a t, In a l -> In t ts -> forall s' V' x', winv s' V' -> Den s' a t ->
     wp (fun n => h n a x') s' V' (fun r s2 V2 => pgPost t (fst r) s2 V2)) ->
  winv s V -> Forall2 (Den s) l ts ->
  wp (fun n => mapF (h n) l x) s V (fun r s' V' => Forall2 (fun g t => pgPost t g s' V') (fst r) ts).
Proof.
  induction l as [|a l IH]; intros ts s V x Hh I HF; inversion HF; subst.
  - apply wp_ret; auto. simpl. auto.
  - rename y into t, l' into ts. simpl. eapply wp_bind; [apply (Hh a t); simpl; auto|].
    intros [g x1] s1 V1 I1 X1 P1. simpl in *. eapply wp_bind.
    + apply (IH ts s1 V1 x1); [|auto|eapply wext_Dens; eauto]. intros a' t' Ha Ht s' V' x' I' D'. apply (Hh a' t'); auto.
    + intros [gs x2] s2 V2 I2 X2 P2. simpl in *. apply wp_ret; auto. simpl. constructor; auto. eapply pgPost_ext; eauto.
Qed.

Lemma pgPost_list s V gs ts : Forall2 (fun g t => pgPost t g s V) gs ts ->
  exists us, Forall2 (Den s) gs us /\ forallb is_cnf us = true /\ Forall2 (auxrepr V) ts us.
Proof.
  induction 1; [exists []; auto|]. destruct IHForall2 as (us & A & B & C). destruct H as (u & D & E & F). exists (u :: us).
  split; auto. split; auto. simpl. rewrite E; auto.
Qed.
Lemma auxrepr_and V ts us w : Forall2 (auxrepr V) ts us -> equiv w (TAnd us) -> and_shape us w -> auxrepr V (TAnd ts) w.
Proof.
  intros HF He Hs. split; [|split].
  - intros b Hb. rewrite He in Hb. simpl in *. clear -HF Hb. induction HF; simpl in *; auto. apply andb_true_iff in Hb. destruct Hb as [H1 H2].
    destruct H as (A & _ & _). rewrite (A b H1); auto.
  - intros b HV Hb. rewrite He. simpl in *. clear -HF Hb HV. induction HF; simpl in *; auto. apply andb_true_iff in Hb. destruct Hb as [H1 H2].
    destruct H as (_ & A & _). rewrite (A b HV H1); auto.
  - simpl. intros Hp x Hx. destruct (and_shape_occurs x _ _ Hs Hx) as (u & Hu & Hx'). destruct (Forall2_in_r _ _ _ _ HF Hu) as (t & Ht & _ & _ & A).
    rewrite forallb_forall in Hp. destruct (A (Hp t Ht) x Hx'); auto. left. apply occurs_and. eauto.
Qed.

Lemma CNF_ok cf nf t s V f : winv s V -> Den s f t -> encodable cf t -> wp (fun n => CNF n cf nf f) s V (pgPost t).
Proof.
  intros I Hd He. unfold CNF. destruct (n_algorithm nf).
  - eapply wp_conseq; [apply (factorizedCNF_ok cf t s V f I Hd He)|]. intros; apply cnfPost_pg; auto.
  - eapply wp_bind; [apply (tseitinCNF_ok cf (n_atom nf) t s V f newAuxState I (xinv_new s V) Hd He)|].
    intros r s1 V1 I1 X1 [HH _]. apply wp_ret; auto. apply tsPost_pg; auto.
  - eapply wp_bind; [apply (pgCNF_ok cf (n_atom nf) t s V f newAuxState I (pinv_new s V) Hd He)|].
    intros r s1 V1 I1 X1 HH. apply wp_ret; auto.
  - unfold advancedEncoding. set (h := FH false (n_dist nf) (n_clause nf) 0 0). pose proof (Den_sort _ _ _ Hd) as Hs.
    assert (G : wp (fun n => r <- singleAdvanced n cf nf f h ;; ret (fst r)) s V (pgPost t)).
    { eapply wp_bind; [apply (singleAdvanced_ok cf nf t s V f h I Hd He)|]. intros r s1 V1 I1 X1 HH. apply wp_ret; auto. }
    destruct t; rewrite Hs; try exact G; [|destruct cc; exact G].
    apply wp_get. eapply wp_bind; [apply (mapF_ok (fun n => singleAdvanced n cf nf) (opNary f s) ts s V h); auto|].
    + intros a t Ha Ht s' V' x' I' D'. apply singleAdvanced_ok; auto. apply encodable_and in He. rewrite Forall_forall in He. auto.
    + apply opNary_and; auto. apply I.
    + intros [gs x1] s1 V1 I1 X1 HF. simpl in *. destruct (pgPost_list s1 V1 gs ts HF) as (us & A & B & C).
      eapply wp_conseq; [apply rp_wp; [exact I1|apply (rp_and gs us); [apply I1|auto]]|].
      intros g s2 V2 I2 X2 (-> & w & D & E & F). exists w. split; auto. split; [eapply and_shape_cnf; eauto|]. eapply auxrepr_and; eauto.
Qed.

(** ** And-inverter graphs *)
Definition aigPost (t : tree) (g : formula) (s' : state) (V' : asg -> Prop) : Prop := exists u, Den s' g u /\ aigspec V' t u.
Lemma aigspec_mono (V V' : asg -> Prop) t u : (forall b, V' b -> V b) -> aigspec V t u -> aigspec V' t u.
Proof. intros H [A B C D]. constructor; auto. Qed.
Lemma aigPost_ext t g s V s' V' : wext s V s' V' -> aigPost t g s V -> aigPost t g s' V'.
Proof. intros X (u & A & B). exists u. split; [eapply wext_Den; eauto|]. eapply aigspec_mono; [apply X|auto]. Qed.

Lemma aigspec_refl V t : (aigable t = true -> is_aig t = true) -> aigspec V t t.
Proof. intros H. constructor; auto. intros _. split; auto. intros b; auto. Qed.
Lemma is_aig_able t : is_aig t = true -> aigable t = true /\ pbfree t = true.
Proof.
  induction t using tree_ind'; simpl; intros Hg; auto; try discriminate.
  rewrite forallb_forall in Hg. rewrite Forall_forall in H. split; apply forallb_forall; intros x Hx; apply H; auto.
Qed.
Lemma pbfree_pospb t : pbfree t = true -> pospb t = true.
Proof.
  induction t using tree_ind'; simpl; intros Hg; auto; try discriminate.
  - rewrite forallb_forall in *. rewrite Forall_forall in H. auto.
  - rewrite forallb_forall in *. rewrite Forall_forall in H. auto.
  - apply andb_true_iff in Hg. destruct Hg as [H1 H2]. rewrite H1, IHt2; auto.
Qed.


(** a formula built for a tree [X]: same meaning, no new names, an AIG if [X] is one *)
Definition built (X : tree) (s : state) (g : formula) : Prop :=
  exists u, Den s g u /\ equiv u X /\ (forall x, occurs x u -> occurs x X) /\ (is_aig X = true -> is_aig u = true).
Lemma built_ext X s V s' V' g : wext s V s' V' -> built X s g -> built X s' g.
Proof. intros HX (u & A & B). exists u. split; auto. eapply wext_Den; eauto. Qed.
Lemma built_refl X s g : Den s g X -> built X s g.
Proof. intros D. exists X. split; auto. split; [intros b; auto|auto]. Qed.
Lemma neg_aig u w : is_neg_of u w -> is_aig u = true -> is_aig w = true.
Proof. destruct u; simpl; intros Hn H; try (subst; auto; fail); try (destruct l; subst; auto). Qed.
Lemma wp_notB s V g X : winv s V -> built X s g -> wp (fun _ => up (Not g)) s V (fun g s' V' => V' = V /\ built (TNot X) s' g).
Proof.
  intros I (u & Du & A & B & C). eapply wp_conseq; [apply rp_wp; [exact I|apply (rp_not g u); [apply I|auto]]|].
  intros h s' V' _ _ (-> & w & Dw & Hn). split; auto. exists w. split; auto. split; [|split].
  - intros b. rewrite (is_neg_of_eval _ _ b Hn). simpl. rewrite A. auto.
  - intros x Hx. rewrite (is_neg_occurs _ _ x Hn) in Hx. simpl. auto.
  - simpl. intros Hx. eapply neg_aig; eauto.
Qed.
Lemma wp_andB s V gs Xs : winv s V -> Forall2 (fun g X => built X s g) gs Xs ->
  wp (fun _ => up (And gs)) s V (fun g s' V' => V' = V /\ built (TAnd Xs) s' g).
Proof.
  intros I HF. assert (HU : exists us, Forall2 (Den s) gs us /\ Forall2 (fun X u => equiv u X /\ (forall x, occurs x u -> occurs x X) /\ (is_aig X = true -> is_aig u = true)) Xs us).
  { clear -HF. induction HF; [exists []; auto|]. destruct IHHF as (us & A & B), H as (u & C & D). exists (u :: us). auto. }
  destruct HU as (us & A & B). eapply wp_conseq; [apply rp_wp; [exact I|apply (rp_and gs us); [apply I|auto]]|].
  intros g s' V' _ _ (-> & w & Dw & E & F). split; auto. exists w. split; auto. split; [|split].
  - intros b. rewrite E. simpl. clear -B. induction B; simpl; auto. destruct H as [H _]. rewrite H, IHB. auto.
  - intros x Hx. destruct (and_shape_occurs x _ _ F Hx) as (u & Hu & Hx'). destruct (Forall2_in_r _ _ _ _ B Hu) as (t & Ht & _ & G & _).
    apply occurs_and. eauto.
  - simpl. intros Hp. eapply and_shape_closed; [apply aig_A|exact F|]. clear -B Hp. induction B; simpl in *; auto. apply andb_true_iff in Hp. destruct Hp as [H1 H2].
    destruct H as (_ & _ & H). rewrite H, IHB; auto.
Qed.

Lemma aig_not V t u w : aigspec V t u -> equiv w (TNot u) -> (forall x, occurs x w -> occurs x (TNot u)) -> (is_aig (TNot u) = true -> is_aig w = true) -> aigspec V (TNot t) w.
Proof.
  intros [A B C D] H1 H2 H3. constructor.
  - intros b Hb. rewrite H1. simpl. rewrite A; auto.
  - simpl. intros Hp b Hb. rewrite H1 in Hb. simpl in Hb. destruct (C Hp) as [E _]. rewrite E. auto.
  - simpl. intros Hp. destruct (C Hp) as [E F]. split; [|intros x Hx; apply F; exact (H2 x Hx)]. intros b. rewrite H1. simpl. rewrite E. auto.
  - auto.
Qed.
Lemma aig_and V ts us w : Forall2 (aigspec V) ts us -> equiv w (TAnd us) -> (forall x, occurs x w -> occurs x (TAnd us)) -> (is_aig (TAnd us) = true -> is_aig w = true) -> aigspec V (TAnd ts) w.
Proof.
  intros HF He Ho Hs. constructor.
  - intros b Hb. rewrite He. simpl. clear -HF Hb. induction HF; simpl; auto. rewrite (g_val _ _ _ H b Hb), IHHF. auto.
  - simpl. intros Hp b Hb. rewrite He in Hb. simpl in Hb. clear -HF Hb Hp. induction HF; simpl in *; auto.
    apply andb_true_iff in Hb, Hp. destruct Hb, Hp. rewrite (g_pos _ _ _ H); auto.
  - simpl. intros Hp. split.
    + intros b. rewrite He. simpl. clear -HF Hp. induction HF; simpl in *; auto. apply andb_true_iff in Hp. destruct Hp as [H1 H2].
      destruct (g_free _ _ _ H H1) as [E _]. rewrite E, IHHF; auto.
    + intros x Hx. apply Ho, occurs_and in Hx. destruct Hx as (u & Hu & Hx'). destruct (Forall2_in_r _ _ _ _ HF Hu) as (t & Ht & A).
      rewrite forallb_forall in Hp. apply occurs_and. exists t. split; auto. apply (g_free _ _ _ A); auto.
  - simpl. intros Hp. apply Hs. simpl. clear -HF Hp. induction HF; simpl in *; auto. apply andb_true_iff in Hp. destruct Hp.
    rewrite (g_shape _ _ _ H), IHHF; auto.
Qed.
Lemma aig_or V ts us w : let X := TNot (TAnd (map TNot us)) in
  Forall2 (aigspec V) ts us -> equiv w X -> (forall x, occurs x w -> occurs x X) -> (is_aig X = true -> is_aig w = true) -> aigspec V (TOr ts) w.
Proof.
  intros X HF He Ho Hs.
  assert (HE : forall b, eval b w = existsb (eval b) us).
  { intros b. rewrite He. unfold X. simpl. clear. induction us; simpl; auto. rewrite negb_andb, negb_involutive, IHus. auto. }
  constructor.
  - intros b Hb. rewrite HE. simpl. clear -HF Hb. induction HF; simpl; auto. rewrite (g_val _ _ _ H b Hb), IHHF. auto.
  - simpl. intros Hp b Hb. rewrite HE in Hb. clear -HF Hb Hp. induction HF; simpl in *; auto.
    apply andb_true_iff in Hp. apply orb_true_iff in Hb. apply orb_true_iff. destruct Hb, Hp; auto. left. apply (g_pos _ _ _ H); auto.
  - simpl. intros Hp. split.
    + intros b. rewrite HE. simpl. clear -HF Hp. induction HF; simpl in *; auto. apply andb_true_iff in Hp. destruct Hp as [H1 H2].
      destruct (g_free _ _ _ H H1) as [E _]. rewrite E, IHHF; auto.
    + intros x Hx. apply Ho in Hx. unfold X in Hx. simpl in Hx. change (occurs x (TAnd (map TNot us))) in Hx. apply occurs_and in Hx. destruct Hx as (u & Hu & Hx').
      apply in_map_iff in Hu. destruct Hu as (u0 & <- & Hu). simpl in Hx'. destruct (Forall2_in_r _ _ _ _ HF Hu) as (t & Ht & A).
      rewrite forallb_forall in Hp. apply occurs_or. exists t. split; auto. apply (g_free _ _ _ A); auto.
  - simpl. intros Hp. apply Hs. unfold X. simpl. clear -HF Hp. induction HF; simpl in *; auto. apply andb_true_iff in Hp. destruct Hp.
    rewrite (g_shape _ _ _ H), IHHF; auto.
Qed.
Lemma aig_impl V a b l r w : let X := TNot (TAnd [l; TNot r]) in
  aigspec V a l -> aigspec V b r -> equiv w X -> (forall x, occurs x w -> occurs x X) -> (is_aig X = true -> is_aig w = true) -> aigspec V (TImpl a b) w.
Proof.
  intros X Ha Hb He Ho Hs.
  assert (HE : forall m, eval m w = implb (eval m l) (eval m r)).
  { intros m. rewrite He. unfold X. simpl. destruct (eval m l), (eval m r); auto. }
  constructor.
  - intros m Hm. rewrite HE. simpl. rewrite (g_val _ _ _ Ha), (g_val _ _ _ Hb); auto.
  - simpl. intros Hp m Hm. apply andb_true_iff in Hp. destruct Hp as [H1 H2]. rewrite HE in Hm. destruct (g_free _ _ _ Ha H1) as [E _]. rewrite E.
    destruct (eval m l); auto. simpl in *. apply (g_pos _ _ _ Hb); auto.
  - simpl. intros Hp. apply andb_true_iff in Hp. destruct Hp as [H1 H2]. destruct (g_free _ _ _ Ha H1) as [E F], (g_free _ _ _ Hb H2) as [E' F'].
    split; [intros m; rewrite HE; simpl; rewrite E, E'; auto|]. intros x Hx. apply Ho in Hx. unfold X in Hx. simpl in Hx. destruct Hx as [Hx|[Hx|[]]]; auto.
  - simpl. intros Hp. apply andb_true_iff in Hp. destruct Hp as [H1 H2]. apply Hs. unfold X. simpl. rewrite (g_shape _ _ _ Ha), (g_shape _ _ _ Hb); auto.
Qed.
Lemma aig_equiv V a b l r w : let X := TAnd [TNot (TAnd [l; TNot r]); TNot (TAnd [TNot a; b])] in
  aigspec V a l -> aigspec V b r -> equiv w X -> (forall x, occurs x w -> occurs x X) -> (is_aig X = true -> is_aig w = true) -> aigspec V (TEquiv a b) w.
Proof.
  intros X Ha Hb He Ho Hs.
  assert (HE : forall m, eval m l = eval m a -> eval m r = eval m b -> eval m w = Bool.eqb (eval m a) (eval m b)).
  { intros m E1 E2. rewrite He. unfold X. simpl. rewrite E1, E2. destruct (eval m a), (eval m b); auto. }
  assert (HF : pbfree (TEquiv a b) = true -> equiv (TEquiv a b) w).
  { simpl. intros Hp m. apply andb_true_iff in Hp. destruct Hp as [H1 H2]. destruct (g_free _ _ _ Ha H1) as [E F], (g_free _ _ _ Hb H2) as [E' F'].
    simpl. rewrite HE; auto. }
  constructor.
  - intros m Hm. simpl. apply HE; [apply (g_val _ _ _ Ha)|apply (g_val _ _ _ Hb)]; auto.
  - intros Hp m Hm. rewrite (HF Hp). auto.
  - intros Hp. split; auto. simpl in Hp. apply andb_true_iff in Hp. destruct Hp as [H1 H2]. destruct (g_free _ _ _ Ha H1) as [E F], (g_free _ _ _ Hb H2) as [E' F'].
    intros x Hx. apply Ho in Hx. unfold X in Hx. simpl in *. intuition.
  - simpl. intros Hp. apply andb_true_iff in Hp. destruct Hp as [H1 H2]. apply Hs. unfold X. simpl. rewrite H1, H2.
    rewrite (g_shape _ _ _ Ha), (g_shape _ _ _ Hb); auto; apply is_aig_able; auto.
Qed.

Section Aig.
Variables (cf : encConfig) (nf : cnfConfig).
Definition AigP (t : tree) : Prop := forall s V f, winv s V -> Den s f t -> wp (fun n => AIG n cf nf f) s V (aigPost t).
Definition aigBody (rec : formula -> M formula) (n : nat) (f : formula) : M formula :=
  match srt f with
           | SFalse | STrue | SLit => ret f
           | SNot => op <- get (opNot f) ;; x <- rec op ;; up (Not x)
           | SImpl =>
             q <- get (opBin f) ;; l <- rec (fst q) ;; r <- rec (snd q) ;; nr <- up (Not r) ;;
             c <- up (And [l; nr]) ;; up (Not c)
           | SEquiv =>
             q <- get (opBin f) ;; l <- rec (fst q) ;; r <- rec (snd q) ;; nr <- up (Not r) ;;
             c <- up (And [l; nr]) ;; c1 <- up (Not c) ;;
             nl <- up (Not (fst q)) ;; d <- up (And [nl; snd q]) ;; d1 <- up (Not d) ;;
             up (And [c1; d1])
           | SAnd => ops <- get (opNary f) ;; nops <- mapM rec ops ;; up (And nops)
           | SOr =>
             ops <- get (opNary f) ;; nops <- mapM (fun op => x <- rec op ;; up (Not x)) ops ;;
             c <- up (And nops) ;; up (Not c)
           | SCC | SPBC => x <- CNF n cf nf f ;; rec x
           end.
Lemma aig_wrap t : (forall s V f, winv s V -> Den s f t -> wp (fun n => aigBody (AIG n cf nf) n f) s V (aigPost t)) -> AigP t.
Proof.
  intros HB s V f I Hd. apply wp_S. cbn [AIG]. apply wp_get. unfold lookupTrans.
  destruct (transC s TransAIG f) as [g|] eqn:E.
  - destruct (k_trans _ _ (v_cache _ _ I) _ _ _ E) as (t' & u & Ht & Hu & Hs). apply wp_ret; auto. rewrite (Den_fun _ _ _ _ Ht Hd) in Hs.
    exists u. auto.
  - eapply wp_bind; [apply (HB s V f I Hd)|]. intros g s1 V1 I1 X1 (u & Du & Hu).
    destruct (winv_setTrans s1 V1 TransAIG f g t u I1 (wext_Den _ _ _ _ _ _ X1 Hd) Du Hu) as [I2 X2]. eapply wp_put; [exact X2|]. apply wp_ret; auto.
    exists u. split; auto. eapply wext_Den; eauto.
Qed.
Lemma two_calls a b fa fb s V (k : nat -> formula -> formula -> M formula) Q : AigP a -> AigP b -> winv s V -> Den s fa a -> Den s fb b ->
  (forall l r s' V' ul ur, winv s' V' -> wext s V s' V' -> Den s' l ul -> Den s' r ur -> aigspec V' a ul -> aigspec V' b ur -> wp (fun n => k n l r) s' V' Q) ->
  wp (fun n => l <- AIG n cf nf fa ;; r <- AIG n cf nf fb ;; k n l r) s V Q.
Proof.
  intros Ha Hb I Da Db H. eapply wp_bind; [apply (Ha s V fa I Da)|]. intros l s1 V1 I1 X1 (ul & D1 & A1).
  eapply wp_bind; [apply (Hb s1 V1 fb I1)|]. { eapply wext_Den; eauto. }
  intros r s2 V2 I2 X2 (ur & D2 & A2). apply (H l r s2 V2 ul ur); auto.
  - eapply wext_trans; eauto.
  - eapply wext_Den; eauto.
  - eapply aigspec_mono; [apply X2|auto].
Qed.
Lemma AIG_struct t :
  match t with
  | TNot a => AigP a
  | TImpl a b | TEquiv a b => AigP a /\ AigP b
  | TAnd ts | TOr ts => Forall AigP ts
  | TPBC _ _ _ _ _ => False
  | _ => True
  end -> AigP t.
Proof.
  intros HH. apply aig_wrap. intros s V f I Hd. unfold aigBody. rewrite (Den_sort _ _ _ Hd).
  destruct t; try contradiction; try (apply wp_ret; auto; exists TTrue; split; auto; apply aigspec_refl; auto; fail).
  - apply wp_ret; auto. exists TFalse; split; auto; apply aigspec_refl; auto.
  - apply wp_ret; auto. exists (TLit l); split; auto; apply aigspec_refl; auto.
  - apply wp_get. eapply wp_bind; [apply (HH s V (opNot f s) I); apply opNot_den; auto; apply I|].
    intros x s1 V1 I1 X1 (u & Du & Hu). eapply wp_conseq; [apply (wp_notB s1 V1 x u I1 (built_refl _ _ _ Du))|].
    intros g s2 V2 I2 X2 (-> & w & A & B & C & D). exists w. split; auto. eapply aig_not; eauto.
  - apply wp_get. eapply wp_bind.
    + apply (wp_mapM (fun n => AIG n cf nf) Den (fun s V g t => aigPost t g s V)) with (cs := ts); auto.
      * intros s1 V1 s2 V2 X a c HD. eapply wext_Den; eauto.
      * intros s1 V1 s2 V2 X a c HD. eapply aigPost_ext; eauto.
      * intros a c Ha Hc s' V' I' HD. rewrite Forall_forall in HH. apply (HH c Hc); auto.
      * apply opNary_and; auto. apply I.
    + intros gs s1 V1 I1 X1 HF. cbv beta in HF.
      assert (HU : exists us, Forall2 (fun g X => built X s1 g) gs us /\ Forall2 (aigspec V1) ts us).
      { clear -HF. induction HF; [exists []; auto|]. destruct IHHF as (us & A & B), H as (u & C & D). exists (u :: us). split; auto. constructor; auto. apply built_refl; auto. }
      destruct HU as (us & A & B). eapply wp_conseq; [apply (wp_andB s1 V1 gs us I1 A)|].
      intros g s2 V2 I2 X2 (-> & w & A' & B' & C & D). exists w. split; auto. eapply aig_and; eauto.
  - apply wp_get. eapply wp_bind.
    + apply (wp_mapM (fun n op => x <- AIG n cf nf op ;; up (Not x)) Den (fun s V g t => exists u, built (TNot u) s g /\ aigspec V t u)) with (cs := ts); auto.
      * intros s1 V1 s2 V2 X a c HD. eapply wext_Den; eauto.
      * intros s1 V1 s2 V2 X a c (u & A & B). exists u. split; [eapply built_ext; eauto|eapply aigspec_mono; [apply X|auto]].
      * intros a c Ha Hc s' V' I' X' HD. rewrite Forall_forall in HH. eapply wp_bind; [apply (HH c Hc); eauto|].
        intros x s1 V1 I1 X1 (u & Du & Hu). eapply wp_conseq; [apply (wp_notB s1 V1 x u I1 (built_refl _ _ _ Du))|].
        intros g s2 V2 I2 X2 (-> & HB). exists u. auto.
      * apply opNary_or; auto. apply I.
    + intros gs s1 V1 I1 X1 HF. cbv beta in HF.
      assert (HU : exists us, Forall2 (fun g X => built X s1 g) gs (map TNot us) /\ Forall2 (aigspec V1) ts us).
      { clear -HF. induction HF as [|? ? ? ? H HF IH]; [exists []; simpl; auto|]. destruct IH as (us & A & B). destruct H as (u & C & D). exists (u :: us). split; constructor; auto. }
      destruct HU as (us & A & B). eapply wp_bind; [apply (wp_andB s1 V1 gs _ I1 A)|].
      intros c s2 V2 I2 X2 (-> & HB). eapply wp_conseq; [apply (wp_notB s2 V1 c _ I2 HB)|].
      intros g s3 V3 I3 X3 (-> & w & A' & B' & C & D). exists w. split; auto. eapply aig_or; eauto.
  - destruct HH as [Ha Hb]. apply wp_get. destruct (opBin_impl s f t1 t2 (v_wf _ _ I) Hd) as [D1 D2].
    apply two_calls with (a := t1) (b := t2) (k := fun n l r => nr <- up (Not r) ;; c <- up (And [l; nr]) ;; up (Not c)); auto.
    intros l r s1 V1 ul ur I1 X1 Dl Dr Al Ar.
    eapply wp_bind; [apply (wp_notB s1 V1 r ur I1 (built_refl _ _ _ Dr))|]. intros nr s2 V2 I2 X2 (-> & HB2).
    eapply wp_bind; [apply (wp_andB s2 V1 [l; nr] [ul; TNot ur] I2)|].
    { constructor; [|constructor; auto]. apply built_refl. eapply wext_Den; [exact X2|auto]. }
    intros c s3 V3 I3 X3 (-> & HB3). eapply wp_conseq; [apply (wp_notB s3 V1 c _ I3 HB3)|].
    intros g s4 V4 I4 X4 (-> & w & A' & B' & C & D). exists w. split; auto. eapply (aig_impl V1 t1 t2 ul ur); eauto.
  - destruct HH as [Ha Hb]. apply wp_get. destruct (opBin_equiv s f t1 t2 (v_wf _ _ I) Hd) as [D1 D2]. set (q := opBin f s) in *.
    apply two_calls with (a := t1) (b := t2) (k := fun n l r => nr <- up (Not r) ;;
             c <- up (And [l; nr]) ;; c1 <- up (Not c) ;;
             nl <- up (Not (fst q)) ;; d <- up (And [nl; snd q]) ;; d1 <- up (Not d) ;;
             up (And [c1; d1])); auto.
    intros l r s1 V1 ul ur I1 X1 Dl Dr Al Ar.
    eapply wp_bind; [apply (wp_notB s1 V1 r ur I1 (built_refl _ _ _ Dr))|]. intros nr s2 V2 I2 X2 (-> & HB2).
    eapply wp_bind; [apply (wp_andB s2 V1 [l; nr] [ul; TNot ur] I2)|].
    { constructor; [|constructor; auto]. apply built_refl. eapply wext_Den; [exact X2|auto]. }
    intros c s3 V3 I3 X3 (-> & HB3). eapply wp_bind; [apply (wp_notB s3 V1 c _ I3 HB3)|].
    intros c1 s4 V4 I4 X4 (-> & HB4).
    assert (X14 : wext s V s4 V1). { eapply wext_trans; [exact X1|]. eapply wext_trans; [exact X2|]. eapply wext_trans; [exact X3|exact X4]. }
    eapply wp_bind; [apply (wp_notB s4 V1 (fst q) t1 I4)|].
    { apply built_refl. eapply wext_Den; [exact X14|auto]. }
    intros nl s5 V5 I5 X5 (-> & HB5). eapply wp_bind; [apply (wp_andB s5 V1 [nl; snd q] [TNot t1; t2] I5)|].
    { constructor; auto. constructor; auto. apply built_refl. eapply wext_Den; [exact X5|]. eapply wext_Den; [exact X14|auto]. }
    intros d s6 V6 I6 X6 (-> & HB6). eapply wp_bind; [apply (wp_notB s6 V1 d _ I6 HB6)|].
    intros d1 s7 V7 I7 X7 (-> & HB7).
    eapply wp_conseq; [apply (wp_andB s7 V1 [c1; d1] [TNot (TAnd [ul; TNot ur]); TNot (TAnd [TNot t1; t2])] I7)|].
    { constructor; auto. eapply built_ext; [exact X7|]. eapply built_ext; [exact X6|]. eapply built_ext; [exact X5|]. auto. }
    intros g s8 V8 I8 X8 (-> & w & A' & B' & C & D). exists w. split; auto. eapply (aig_equiv V1 t1 t2 ul ur); eauto.
Qed.
Lemma AIG_free t : pbfree t = true -> AigP t.
Proof.
  induction t using tree_ind'; intros Hp; simpl in Hp; apply AIG_struct; auto; try discriminate.
  - rewrite forallb_forall in Hp. rewrite Forall_forall in *. auto.
  - rewrite forallb_forall in Hp. rewrite Forall_forall in *. auto.
  - apply andb_true_iff in Hp. destruct Hp. auto.
  - apply andb_true_iff in Hp. destruct Hp. auto.
Qed.
Lemma cnf_able w : is_cnf w = true -> aigable w = true /\ pbfree w = true.
Proof.
  assert (L : forall l, is_lit l = true -> aigable l = true /\ pbfree l = true) by (intros []; simpl; auto; discriminate).
  assert (F : forall l, flatOr l = true -> aigable l = true /\ pbfree l = true).
  { intros l H. destruct l; simpl in *; auto; try discriminate. rewrite forallb_forall in H. split; apply forallb_forall; intros x Hx; apply L; auto. }
  intros H. destruct w; simpl in *; try discriminate; auto.
  - rewrite forallb_forall in H. split; apply forallb_forall; intros x Hx; apply F; specialize (H x Hx); destruct x; auto.
  - apply (F (TOr ts)); auto.
Qed.
Lemma AIG_pbc k c rhs ls cs : encodable cf (TPBC k c rhs ls cs) -> AigP (TPBC k c rhs ls cs).
Proof.
  intros He. apply aig_wrap. intros s V f I Hd. unfold aigBody. rewrite (Den_sort _ _ _ Hd).
  assert (G : wp (fun n => x <- CNF n cf nf f ;; AIG n cf nf x) s V (aigPost (TPBC k c rhs ls cs))).
  { eapply wp_bind; [apply (CNF_ok cf nf _ s V f I Hd He)|]. intros x s1 V1 I1 X1 (w & Dw & Cw & A1 & A2 & _).
    destruct (cnf_able w Cw) as [Ga Gp]. eapply wp_conseq; [apply (AIG_free w Gp s1 V1 x I1 Dw)|].
    intros g s2 V2 I2 X2 (u & Du & [B1 B2 B3 B4]). destruct (B3 Gp) as [B5 B6]. exists u. split; auto. constructor; auto.
    - intros b Hb. rewrite B1; auto. destruct (eval b w) eqn:E; [symmetry; auto|].
      destruct (eval b (TPBC k c rhs ls cs)) eqn:E2; auto. rewrite <- E. apply A2; auto. apply X2; auto.
    - intros _ b Hb. apply A1. rewrite B5. auto.
    - discriminate. }
  destruct k; auto.
Qed.
Lemma AIG_ok t : encodable cf t -> AigP t.
Proof.
  induction t using tree_ind'; intros He; try (apply AIG_struct; auto; fail).
  - apply AIG_struct. apply encodable_and in He. rewrite Forall_forall in *. auto.
  - apply AIG_struct. apply encodable_or in He. rewrite Forall_forall in *. auto.
  - apply AIG_struct. destruct He. auto.
  - apply AIG_struct. destruct He. auto.
  - apply AIG_pbc; auto.
Qed.
End Aig.
