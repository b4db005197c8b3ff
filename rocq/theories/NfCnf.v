(** * Proofs about factorized normal forms *)
From Coq Require Import String Ascii List Bool ZArith NArith Lia.
From Verif Require Import Spec Factory FactoryProofs FactoryProofs2 FactoryProofs3 FactoryApi FactoryProps Assign NormalForm NfBase NfAssign NfEnc NfNnf.
Import ListNotations.
Local Open Scope N_scope.

(** CNF ([k] is SAnd) and DNF ([k] is SOr) at once *)
Definition dual (k : fsort) : Prop := k = SAnd \/ k = SOr.
Definition mk (k : fsort) (ts : list tree) : tree := match k with SAnd => TAnd ts | _ => TOr ts end.
Definition is_kf (k : fsort) : tree -> bool := match k with SAnd => is_cnf | _ => is_dnf end.
Definition flatK (k : fsort) : tree -> bool := match k with SAnd => flatOr | _ => flatAnd end.
Definition k_shape (k : fsort) : list tree -> tree -> Prop := match k with SAnd => and_shape | _ => or_shape end.

Lemma kf_cases k t : dual k -> is_kf k t = true -> flatK k t = true \/ exists ts, t = mk k ts /\ forallb (flatK k) ts = true.
Proof.
  intros [-> | ->]; destruct t; simpl; auto; try discriminate; intros H; right; exists ts; split; auto;
  rewrite forallb_forall in *; intros x Hx; specialize (H x Hx); destruct x; auto; discriminate.
Qed.
Lemma flatK_kf k t : dual k -> flatK k t = true -> is_kf k t = true.
Proof. intros [-> | ->]; [apply flatOr_cnf|apply flatAnd_dnf]. Qed.
Lemma flatK_sort k t s f : dual k -> flatK k t = true -> Den s f t -> fsort_eqb (srt f) k = false.
Proof. intros [-> | ->] H Hd; rewrite (Den_sort _ _ _ Hd); destruct t; auto; discriminate. Qed.
Lemma mk_sort k ts s f : dual k -> Den s f (mk k ts) -> fsort_eqb (srt f) k = true.
Proof. intros [-> | ->] Hd; rewrite (Den_sort _ _ _ Hd); auto. Qed.
Lemma opNary_mk k s f ts : dual k -> wf s -> Den s f (mk k ts) -> Forall2 (Den s) (opNary f s) ts.
Proof. intros [-> | ->]; [apply opNary_and|apply opNary_or]. Qed.

Definition narrow (u t : tree) : Prop := forall x, occurs x u -> occurs x t.
Lemma occurs_mk k x ts : dual k -> occurs x (mk k ts) <-> exists t, In t ts /\ occurs x t.
Proof. intros [-> | ->]; [apply occurs_and|apply occurs_or]. Qed.
Lemma wp_join k s V ops ts : dual k -> winv s V -> Forall2 (Den s) ops ts -> forallb (is_kf k) ts = true ->
  wp (fun _ => naryOp k ops) s V (fun g s' V' => V' = V /\ exists u, Den s' g u /\ is_kf k u = true /\ equiv u (mk k ts) /\ narrow u (mk k ts)).
Proof.
  intros [-> | ->] I HF Hk.
  - eapply wp_conseq; [apply rp_wp; [exact I|apply (rp_and ops ts); [apply I|auto]]|]. intros g s' V' _ _ (-> & u & Hu & He & Hs).
    split; auto. exists u. split; auto. split; [eapply and_shape_cnf; eauto|split; auto; red; eapply and_shape_narrow; eauto].
  - eapply wp_conseq; [apply rp_wp; [exact I|apply (rp_or ops ts); [apply I|auto]]|]. intros g s' V' _ _ (-> & u & Hu & He & Hs).
    split; auto. exists u. split; auto. split; [eapply or_shape_dnf; eauto|split; auto; red; eapply or_shape_narrow; eauto].
Qed.
Lemma wp_part k s V ops ts : dual k -> winv s V -> Forall2 (Den s) ops ts -> forallb (flatK k) ts = true ->
  wp (fun _ => naryOp (flipSort k) ops) s V (fun g s' V' => V' = V /\ exists u, Den s' g u /\ flatK k u = true /\ equiv u (mk (flipSort k) ts) /\ narrow u (mk (flipSort k) ts)).
Proof.
  intros [-> | ->] I HF Hk.
  - eapply wp_conseq; [apply rp_wp; [exact I|apply (rp_or ops ts); [apply I|auto]]|]. intros g s' V' _ _ (-> & u & Hu & He & Hs).
    split; auto. exists u. split; auto. split; [eapply or_shape_flat; eauto|split; auto; red; eapply or_shape_narrow; eauto].
  - eapply wp_conseq; [apply rp_wp; [exact I|apply (rp_and ops ts); [apply I|auto]]|]. intros g s' V' _ _ (-> & u & Hu & He & Hs).
    split; auto. exists u. split; auto. split; [eapply and_shape_flat; eauto|split; auto; red; eapply and_shape_narrow; eauto].
Qed.

Section Factor.
Context {St : Type} (hd : handler St).
(** the handler cancels at some event *)
Definition cancels : Prop := exists e h, fst (resume hd e h) = false.

(** a canceled list is canceled by its handler *)
Lemma wp_mapH {C} (g : nat -> formula -> HM St) (P : state -> formula -> C -> Prop) (Q : state -> (asg -> Prop) -> formula -> C -> Prop) :
  (forall s V s' V', wext s V s' V' -> forall a c, P s a c -> P s' a c) ->
  (forall s V s' V', wext s V s' V' -> forall a c, Q s V a c -> Q s' V' a c) ->
  forall l cs s V h,
  (forall a c, In a l -> In c cs -> forall s' V' h', winv s' V' -> wext s V s' V' -> P s' a c ->
     wp (fun n => g n a h') s' V' (fun r s2 V2 => match fst r with Some b => Q s2 V2 b c | None => cancels end)) ->
  winv s V -> Forall2 (P s) l cs ->
  wp (fun n => mapH (g n) l h) s V (fun r s' V' => match fst r with Some bs => Forall2 (Q s' V') bs cs | None => cancels end).
Proof.
  intros HP HQ l. induction l as [|a l IH]; intros cs s V h Hh I HF; inversion HF; subst.
  - apply wp_ret; simpl; auto.
  - simpl. eapply wp_bind; [apply (Hh a y); simpl; auto using wext_refl|]. intros [[b|] h1] s1 V1 I1 X1 Hb; simpl in *.
    + eapply wp_bind.
      * apply (IH l' s1 V1 h1); auto.
        -- intros a' c' Ha Hc s2 V2 h2 I2 X2 H'. apply Hh; simpl; auto. eapply wext_trans; eauto.
        -- eapply Forall2_impl; [|eassumption]. intros; eapply HP; eauto.
      * intros [[bs|] h2] s2 V2 I2 X2 Hbs; simpl in *; apply wp_ret; simpl; auto. constructor; auto. eapply HQ; eauto.
    + apply wp_ret; auto.
Qed.

Definition distPost k t1 t2 (r : option formula * St) (s' : state) (V' : asg -> Prop) : Prop :=
  match fst r with
  | Some g => exists u, Den s' g u /\ is_kf k u = true /\ equiv u (mk (flipSort k) [t1; t2]) /\ narrow u (mk (flipSort k) [t1; t2])
  | None => cancels
  end.

Lemma dist_base k t1 t2 f1 f2 s V h : dual k -> winv s V -> Den s f1 t1 -> Den s f2 t2 -> flatK k t1 = true -> flatK k t2 = true ->
  wp (fun n => distribute hd k n f1 f2 h) s V (distPost k t1 t2).
Proof.
  intros Hk I D1 D2 F1 F2. apply wp_S. cbn [distribute]. destruct (resume hd DistributionPerformed h) as [b h1] eqn:E.
  destruct b; cbn [negb]; [|apply wp_ret; auto; simpl; exists DistributionPerformed, h; rewrite E; auto].
  rewrite (flatK_sort k t1 s f1), (flatK_sort k t2 s f2); auto. cbn [orb].
  eapply wp_bind; [apply (wp_part k s V [f1; f2] [t1; t2]); simpl; auto; rewrite F1, F2; auto|].
  intros g s1 V1 I1 X1 (-> & u & Hu & Hf & He & Hr). destruct (resume hd FactorizationCreatedClause h1) as [b2 h2] eqn:E2.
  apply wp_ret; auto. destruct b2; simpl.
  - exists u. split; auto. split; auto. apply flatK_kf; auto.
  - exists FactorizationCreatedClause, h1. rewrite E2. auto.
Qed.

(** distribution over the operands of one side *)
Lemma mk_distr k ts t : dual k -> equiv (mk k (map (fun x => mk (flipSort k) [x; t]) ts)) (mk (flipSort k) [mk k ts; t]).
Proof.
  intros [-> | ->] b; simpl; rewrite ?orb_false_r, ?andb_true_r; induction ts; simpl; auto.
  - rewrite IHts, !orb_false_r. destruct (eval b a), (eval b t), (forallb (eval b) ts); auto.
  - rewrite IHts, !andb_true_r. destruct (eval b a), (eval b t), (existsb (eval b) ts); auto.
Qed.
Lemma mk_ext k : dual k -> forall ts us, Forall2 (fun t u => equiv u t) ts us -> equiv (mk k us) (mk k ts).
Proof.
  intros [-> | ->] ts us HF b; simpl; induction HF; simpl; auto; rewrite (H b), IHHF; auto.
Qed.
Lemma mk_swap k t1 t2 : dual k -> equiv (mk k [t1; t2]) (mk k [t2; t1]).
Proof. intros [-> | ->] b; simpl; destruct (eval b t1), (eval b t2); auto. Qed.
Lemma dual_flip k : dual k -> dual (flipSort k). Proof. intros [-> | ->]; [right|left]; auto. Qed.

Lemma dist_narrow k ts us t u : dual k -> Forall2 (fun x u => narrow u (mk (flipSort k) [x; t])) ts us -> narrow u (mk k us) -> narrow u (mk (flipSort k) [mk k ts; t]).
Proof.
  intros Hk HF Hu x Hx. apply Hu in Hx. apply occurs_mk in Hx; auto. destruct Hx as (w & Hw & Hx).
  apply occurs_mk; [apply dual_flip; auto|]. destruct (Forall2_in_r _ _ _ _ HF Hw) as (y & Hy & Hn). apply Hn in Hx.
  apply occurs_mk in Hx; [|apply dual_flip; auto]. destruct Hx as (z & [<-|[<-|[]]] & Hz).
  - exists (mk k ts). split; [left; auto|]. apply occurs_mk; auto. eauto.
  - exists t. split; [right; left; auto|auto].
Qed.
Lemma dist_side k (rec : nat -> formula -> HM St) ts t f' s V h : dual k -> winv s V -> Den s f' (mk k ts) ->
  (forall op x s' V' h', In x ts -> winv s' V' -> wext s V s' V' -> Den s' op x ->
     wp (fun n => rec n op h') s' V' (distPost k x t)) ->
  wp (fun n => ops <- get (opNary f') ;; r <- mapH (rec n) ops h ;;
               match fst r with None => ret (None, snd r) | Some nops => g <- naryOp k nops ;; ret (Some g, snd r) end) s V
     (distPost k (mk k ts) t).
Proof.
  intros Hk I D HR. apply wp_get. eapply wp_bind.
  - apply (wp_mapH rec Den (fun s V g x => exists u, Den s g u /\ is_kf k u = true /\ equiv u (mk (flipSort k) [x; t]) /\ narrow u (mk (flipSort k) [x; t]))) with (cs := ts).
    + intros s1 V1 s2 V2 X a c HD. eapply wext_Den; eauto.
    + intros s1 V1 s2 V2 X a c (u & Hu & R). exists u. split; auto. eapply wext_Den; eauto.
    + intros a c Ha Hc s' V' h' I' X' HD. apply HR; auto.
    + auto.
    + apply (opNary_mk k); auto. apply I.
  - intros [[nops|] h1] s1 V1 I1 X1 HF; simpl in *; [|apply wp_ret; auto].
    assert (G : exists us, Forall2 (Den s1) nops us /\ forallb (is_kf k) us = true /\ Forall2 (fun x u => equiv u (mk (flipSort k) [x; t])) ts us /\ Forall2 (fun x u => narrow u (mk (flipSort k) [x; t])) ts us).
    { clear -HF. induction HF; [exists []; auto|]. destruct H as (u & H1 & H2 & H3 & H3'), IHHF as (us & H4 & H5 & H6 & H6'). exists (u :: us).
      simpl. rewrite H2, H5. auto 7. }
    destruct G as (us & G1 & G2 & G3 & G4).
    eapply wp_bind; [apply (wp_join k s1 V1 nops us); auto|]. intros g s2 V2 I2 X2 (-> & u & Hu & Hk' & He & Hr).
    apply wp_ret; auto. simpl. exists u. split; auto. split; auto. split; [|eapply dist_narrow; eauto]. intros b. rewrite (He b).
    rewrite <- (mk_distr k ts t Hk b). apply (mk_ext k Hk). clear -G3. induction G3; simpl; constructor; auto.
Qed.

Lemma dist_one k t1 ts f1 f2 s V h : dual k -> winv s V -> Den s f1 t1 -> Den s f2 (mk k ts) -> flatK k t1 = true -> forallb (flatK k) ts = true ->
  wp (fun n => distribute hd k n f1 f2 h) s V (distPost k t1 (mk k ts)).
Proof.
  intros Hk I D1 D2 F1 F2. apply wp_S. cbn [distribute]. destruct (resume hd DistributionPerformed h) as [b h1] eqn:E.
  destruct b; cbn [negb]; [|apply wp_ret; auto; simpl; exists DistributionPerformed, h; rewrite E; auto].
  rewrite (flatK_sort k t1 s f1), (mk_sort k ts s f2); auto. cbn [orb].
  eapply wp_conseq; [apply (dist_side k (fun n op => distribute hd k n op f1) ts t1 f2 s V h1 Hk I D2)|].
  - intros op x s' V' h' Hx I' X' Dx. rewrite forallb_forall in F2. apply dist_base; auto. eapply wext_Den; eauto.
  - intros [[g|] h2] s' V' _ _; unfold distPost; simpl; auto. intros (u & Hu & Hf & He & Hr). exists u. split; auto. split; auto. split.
    + intros x. rewrite (He x). apply mk_swap. apply dual_flip; auto.
    + intros x Hx. apply Hr in Hx. apply occurs_mk in Hx; [|apply dual_flip; auto]. apply occurs_mk; [apply dual_flip; auto|].
      destruct Hx as (z & [<-|[<-|[]]] & Hz); [eexists; split; [right; left; reflexivity|auto]|eexists; split; [left; reflexivity|auto]].
Qed.
Lemma dist_ok k t1 t2 f1 f2 s V h : dual k -> winv s V -> Den s f1 t1 -> Den s f2 t2 -> is_kf k t1 = true -> is_kf k t2 = true ->
  wp (fun n => distribute hd k n f1 f2 h) s V (distPost k t1 t2).
Proof.
  intros Hk I D1 D2 K1 K2. destruct (kf_cases k t1 Hk K1) as [F1|(ts1 & -> & F1)].
  - destruct (kf_cases k t2 Hk K2) as [F2|(ts2 & -> & F2)].
    + apply dist_base; auto.
    + apply dist_one; auto.
  - apply wp_S. cbn [distribute]. destruct (resume hd DistributionPerformed h) as [b h1] eqn:E.
    destruct b; cbn [negb]; [|apply wp_ret; auto; simpl; exists DistributionPerformed, h; rewrite E; auto].
    rewrite (mk_sort k ts1 s f1); auto. cbn [orb].
    apply (dist_side k (fun n op => distribute hd k n op f2) ts1 t2 f1 s V h1 Hk I D1).
    intros op x s' V' h' Hx I' X' Dx. rewrite forallb_forall in F1. specialize (F1 x Hx).
    pose proof (wext_Den _ _ _ _ _ _ X' D2) as D2'.
    destruct (kf_cases k t2 Hk K2) as [F2|(ts2 & -> & F2)]; [apply dist_base|apply dist_one]; auto.
Qed.
Lemma mk_cons2 k t1 t2 ts u : dual k -> equiv u (mk k [t1; t2]) -> equiv (mk k (u :: ts)) (mk k (t1 :: t2 :: ts)).
Proof.
  intros [-> | ->] He b; specialize (He b); simpl in *; rewrite He; destruct (eval b t1), (eval b t2); auto.
Qed.
Lemma distAll_ok k : dual k -> forall ts t l acc s V h, winv s V -> Den s acc t -> Forall2 (Den s) l ts -> is_kf k t = true -> forallb (is_kf k) ts = true ->
  wp (fun n => distributeAll hd k n acc l h) s V (fun r s' V' => match fst r with
    | Some g => exists u, Den s' g u /\ is_kf k u = true /\ equiv u (mk (flipSort k) (t :: ts)) /\ narrow u (mk (flipSort k) (t :: ts)) | None => cancels end).
Proof.
  intros Hk. induction ts as [|t2 ts IH]; intros t l acc s V h I D HF K1 K2; inversion HF; subst.
  - apply wp_ret; auto. simpl. exists t. split; auto. split; auto. split.
    + destruct Hk as [-> | ->]; intros b; simpl; rewrite ?orb_false_r, ?andb_true_r; auto.
    + intros x Hx. apply occurs_mk; [apply dual_flip; auto|]. exists t. simpl; auto.
  - cbn [distributeAll]. simpl in K2. apply andb_true_iff in K2. destruct K2 as [K2 K3].
    eapply wp_bind; [apply (dist_ok k t t2); auto|]. intros [[g|] h1] s1 V1 I1 X1; unfold distPost; simpl; [|intros; apply wp_ret; auto].
    intros (u & Hu & Hf & He & Hr). eapply wp_conseq; [apply (IH u); auto; eapply wext_Dens; eauto|].
    intros [[g2|] h2] s2 V2 _ _; simpl; auto. intros (w & Hw & Hwk & Hwe & Hwr). exists w. split; auto. split; auto. split.
    + intros b. rewrite (Hwe b). apply mk_cons2; auto. apply dual_flip; auto.
    + intros nm Hx. apply Hwr in Hx. apply occurs_mk in Hx; [|apply dual_flip; auto]. apply occurs_mk; [apply dual_flip; auto|].
      destruct Hx as (z & [<-|Hz] & Hx); [|exists z; simpl; auto]. apply Hr in Hx. apply occurs_mk in Hx; [|apply dual_flip; auto].
      destruct Hx as (z & [<-|[<-|[]]] & Hz); eexists; split; [left; reflexivity|auto|right; left; reflexivity|auto].
Qed.

(** ** The recursions *)
Variable cf : encConfig.
Definition kfPost (k : fsort) (t : tree) (r : option formula * St) (s' : state) (V' : asg -> Prop) : Prop :=
  match fst r with
  | Some g => exists u, Den s' g u /\ is_kf k u = true /\ repr V' t u
  | None => cancels
  end.
Definition kfRec (k : fsort) : nat -> formula -> HM St :=
  match k with SAnd => fun n f => cnfRec hd n cf f | _ => fun n f => dnfRec hd n cf f end.
Definition kTrans (k : fsort) : tsort := match k with SAnd => TransCNF | _ => TransDNF end.
Definition RecK (k : fsort) (t : tree) : Prop := forall s V f h, winv s V -> Den s f t ->
  wp (fun n => kfRec k n f h) s V (kfPost k t).

(** result cached for [f] *)
Definition store (k : fsort) (f : formula) (r : option formula * St) : M (option formula * St) :=
  match fst r with
  | Some g => _ <- put (setTrans (kTrans k) f g) ;; ret r
  | None => ret r
  end.
Lemma store_ok k t s V f r : dual k -> winv s V -> Den s f t -> kfPost k t r s V -> wp (fun _ => store k f r) s V (kfPost k t).
Proof.
  intros Hk I D HP. unfold store. destruct r as [[g|] h]; simpl in *; [|apply wp_ret; auto].
  destruct HP as (u & Hu & Hf & Hr).
  destruct (winv_setTrans s V (kTrans k) f g t u I D Hu) as [I2 X2].
  { destruct Hk as [-> | ->]; simpl; auto. }
  eapply wp_put; [exact X2|]. apply wp_ret; auto. simpl. exists u. split; auto. eapply wext_Den; eauto.
Qed.
Lemma lookup_ok k t s V f (m : nat -> M (option formula * St)) h : dual k -> winv s V -> Den s f t ->
  wp m s V (kfPost k t) ->
  wp (fun n => c <- get (lookupTrans (kTrans k) f) ;;
     match c with Some g => ret (Some g, h) | None => r <- m n ;; store k f r end) s V (kfPost k t).
Proof.
  intros Hk I D Hm. apply wp_get. unfold lookupTrans. destruct (transC s (kTrans k) f) as [g|] eqn:E.
  - destruct (k_trans _ _ (v_cache _ _ I) _ _ _ E) as (t' & u & Ht & Hu & Hr).
    assert (t' = t) as -> by (eapply Den_fun; eauto). apply wp_ret; auto. simpl. exists u. split; auto.
    destruct Hk as [-> | ->]; simpl in Hr; tauto.
  - eapply wp_bind; [apply Hm|]. intros r s1 V1 I1 X1 HP. apply (store_ok k t); auto. eapply wext_Den; eauto.
Qed.

Lemma kf_atom k t : dual k -> match t with TTrue | TFalse | TLit _ => True | _ => False end -> RecK k t.
Proof.
  intros Hk Ht s V f h I D.
  assert (G : wp (fun _ : nat => ret (Some f, h)) s V (kfPost k t)).
  { apply wp_ret; auto. simpl. exists t. split; auto. split; [destruct Hk as [-> | ->]; destruct t; auto; contradiction|apply repr_refl]. }
  unfold kfRec. destruct Hk as [-> | ->]; apply wp_S; cbn [cnfRec dnfRec]; rewrite (Den_sort _ _ _ D); destruct t; try contradiction; exact G.
Qed.

Lemma forall2_repr_mk k V ts us : dual k -> Forall2 (repr V) ts us -> repr V (mk k ts) (mk k us).
Proof. intros [-> | ->]; [apply repr_and|apply repr_or]. Qed.

Lemma kf_ops k ts s V f h : dual k -> winv s V -> Forall2 (Den s) (opNary f s) ts -> Forall (RecK k) ts ->
  wp (fun n => mapH (kfRec k n) (opNary f s) h) s V (fun r s' V' => match fst r with
     | Some nops => exists us, Forall2 (Den s') nops us /\ forallb (is_kf k) us = true /\ Forall2 (repr V') ts us
     | None => cancels end).
Proof.
  intros Hk I HF HR. eapply wp_conseq.
  - apply (wp_mapH (kfRec k) Den (fun s V g t => exists u, Den s g u /\ is_kf k u = true /\ repr V t u)) with (cs := ts).
    + intros s1 V1 s2 V2 X a c HD. eapply wext_Den; eauto.
    + intros s1 V1 s2 V2 X a c (u & Hu & Hk' & R). exists u. split; [eapply wext_Den; eauto|]. split; auto. eapply wext_repr; eauto.
    + intros a c Ha Hc s' V' h' I' X' HD. rewrite Forall_forall in HR. apply (HR c Hc s' V' a h'); auto.
    + auto.
    + auto.
  - intros [[nops|] h1] s1 V1 _ _; simpl; auto. intros G. clear -G. induction G; [exists []; auto|].
    destruct H as (u & H1 & H2 & H3), IHG as (us & H4 & H5 & H6). exists (u :: us). simpl. rewrite H2, H5. auto.
Qed.

(** operands joined by [k] itself *)
Lemma kf_join k ts s V f h : dual k -> winv s V -> Den s f (mk k ts) -> Forall (RecK k) ts ->
  wp (fun n => ops <- get (opNary f) ;; q <- mapH (kfRec k n) ops h ;;
     match fst q with None => ret (None, snd q) | Some nops => g <- naryOp k nops ;; ret (Some g, snd q) end) s V (kfPost k (mk k ts)).
Proof.
  intros Hk I D HR. apply wp_get. eapply wp_bind; [apply (kf_ops k ts); auto; apply (opNary_mk k); auto; apply I|].
  intros [[nops|] h1] s1 V1 I1 X1; simpl; [|intros; apply wp_ret; auto]. intros (us & H1 & H2 & H3).
  eapply wp_bind; [apply (wp_join k s1 V1 nops us); auto|]. intros g s2 V2 I2 X2 (-> & u & Hu & Hf & He & Hr).
  apply wp_ret; auto. simpl. exists u. split; auto. split; auto. eapply repr_r; [exact He|exact Hr|]. apply forall2_repr_mk; auto.
Qed.
(** operands joined by the other operator: distribution *)
Lemma kf_dist k ts s V f h : dual k -> winv s V -> ts <> [] -> Den s f (mk (flipSort k) ts) -> Forall (RecK k) ts ->
  wp (fun n => ops <- get (opNary f) ;; q <- mapH (kfRec k n) ops h ;;
     match fst q with None => ret (None, snd q) | Some [] => fail | Some (x :: r) => distributeAll hd k n x r (snd q) end) s V (kfPost k (mk (flipSort k) ts)).
Proof.
  intros Hk I Hne D HR. apply wp_get. eapply wp_bind; [apply (kf_ops k ts); auto; apply (opNary_mk (flipSort k)); auto using dual_flip; apply I|].
  intros [[nops|] h1] s1 V1 I1 X1; simpl; [|intros; apply wp_ret; auto]. intros (us & H1 & H2 & H3).
  destruct H1 as [|x u r us' D1 DF]; [inversion H3; subst; congruence|].
  simpl in H2. apply andb_true_iff in H2. destruct H2 as [K1 K2].
  eapply wp_conseq; [apply (distAll_ok k Hk us' u); auto|]. intros [[g|] h2] s2 V2 I2 X2; unfold kfPost; simpl; auto.
  intros (w & Hw & Hf & He & Hr). exists w. split; auto. split; auto. eapply repr_r; [exact He|exact Hr|]. apply forall2_repr_mk; auto using dual_flip.
  eapply Forall2_impl; [|exact H3]. intros; eapply wext_repr; eauto.
Qed.

Lemma or_nonempty s f ts : wf s -> Den s f (TOr ts) -> ts <> [].
Proof.
  intros [W T] D. apply Den_or_inv in D. destruct D as (l & Hn & HF). pose proof (w_ok s W _ _ Hn) as Ok. simpl in Ok.
  destruct Ok as (_ & Hl & _). destruct HF; [simpl in Hl; lia|discriminate].
Qed.
Lemma and_nonempty s f ts : wf s -> Den s f (TAnd ts) -> ts <> [].
Proof.
  intros [W T] D. apply Den_and_inv in D. destruct D as (l & Hn & HF). pose proof (w_ok s W _ _ Hn) as Ok. simpl in Ok.
  destruct Ok as (_ & Hl & _). destruct HF; [simpl in Hl; lia|discriminate].
Qed.

Lemma kf_nary k t ts : dual k -> t = TAnd ts \/ t = TOr ts -> Forall (RecK k) ts -> RecK k t.
Proof.
  intros Hk Ht HR s V f h I D. unfold kfRec.
  destruct Hk as [-> | ->], Ht as [-> | ->]; apply wp_S; cbn [cnfRec dnfRec]; rewrite (Den_sort _ _ _ D).
  - apply (lookup_ok SAnd (TAnd ts) s V f (fun n => ops <- get (opNary f) ;; q <- mapH (cnfRec hd n cf) ops h ;;
     match fst q with None => ret (None, snd q) | Some nops => g <- up (And nops) ;; ret (Some g, snd q) end) h (or_introl eq_refl) I D).
    apply (kf_join SAnd ts s V f h (or_introl eq_refl) I D HR).
  - apply (lookup_ok SAnd (TOr ts) s V f (fun n => ops <- get (opNary f) ;; q <- mapH (cnfRec hd n cf) ops h ;;
     match fst q with None => ret (None, snd q) | Some [] => fail | Some (x :: r) => distributeAll hd SAnd n x r (snd q) end) h (or_introl eq_refl) I D).
    apply (kf_dist SAnd ts s V f h (or_introl eq_refl) I); auto. eapply or_nonempty; eauto. apply I.
  - apply (lookup_ok SOr (TAnd ts) s V f (fun n => ops <- get (opNary f) ;; q <- mapH (dnfRec hd n cf) ops h ;;
     match fst q with None => ret (None, snd q) | Some [] => fail | Some (x :: r) => distributeAll hd SOr n x r (snd q) end) h (or_intror eq_refl) I D).
    apply (kf_dist SOr ts s V f h (or_intror eq_refl) I); auto. eapply and_nonempty; eauto. apply I.
  - apply (lookup_ok SOr (TOr ts) s V f (fun n => ops <- get (opNary f) ;; q <- mapH (dnfRec hd n cf) ops h ;;
     match fst q with None => ret (None, snd q) | Some nops => g <- up (Or nops) ;; ret (Some g, snd q) end) h (or_intror eq_refl) I D).
    apply (kf_join SOr ts s V f h (or_intror eq_refl) I D HR).
Qed.

Lemma kf_nnf k t : dual k -> is_nnf t = true -> RecK k t.
Proof.
  intros Hk. induction t using tree_ind'; simpl; intros Hn; try discriminate; try (apply kf_atom; auto; exact I).
  - apply (kf_nary k _ ts); auto. rewrite Forall_forall in *. rewrite forallb_forall in Hn. auto.
  - apply (kf_nary k _ ts); auto. rewrite Forall_forall in *. rewrite forallb_forall in Hn. auto.
Qed.
(** transformation of the negation normal form *)
Lemma kf_via_nnf k t s V f h : dual k -> winv s V -> Den s f t -> encodable cf t ->
  wp (fun n => g <- NNF n cf f ;; kfRec k n g h) s V (kfPost k t).
Proof.
  intros Hk I D He. eapply wp_bind; [apply (NNF_ok cf t); auto|]. intros g s1 V1 I1 X1 (u & Hu & Hn & Hr & _).
  eapply wp_conseq; [apply (kf_nnf k u Hk Hn); eauto|]. intros [[g2|] h2] s2 V2 I2 X2; unfold kfPost; simpl; auto.
  intros (w & Hw & Hf & Hr2). exists w. split; auto. split; auto. apply (repr_trans V2 t u w); auto.
  - eapply wext_repr; eauto.
  - intros _. apply is_nnf_pbfree; auto.
Qed.

Lemma kf_ok k t : dual k -> encodable cf t -> RecK k t.
Proof.
  intros Hk. induction t using tree_ind'; intros He; try (apply kf_atom; auto; exact I).
  2: { apply (kf_nary k _ ts); auto. apply encodable_and in He. rewrite Forall_forall in *. auto. }
  2: { apply (kf_nary k _ ts); auto. apply encodable_or in He. rewrite Forall_forall in *. auto. }
  1,2,3: intros s V f h I D; pose proof (kf_via_nnf k _ s V f h Hk I D He) as G; pose proof (Den_sort _ _ _ D) as So; simpl in So;
    destruct Hk as [-> | ->]; cbn [kfRec] in *; apply wp_S; cbn [cnfRec dnfRec]; rewrite So;
    [exact (lookup_ok SAnd _ s V f _ h (or_introl eq_refl) I D G)|exact (lookup_ok SOr _ s V f _ h (or_intror eq_refl) I D G)].
  intros s V f h I D. pose proof (Den_sort _ _ _ D) as So. simpl in So. destruct Hk as [-> | ->]; cbn [kfRec].
  - assert (G : wp (fun n => g <- NNF n cf f ;; ret (Some g, h)) s V (kfPost SAnd (TPBC k0 c r ls cs))).
    { eapply wp_bind; [apply (NNF_ok cf _ s V f I D He)|]. intros g s1 V1 I1 X1 (u & Hu & Hn & Hr & Hs). apply wp_ret; auto.
      simpl. exists u. split; auto. split; auto. apply Hs; auto. }
    apply wp_S. cbn [cnfRec]. destruct k0; rewrite So; exact (lookup_ok SAnd _ s V f _ h (or_introl eq_refl) I D G).
  - pose proof (kf_via_nnf SOr _ s V f h (or_intror eq_refl) I D He) as G. cbn [kfRec] in G.
    apply wp_S. cbn [dnfRec]. destruct k0; rewrite So; exact (lookup_ok SOr _ s V f _ h (or_intror eq_refl) I D G).
Qed.
End Factor.

Lemma nop_cancels : ~ cancels nopHandler.
Proof. intros (e & h & H). discriminate. Qed.

Definition cnfPost (k : fsort) (t : tree) (g : formula) (s' : state) (V' : asg -> Prop) : Prop :=
  exists u, Den s' g u /\ is_kf k u = true /\ repr V' t u.
Lemma factorizedCNF_ok cf t s V f : winv s V -> Den s f t -> encodable cf t ->
  wp (fun n => factorizedCNF n cf f) s V (cnfPost SAnd t).
Proof.
  intros I D He. unfold factorizedCNF. eapply wp_bind; [apply (kf_ok nopHandler cf SAnd t (or_introl eq_refl) He s V f tt I D)|].
  intros [[g|] h] s1 V1 I1 X1 HP; [|destruct (nop_cancels HP)]. apply wp_ret; auto.
Qed.
Lemma factorizedDNF_ok cf t s V f : winv s V -> Den s f t -> encodable cf t ->
  wp (fun n => factorizedDNF n cf f) s V (cnfPost SOr t).
Proof.
  intros I D He. unfold factorizedDNF. eapply wp_bind; [apply (kf_ok nopHandler cf SOr t (or_intror eq_refl) He s V f tt I D)|].
  intros [[g|] h] s1 V1 I1 X1 HP; [|destruct (nop_cancels HP)]. apply wp_ret; auto.
Qed.
Lemma factorizedCNFWithHandler_ok {St} (hd : handler St) cf t s V f h : winv s V -> Den s f t -> encodable cf t ->
  wp (fun n => factorizedCNFWithHandler hd n cf f h) s V (kfPost hd SAnd t).
Proof.
  intros I D He. unfold factorizedCNFWithHandler. destruct (resume hd FactorizationStarted h) as [b h1] eqn:E. destruct b.
  - apply (kf_ok hd cf SAnd t (or_introl eq_refl) He s V f h1 I D).
  - apply wp_ret; auto. simpl. exists FactorizationStarted, h. rewrite E. auto.
Qed.
Lemma factorizedDNFWithHandler_ok {St} (hd : handler St) cf t s V f h : winv s V -> Den s f t -> encodable cf t ->
  wp (fun n => factorizedDNFWithHandler hd n cf f h) s V (kfPost hd SOr t).
Proof.
  intros I D He. unfold factorizedDNFWithHandler. destruct (resume hd FactorizationStarted h) as [b h1] eqn:E. destruct b.
  - apply (kf_ok hd cf SOr t (or_intror eq_refl) He s V f h1 I D).
  - apply wp_ret; auto. simpl. exists FactorizationStarted, h. rewrite E. auto.
Qed.

(** ** The DNF predicate *)
Lemma onlyLits_ok s ops ts : Forall2 (Den s) ops ts -> forallb (fun op => fsort_eqb (srt op) SLit) ops = forallb is_lit ts.
Proof. induction 1; simpl; auto. rewrite IHForall2, (Den_sort _ _ _ H). destruct y; auto. destruct cc; auto. Qed.
Lemma testTerm_ok s f t : wf s -> Den s f t -> testTerm true f s = flatAnd t.
Proof.
  intros Hw D. unfold testTerm. rewrite (Den_sort _ _ _ D). destruct t; simpl; auto.
  - apply (onlyLits_ok s). apply opNary_and; auto.
  - destruct cc; auto.
Qed.
