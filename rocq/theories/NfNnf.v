(** * Proofs about negation normal form *)
From Coq Require Import String Ascii List Bool ZArith NArith Lia.
From Verif Require Import Spec Factory FactoryProofs FactoryProofs2 FactoryProofs3 FactoryApi FactoryProps Assign NormalForm NfBase NfAssign NfEnc.
Import ListNotations.
Local Open Scope N_scope.

(** ** Shapes *)
Definition closedA (P : tree -> bool) : Prop := P TTrue = true /\ P TFalse = true /\ forall ts, P (TAnd ts) = forallb P ts.
Definition closedO (P : tree -> bool) : Prop := P TTrue = true /\ P TFalse = true /\ forall ts, P (TOr ts) = forallb P ts.
Lemma and_shape_closed P ts u : closedA P -> and_shape ts u -> forallb P ts = true -> P u = true.
Proof.
  intros (H1 & H2 & H3) Hs Hf. rewrite forallb_forall in Hf.
  assert (Hin : forall w, In w (flatA ts) -> P w = true).
  { intros w Hw. unfold flatA in Hw. apply in_flat_map in Hw. destruct Hw as (t & Ht & Hw). specialize (Hf t Ht).
    destruct t; try (destruct Hw as [<-|[]]; auto). rewrite H3 in Hf. rewrite forallb_forall in Hf. auto. }
  destruct Hs as [->|[->|[[Hi _]|(us & -> & Hi & _)]]]; auto. rewrite H3. apply forallb_forall. auto.
Qed.
Lemma or_shape_closed P ts u : closedO P -> or_shape ts u -> forallb P ts = true -> P u = true.
Proof.
  intros (H1 & H2 & H3) Hs Hf. rewrite forallb_forall in Hf.
  assert (Hin : forall w, In w (flatO ts) -> P w = true).
  { intros w Hw. unfold flatO in Hw. apply in_flat_map in Hw. destruct Hw as (t & Ht & Hw). specialize (Hf t Ht).
    destruct t; try (destruct Hw as [<-|[]]; auto). rewrite H3 in Hf. rewrite forallb_forall in Hf. auto. }
  destruct Hs as [->|[->|[[Hi _]|(us & -> & Hi & _)]]]; auto. rewrite H3. apply forallb_forall. auto.
Qed.
Lemma nnf_A : closedA is_nnf. Proof. repeat split. Qed.
Lemma nnf_O : closedO is_nnf. Proof. repeat split. Qed.
Lemma aig_A : closedA is_aig. Proof. repeat split. Qed.
Lemma pbfree_A : closedA pbfree. Proof. repeat split. Qed.
Lemma pbfree_O : closedO pbfree. Proof. repeat split. Qed.
Lemma is_nnf_pbfree t : is_nnf t = true -> pbfree t = true.
Proof.
  induction t using tree_ind'; simpl; auto; try discriminate; rewrite !forallb_forall; rewrite Forall_forall in H; auto.
Qed.

(** ** Representation *)
Lemma repr_l V t t' u : (forall b, eval b t = eval b t') -> pbfree t = pbfree t' -> (forall x, occurs x t -> occurs x t') -> repr V t u -> repr V t' u.
Proof.
  intros H Hp Ho (H1 & H2 & H3). split; [|split].
  - intros b Hb. rewrite <- H; auto.
  - intros b HV Hb. apply H2; auto. rewrite H; auto.
  - intros Hf. destruct H3 as [H3 H4]; [congruence|]. split; auto. intros b. rewrite <- H. apply H3.
Qed.
Lemma repr_r V t u u' : equiv u' u -> (forall x, occurs x u' -> occurs x u) -> repr V t u -> repr V t u'.
Proof.
  intros H Ho (H1 & H2 & H3). split; [|split].
  - intros b Hb. rewrite H in Hb. auto.
  - intros b HV Hb. rewrite H. auto.
  - intros Hf. destruct H3 as [H3 H4]; auto. split; auto. intros b. rewrite H. apply H3; auto.
Qed.
Lemma repr_trans V t u w : repr V t u -> repr V u w -> (pbfree t = true -> pbfree u = true) -> repr V t w.
Proof.
  intros (H1 & H2 & H3) (H4 & H5 & H6) Hp. split; [auto|split; [auto|]]. intros Hf. destruct (H3 Hf) as [H7 H8]. destruct (H6 (Hp Hf)) as [H9 H10].
  split; auto. intros b. rewrite H7, H9. reflexivity.
Qed.
Lemma repr_occurs V ts us : Forall2 (repr V) ts us -> forallb pbfree ts = true -> forall x u, In u us -> occurs x u -> exists t, In t ts /\ occurs x t.
Proof.
  intros H. induction H; simpl; [intros _ x u []|]. intros Hf z u Hu Ho. apply andb_true_iff in Hf. destruct Hf as [Hf1 Hf2].
  destruct Hu as [<-|Hu]; [exists x; split; auto; apply H; auto|]. destruct (IHForall2 Hf2 z u Hu Ho) as (t & Ht & Hz). eauto.
Qed.
Lemma repr_and V ts us : Forall2 (repr V) ts us -> repr V (TAnd ts) (TAnd us).
Proof.
  intros H. split; [|split].
  - intros b Hb. simpl in *. induction H; simpl in *; auto. apply andb_true_iff in Hb. destruct Hb as [H1 H2].
    apply andb_true_iff. split; auto. apply H; auto.
  - intros b HV Hb. simpl in *. induction H; simpl in *; auto. apply andb_true_iff in Hb. destruct Hb as [H1 H2].
    apply andb_true_iff. split; auto. apply H; auto.
  - intros Hf. split.
    + intros b. simpl in *. induction H; simpl in *; auto. apply andb_true_iff in Hf. destruct Hf as [H1 H2].
      rewrite IHForall2; auto. f_equal. apply H; auto.
    + intros x. rewrite !occurs_and. intros (u & Hu & Ho). eapply repr_occurs; eauto.
Qed.
Lemma repr_or V ts us : Forall2 (repr V) ts us -> repr V (TOr ts) (TOr us).
Proof.
  intros H. split; [|split].
  - intros b Hb. simpl in *. induction H; simpl in *; auto. apply orb_true_iff in Hb. apply orb_true_iff.
    destruct Hb; auto. left. apply H; auto.
  - intros b HV Hb. simpl in *. induction H; simpl in *; auto. apply orb_true_iff in Hb. apply orb_true_iff.
    destruct Hb; auto. left. apply H; auto.
  - intros Hf. split.
    + intros b. simpl in *. induction H; simpl in *; auto. apply andb_true_iff in Hf. destruct Hf as [H1 H2].
      rewrite IHForall2; auto. f_equal. apply H; auto.
    + intros x. rewrite !occurs_or. intros (u & Hu & Ho). eapply repr_occurs; eauto.
Qed.
Definition polt (pol : bool) (t : tree) : tree := if pol then t else TNot t.
Lemma occurs_map_not x ts : occurs x (TAnd (map TNot ts)) -> occurs x (TAnd ts).
Proof. rewrite !occurs_and. intros (t & Ht & Ho). apply in_map_iff in Ht. destruct Ht as (u & <- & Hu). exists u. auto. Qed.
Lemma and_shape_narrow us u : and_shape us u -> forall x, occurs x u -> occurs x (TAnd us).
Proof. intros H x Hx. apply occurs_and. eapply and_shape_occurs; eauto. Qed.
Lemma or_shape_narrow us u : or_shape us u -> forall x, occurs x u -> occurs x (TOr us).
Proof. intros H x Hx. apply occurs_or. eapply or_shape_occurs; eauto. Qed.

(** ** CNF under conjunction and disjunction *)
Lemma and_shape_cnf ts u : and_shape ts u -> forallb is_cnf ts = true -> is_cnf u = true.
Proof.
  intros Hs Hf. rewrite forallb_forall in Hf.
  assert (Hin : forall w, In w (flatA ts) -> innerTA w = true -> is_clause w = true).
  { intros w Hw Hi. unfold flatA in Hw. apply in_flat_map in Hw. destruct Hw as (t & Ht & Hw). specialize (Hf t Ht).
    destruct t; try discriminate; try (destruct Hw as [<-|[]]; auto; discriminate). simpl in Hf. rewrite forallb_forall in Hf. auto. }
  destruct Hs as [->|[->|[[Hi Hj]|(us & -> & Hi & _ & Hj)]]]; auto.
  - specialize (Hin u Hi Hj). destruct u; try discriminate; auto.
  - simpl. apply forallb_forall. rewrite forallb_forall in Hj. auto.
Qed.
Lemma or_shape_dnf ts u : or_shape ts u -> forallb is_dnf ts = true -> is_dnf u = true.
Proof.
  intros Hs Hf. rewrite forallb_forall in Hf.
  assert (Hin : forall w, In w (flatO ts) -> innerTO w = true -> is_term w = true).
  { intros w Hw Hi. unfold flatO in Hw. apply in_flat_map in Hw. destruct Hw as (t & Ht & Hw). specialize (Hf t Ht).
    destruct t; try discriminate; try (destruct Hw as [<-|[]]; auto; discriminate). simpl in Hf. rewrite forallb_forall in Hf. auto. }
  destruct Hs as [->|[->|[[Hi Hj]|(us & -> & Hi & _ & Hj)]]]; auto.
  - specialize (Hin u Hi Hj). destruct u; try discriminate; auto.
  - simpl. apply forallb_forall. rewrite forallb_forall in Hj. auto.
Qed.
(** constant, literal or flat disjunction / conjunction of literals *)
Definition flatAnd (t : tree) : bool := match t with TFalse | TTrue | TLit _ => true | TAnd ts => forallb is_lit ts | _ => false end.
Lemma or_shape_flat ts u : or_shape ts u -> forallb flatOr ts = true -> flatOr u = true.
Proof.
  intros Hs Hf. rewrite forallb_forall in Hf.
  assert (Hin : forall w, In w (flatO ts) -> innerTO w = true -> is_lit w = true).
  { intros w Hw Hi. unfold flatO in Hw. apply in_flat_map in Hw. destruct Hw as (t & Ht & Hw). specialize (Hf t Ht).
    destruct t; try discriminate; try (destruct Hw as [<-|[]]; auto; discriminate). simpl in Hf. rewrite forallb_forall in Hf. auto. }
  destruct Hs as [->|[->|[[Hi Hj]|(us & -> & Hi & _ & Hj)]]]; auto.
  - specialize (Hin u Hi Hj). destruct u; try discriminate; auto.
  - simpl. apply forallb_forall. rewrite forallb_forall in Hj. auto.
Qed.
Lemma and_shape_flat ts u : and_shape ts u -> forallb flatAnd ts = true -> flatAnd u = true.
Proof.
  intros Hs Hf. rewrite forallb_forall in Hf.
  assert (Hin : forall w, In w (flatA ts) -> innerTA w = true -> is_lit w = true).
  { intros w Hw Hi. unfold flatA in Hw. apply in_flat_map in Hw. destruct Hw as (t & Ht & Hw). specialize (Hf t Ht).
    destruct t; try discriminate; try (destruct Hw as [<-|[]]; auto; discriminate). simpl in Hf. rewrite forallb_forall in Hf. auto. }
  destruct Hs as [->|[->|[[Hi Hj]|(us & -> & Hi & _ & Hj)]]]; auto.
  - specialize (Hin u Hi Hj). destruct u; try discriminate; auto.
  - simpl. apply forallb_forall. rewrite forallb_forall in Hj. auto.
Qed.
Lemma flatOr_cnf u : flatOr u = true -> is_cnf u = true. Proof. destruct u; auto; discriminate. Qed.
Lemma flatAnd_dnf u : flatAnd u = true -> is_dnf u = true. Proof. destruct u; auto; discriminate. Qed.

Lemma is_clause_cnf t : is_clause t = true -> is_cnf t = true. Proof. destruct t; auto; discriminate. Qed.
Lemma flatOr_cnfish t : flatOr t = true -> cnfish t = true. Proof. destruct t; auto; discriminate. Qed.
Lemma nshape_and ts us u : Forall2 nshape ts us -> and_shape us u -> nshape0 (TAnd ts) u.
Proof.
  intros HF Hs. split; [discriminate|]. simpl. intros H. eapply and_shape_cnf; eauto.
  clear Hs. induction HF; simpl in *; auto. apply andb_true_iff in H. destruct H as [H1 H2]. apply flatOr_cnfish in H1.
  destruct H0 as [[_ H0] _]. rewrite H0 by auto. auto.
Qed.
Lemma nshape_or ts us u : Forall2 nshape ts us -> or_shape us u -> nshape0 (TOr ts) u.
Proof.
  intros HF Hs. split; [discriminate|]. simpl. intros H. apply flatOr_cnf. eapply or_shape_flat; eauto.
  clear Hs. induction HF; simpl in *; auto. apply andb_true_iff in H. destruct H as [H1 H2].
  destruct H0 as [[H0 _] _]. rewrite (H0 H1). rewrite IHHF; auto. destruct x; try discriminate; auto.
Qed.

(** ** NNF *)
Definition nnfPost (pol : bool) (t : tree) (g : formula) (s' : state) (V' : asg -> Prop) : Prop :=
  exists u, Den s' g u /\ is_nnf u = true /\ repr V' (polt pol t) u /\ (pol = true -> nshape t u).
Definition nnfPost0 (pol : bool) (t : tree) (g : formula) (s' : state) (V' : asg -> Prop) : Prop :=
  exists u, Den s' g u /\ is_nnf u = true /\ repr V' (polt pol t) u /\ (pol = true -> nshape0 t u).
Lemma nnfPost_ext pol t g s V s' V' : wext s V s' V' -> nnfPost pol t g s V -> nnfPost pol t g s' V'.
Proof. intros X (u & H1 & H2 & H3 & H4). exists u. split; [eapply wext_Den; eauto|]. split; auto. split; auto. eapply wext_repr; eauto. Qed.

Definition nnfNary (rec : formula -> bool -> M formula) (k : fsort) (pol' : bool) (ops : list formula) : M formula :=
  nops <- mapM (fun op => rec op pol') ops ;; naryOp (if pol' then k else flipSort k) nops.
Definition nnfBody (cf : encConfig) (rec : formula -> bool -> M formula) (f : formula) (pol : bool) : M formula :=
  match srt f with
  | STrue | SFalse | SLit => if pol then ret f else up (Not f)
  | SNot => op <- get (opNot f) ;; rec op (negb pol)
  | SOr | SAnd => ops <- get (opNary f) ;; nnfNary rec (srt f) pol ops
  | SEquiv =>
    q <- get (opBin f) ;;
    if pol then
      l1 <- rec (fst q) false ;; r1 <- rec (snd q) true ;; o1 <- up (Or [l1; r1]) ;;
      l2 <- rec (fst q) true ;; r2 <- rec (snd q) false ;; o2 <- up (Or [l2; r2]) ;;
      up (And [o1; o2])
    else
      l1 <- rec (fst q) false ;; r1 <- rec (snd q) false ;; o1 <- up (Or [l1; r1]) ;;
      l2 <- rec (fst q) true ;; r2 <- rec (snd q) true ;; o2 <- up (Or [l2; r2]) ;;
      up (And [o1; o2])
  | SImpl =>
    q <- get (opBin f) ;;
    if pol then l <- rec (fst q) false ;; r <- rec (snd q) true ;; up (Or [l; r])
    else l <- rec (fst q) true ;; r <- rec (snd q) false ;; up (And [l; r])
  | SCC | SPBC =>
    if pol then cs <- encodePBCM cf f ;; nnfNary rec SAnd true cs
    else g <- negatePBCM f ;; rec g true
  end.
Definition nnfWrap (compute : M formula) (f : formula) (pol : bool) : M formula :=
  if pol then
    c <- get (lookupTrans TransNNF f) ;;
    match c with
    | Some g => ret g
    | None => g <- compute ;; _ <- put (setTrans TransNNF f g) ;; ret g
    end
  else compute.
Lemma nnfRec_S n cf f pol : nnfRec (S n) cf f pol = nnfWrap (nnfBody cf (nnfRec n cf) f pol) f pol.
Proof. reflexivity. Qed.

Section NNF.
Variable cf : encConfig.
Definition RecP (pol : bool) (t : tree) : Prop := forall s V f, winv s V -> Den s f t ->
  wp (fun n => nnfRec n cf f pol) s V (nnfPost pol t).
Definition BodyP (pol : bool) (t : tree) : Prop := forall s V f, winv s V -> Den s f t ->
  wp (fun n => nnfBody cf (nnfRec n cf) f pol) s V (nnfPost pol t).

Lemma wrap_ok pol t : BodyP pol t -> RecP pol t.
Proof.
  intros HB s V f I Hd. apply wp_S. apply (wp_ext (fun n => nnfWrap (nnfBody cf (nnfRec n cf) f pol) f pol)); [intros; reflexivity|].
  unfold nnfWrap. destruct pol; [|apply HB; auto].
  apply wp_get. unfold lookupTrans. destruct (transC s TransNNF f) as [g|] eqn:E.
  - destruct (k_trans _ _ (v_cache _ _ I) _ _ _ E) as (t' & u & Ht & Hu & Hr & Hn & Hs).
    assert (t' = t) as -> by (eapply Den_fun; eauto). apply wp_ret; auto. exists u. auto.
  - eapply wp_bind; [apply HB; auto|]. intros g s1 V1 I1 X1 (u & Hu & Hn & Hr & Hs).
    pose proof (wext_Den _ _ _ _ _ _ X1 Hd) as Hd1.
    destruct (winv_setTrans s1 V1 TransNNF f g t u I1 Hd1 Hu (conj Hr (conj Hn (Hs eq_refl)))) as [I2 X2].
    eapply wp_put; [exact X2|]. apply wp_ret; auto. exists u. split; auto. eapply wext_Den; eauto.
Qed.

Lemma wp_andR (R : tree -> tree -> Prop) s V ops ts : winv s V ->
  Forall2 (fun g t => exists u, Den s g u /\ is_nnf u = true /\ repr V t u /\ R t u) ops ts ->
  wp (fun _ => up (And ops)) s V (fun g s' V' => exists u us, Den s' g u /\ is_nnf u = true /\ repr V' (TAnd ts) u /\ Forall2 R ts us /\ and_shape us u).
Proof.
  intros I H. assert (H' : exists us, Forall2 (Den s) ops us /\ forallb is_nnf us = true /\ Forall2 (repr V) ts us /\ Forall2 R ts us).
  { clear -H. induction H; [exists []; auto|]. destruct H as (u & H1 & H2 & H3 & H3'), IHForall2 as (us & H4 & H5 & H6 & H6').
    exists (u :: us). simpl. rewrite H2, H5. auto 6. }
  destruct H' as (us & H1 & H2 & H3 & H4). eapply wp_conseq; [apply rp_wp; [exact I|apply (rp_and ops us); [apply I|auto]]|].
  intros g s' V' I' X' (-> & u & Hu & He & Hsh). exists u, us. split; auto. split; [eapply and_shape_closed; eauto using nnf_A|].
  split; [eapply repr_r; [exact He|eapply and_shape_narrow; eauto|apply repr_and; auto]|auto].
Qed.
Lemma wp_and s V ops ts : winv s V -> Forall2 (fun g t => exists u, Den s g u /\ is_nnf u = true /\ repr V t u) ops ts ->
  wp (fun _ => up (And ops)) s V (fun g s' V' => exists u, Den s' g u /\ is_nnf u = true /\ repr V' (TAnd ts) u).
Proof.
  intros I H. eapply wp_conseq; [apply (wp_andR (fun _ _ => True) s V ops ts I)|].
  - eapply Forall2_impl; [|exact H]. intros g t (u & H1 & H2 & H3). exists u. auto.
  - intros g s' V' _ _ (u & us & H1 & H2 & H3 & _). exists u. auto.
Qed.
Lemma wp_orR (R : tree -> tree -> Prop) s V ops ts : winv s V ->
  Forall2 (fun g t => exists u, Den s g u /\ is_nnf u = true /\ repr V t u /\ R t u) ops ts ->
  wp (fun _ => up (Or ops)) s V (fun g s' V' => exists u us, Den s' g u /\ is_nnf u = true /\ repr V' (TOr ts) u /\ Forall2 R ts us /\ or_shape us u).
Proof.
  intros I H. assert (H' : exists us, Forall2 (Den s) ops us /\ forallb is_nnf us = true /\ Forall2 (repr V) ts us /\ Forall2 R ts us).
  { clear -H. induction H; [exists []; auto|]. destruct H as (u & H1 & H2 & H3 & H3'), IHForall2 as (us & H4 & H5 & H6 & H6').
    exists (u :: us). simpl. rewrite H2, H5. auto 6. }
  destruct H' as (us & H1 & H2 & H3 & H4). eapply wp_conseq; [apply rp_wp; [exact I|apply (rp_or ops us); [apply I|auto]]|].
  intros g s' V' I' X' (-> & u & Hu & He & Hsh). exists u, us. split; auto. split; [eapply or_shape_closed; eauto using nnf_O|].
  split; [eapply repr_r; [exact He|eapply or_shape_narrow; eauto|apply repr_or; auto]|auto].
Qed.
Lemma wp_or s V ops ts : winv s V -> Forall2 (fun g t => exists u, Den s g u /\ is_nnf u = true /\ repr V t u) ops ts ->
  wp (fun _ => up (Or ops)) s V (fun g s' V' => exists u, Den s' g u /\ is_nnf u = true /\ repr V' (TOr ts) u).
Proof.
  intros I H. eapply wp_conseq; [apply (wp_orR (fun _ _ => True) s V ops ts I)|].
  - eapply Forall2_impl; [|exact H]. intros g t (u & H1 & H2 & H3). exists u. auto.
  - intros g s' V' _ _ (u & us & H1 & H2 & H3 & _). exists u. auto.
Qed.

Lemma nary_ok k pol ops ts s V : k = SAnd \/ k = SOr -> winv s V -> Forall2 (Den s) ops ts -> Forall (RecP pol) ts ->
  wp (fun n => nnfNary (nnfRec n cf) k pol ops) s V (nnfPost0 pol (match k with SAnd => TAnd ts | _ => TOr ts end)).
Proof.
  intros Hk I HF HR. unfold nnfNary. eapply wp_bind.
  - apply (wp_mapM (fun n op => nnfRec n cf op pol) Den (fun s V g t => nnfPost pol t g s V)) with (cs := ts).
    + intros; eapply wext_Den; eauto.
    + intros; eapply nnfPost_ext; eauto.
    + intros a c Ha Hc s' V' I' X' HD. rewrite Forall_forall in HR. apply HR; auto.
    + auto.
    + auto.
  - intros nops s1 V1 I1 X1 HF1. simpl in HF1.
    assert (Ep : forall b, eval b (TAnd (map TNot ts)) = eval b (TNot (TOr ts)) /\ eval b (TOr (map TNot ts)) = eval b (TNot (TAnd ts))).
    { intros b. simpl. clear. induction ts; simpl; auto. destruct IHts as [-> ->]. rewrite negb_andb, negb_orb. auto. }
    assert (Pp : pbfree (TAnd (map TNot ts)) = pbfree (TAnd ts)). { simpl. clear. induction ts; simpl; auto. rewrite IHts; auto. }
    destruct pol.
    + assert (Gp : Forall2 (fun g t => exists u, Den s1 g u /\ is_nnf u = true /\ repr V1 t u /\ nshape t u) nops ts).
      { eapply Forall2_impl; [|exact HF1]. intros g t (u & H1 & H2 & H3 & H4). exists u. auto. }
      destruct Hk as [-> | ->]; simpl.
      * apply (wp_ext (fun _ => up (And nops))); [reflexivity|]. eapply wp_conseq; [apply (wp_andR nshape s1 V1 nops ts); auto|].
        intros g s2 V2 _ _ (u & us & H1 & H2 & H3 & H4 & H5). exists u. split; auto. split; auto. split; auto. intros _. eapply nshape_and; eauto.
      * apply (wp_ext (fun _ => up (Or nops))); [reflexivity|]. eapply wp_conseq; [apply (wp_orR nshape s1 V1 nops ts); auto|].
        intros g s2 V2 _ _ (u & us & H1 & H2 & H3 & H4 & H5). exists u. split; auto. split; auto. split; auto. intros _. eapply nshape_or; eauto.
    + assert (Gp : Forall2 (fun g t => exists u, Den s1 g u /\ is_nnf u = true /\ repr V1 t u) nops (map TNot ts)).
      { clear -HF1. induction HF1; simpl; constructor; auto. destruct H as (u & H1 & H2 & H3 & _). exists u; auto. }
      destruct Hk as [-> | ->]; simpl.
      * apply (wp_ext (fun _ => up (Or nops))); [reflexivity|]. eapply wp_conseq; [apply (wp_or s1 V1 nops _ I1 Gp)|].
        intros g s2 V2 _ _ (u & H1 & H2 & H3). exists u. split; auto. split; auto. split; [|discriminate].
        eapply repr_l; [| | |exact H3]; [intros b; apply Ep|exact Pp|intros x; apply occurs_map_not].
      * apply (wp_ext (fun _ => up (And nops))); [reflexivity|]. eapply wp_conseq; [apply (wp_and s1 V1 nops _ I1 Gp)|].
        intros g s2 V2 _ _ (u & H1 & H2 & H3). exists u. split; auto. split; auto. split; [|discriminate].
        eapply repr_l; [| | |exact H3]; [intros b; apply Ep|exact Pp|intros x; apply occurs_map_not].
Qed.

Lemma atom_ok pol t : match t with TTrue | TFalse | TLit _ => True | _ => False end -> RecP pol t.
Proof.
  intros Ht. apply wrap_ok. intros s V f I Hd. unfold nnfBody. rewrite (Den_sort _ _ _ Hd).
  assert (Hp : is_nnf t = true) by (destruct t; auto; contradiction).
  assert (G : wp (fun n : nat => if pol then ret f else up (Not f)) s V (nnfPost pol t)).
  { destruct pol.
    - apply wp_ret; auto. exists t. split; auto. split; auto. split; [apply repr_refl|]. intros _. split; auto. split; auto. intros _. destruct t; auto; contradiction.
    - eapply wp_conseq; [apply rp_wp; [exact I|apply (rp_not f t); [apply I|auto]]|].
      intros g s' V' I' X' (-> & u & Hu & Hn). exists u. split; auto. split.
      + destruct t; try contradiction; simpl in Hn; try (subst; reflexivity). destruct l; subst; reflexivity.
      + split; [|discriminate]. apply (repr_r V _ (TNot t)); [|intros x; apply (is_neg_occurs _ _ x Hn)|apply repr_refl]. intros b. rewrite (is_neg_of_eval _ _ _ Hn). reflexivity. }
  destruct t; try contradiction; exact G.
Qed.

Lemma not_ok pol t : RecP (negb pol) t -> RecP pol (TNot t).
Proof.
  intros H. apply wrap_ok. intros s V f I Hd. unfold nnfBody. rewrite (Den_sort _ _ _ Hd). apply wp_get.
  eapply wp_conseq; [apply H; [exact I|apply opNot_den; [apply I|auto]]|].
  intros g s' V' _ _ (u & H1 & H2 & H3 & _). exists u. split; auto. split; auto. split; [|intros _; split; [split|]; discriminate].
  destruct pol; simpl in *; auto. eapply repr_l; [| | |exact H3]; auto. intros b. simpl. rewrite negb_involutive; auto.
Qed.
Lemma or_inner s f ts : wf s -> Den s f (TOr ts) -> forallb innerTO ts = true.
Proof.
  intros [W T] D. apply Den_or_inv in D. destruct D as (l & Hn & HF). pose proof (w_ok s W _ _ Hn) as (_ & _ & Hi).
  eapply inners_O; eauto.
Qed.
Lemma and_inner s f ts : wf s -> Den s f (TAnd ts) -> forallb innerTA ts = true.
Proof.
  intros [W T] D. apply Den_and_inv in D. destruct D as (l & Hn & HF). pose proof (w_ok s W _ _ Hn) as (_ & _ & Hi).
  eapply inners_A; eauto.
Qed.
Lemma Dens_inj s : wf s -> forall ts l l', Forall2 (Den s) l ts -> Forall2 (Den s) l' ts -> l = l'.
Proof.
  intros Hw. induction ts; intros l l' H H'; inversion H; inversion H'; subst; auto. f_equal; [eapply Den_inj; eauto|auto].
Qed.
(** building the conjunction of the operands of an existing conjunction returns it *)
Lemma And_exact s f ops ts : wf s -> Den s f (TAnd ts) -> Forall2 (Den s) ops ts -> And ops s = (f, s).
Proof.
  intros Hw Hd HF. pose proof Hw as [W T]. destruct (Den_and_inv _ _ _ Hd) as (l & Hn & HF').
  assert (l = ops) as -> by (eapply Dens_inj; eauto). unfold And.
  destruct (findAnd (hashOperands ops) ops s) as [g|] eqn:E.
  - apply findAnd_some in E; auto. repeat f_equal. eapply (w_uniq s W); eauto.
  - exfalso. eapply findAnd_none; eauto.
Qed.
Lemma Or_exact s f ops ts : wf s -> Den s f (TOr ts) -> Forall2 (Den s) ops ts -> Or ops s = (f, s).
Proof.
  intros Hw Hd HF. pose proof Hw as [W T]. destruct (Den_or_inv _ _ _ Hd) as (l & Hn & HF').
  assert (l = ops) as -> by (eapply Dens_inj; eauto). unfold Or.
  destruct (findOr (hashOperands ops) ops s) as [g|] eqn:E.
  - apply findOr_some in E; auto. repeat f_equal. eapply (w_uniq s W); eauto.
  - exfalso. eapply findOr_none; eauto.
Qed.

Lemma nary_nnf ops ts s V : winv s V -> Forall2 (Den s) ops ts -> Forall (RecP true) ts -> forallb is_nnf ts = true ->
  wp (fun n => mapM (fun op => nnfRec n cf op true) ops) s V (fun nops s' V' => Forall2 (Den s') nops ts).
Proof.
  intros I HF HR Hn. eapply wp_conseq.
  - apply (wp_mapM (fun n op => nnfRec n cf op true) Den (fun s V g t => nnfPost true t g s V)) with (cs := ts).
    + intros; eapply wext_Den; eauto.
    + intros; eapply nnfPost_ext; eauto.
    + intros a c Ha Hc s' V' I' X' HD. rewrite Forall_forall in HR. apply HR; auto.
    + auto.
    + auto.
  - intros nops s1 V1 I1 X1 HF1. simpl in HF1. rewrite forallb_forall in Hn. clear -HF1 Hn. induction HF1; constructor.
    + destruct H as (u & H1 & _ & _ & H2). destruct (H2 eq_refl) as [_ H3]. rewrite (H3 (Hn y (or_introl eq_refl))) in H1. auto.
    + apply IHHF1. intros z Hz. apply Hn. right; auto.
Qed.

Lemma post_full t g s V : nnfPost0 true t g s V -> is_nnf t = false -> nnfPost true t g s V.
Proof. intros (u & H1 & H2 & H3 & H4) Hn. exists u. split; auto. split; auto. split; auto. intros _. split; auto. rewrite Hn. discriminate. Qed.

Lemma nary_rec pol t ts : t = TAnd ts \/ t = TOr ts -> Forall (RecP pol) ts -> RecP pol t.
Proof.
  intros Ht HR. apply wrap_ok. intros s V f I Hd. unfold nnfBody. rewrite (Den_sort _ _ _ Hd).
  assert (HO : Forall2 (Den s) (opNary f s) ts).
  { destruct Ht as [-> | ->]; [apply opNary_and|apply opNary_or]; auto; apply I. }
  destruct pol; [destruct (is_nnf t) eqn:En|].
  - assert (Hts : forallb is_nnf ts = true) by (destruct Ht as [-> | ->]; exact En).
    destruct Ht as [-> | ->]; apply wp_get; unfold nnfNary.
    + eapply wp_bind; [apply (nary_nnf _ ts); auto|]. intros nops s1 V1 I1 X1 HN.
      pose proof (wext_Den _ _ _ _ _ _ X1 Hd) as Hd1.
      apply (wp_ext (fun _ => ret f)); [intros n; unfold naryOp, up, ret; simpl; rewrite (And_exact s1 f nops ts); auto; apply I1|].
      apply wp_ret; auto. exists (TAnd ts). split; auto. split; auto. split; [apply repr_refl|]. intros _. split; auto. split; [discriminate|].
      simpl. intros Hc. pose proof (and_inner s f ts (v_wf _ _ I) Hd) as Hi. rewrite forallb_forall in *.
      intros x Hx. specialize (Hc x Hx). specialize (Hi x Hx). destruct x; auto; discriminate.
    + eapply wp_bind; [apply (nary_nnf _ ts); auto|]. intros nops s1 V1 I1 X1 HN.
      pose proof (wext_Den _ _ _ _ _ _ X1 Hd) as Hd1.
      apply (wp_ext (fun _ => ret f)); [intros n; unfold naryOp, up, ret; simpl; rewrite (Or_exact s1 f nops ts); auto; apply I1|].
      apply wp_ret; auto. exists (TOr ts). split; auto. split; auto. split; [apply repr_refl|]. intros _. split; auto. split; [discriminate|].
      simpl. auto.
  - destruct Ht as [-> | ->]; apply wp_get.
    + eapply wp_conseq; [apply (nary_ok SAnd true _ ts); auto|]. intros g s' V' _ _ HH. apply post_full; auto.
    + eapply wp_conseq; [apply (nary_ok SOr true _ ts); auto|]. intros g s' V' _ _ HH. apply post_full; auto.
  - assert (G : forall t g s V, nnfPost0 false t g s V -> nnfPost false t g s V).
    { intros t0 g s0 V0 (u & H1 & H2 & H3 & _). exists u. split; auto. split; auto. split; auto. discriminate. }
    destruct Ht as [-> | ->]; apply wp_get.
    + eapply wp_conseq; [apply (nary_ok SAnd false _ ts); auto|]. intros g s' V' _ _ HH. apply G; auto.
    + eapply wp_conseq; [apply (nary_ok SOr false _ ts); auto|]. intros g s' V' _ _ HH. apply G; auto.
Qed.

(** one recursive call of a binary node *)
Ltac rec_call H f D l s1 V1 I1 X1 L1 :=
  eapply wp_bind; [apply H; [eassumption|exact D]|]; intros l s1 V1 I1 X1 L1.
Lemma wp_or2 s V l r tl tr : winv s V -> (exists u, Den s l u /\ is_nnf u = true /\ repr V tl u) -> (exists u, Den s r u /\ is_nnf u = true /\ repr V tr u) ->
  wp (fun _ => up (Or [l; r])) s V (fun g s' V' => exists u, Den s' g u /\ is_nnf u = true /\ repr V' (TOr [tl; tr]) u).
Proof. intros I H1 H2. apply (wp_or s V [l; r] [tl; tr]); auto. Qed.
Lemma wp_and2 s V l r tl tr : winv s V -> (exists u, Den s l u /\ is_nnf u = true /\ repr V tl u) -> (exists u, Den s r u /\ is_nnf u = true /\ repr V tr u) ->
  wp (fun _ => up (And [l; r])) s V (fun g s' V' => exists u, Den s' g u /\ is_nnf u = true /\ repr V' (TAnd [tl; tr]) u).
Proof. intros I H1 H2. apply (wp_and s V [l; r] [tl; tr]); auto. Qed.

(** (polarity pa a) or (polarity pb b) *)
Lemma or_calls pa pb a b fa fb s V : winv s V -> RecP pa a -> RecP pb b -> Den s fa a -> Den s fb b ->
  wp (fun n => l <- nnfRec n cf fa pa ;; r <- nnfRec n cf fb pb ;; up (Or [l; r])) s V
     (fun g s' V' => exists u, Den s' g u /\ is_nnf u = true /\ repr V' (TOr [polt pa a; polt pb b]) u).
Proof.
  intros I Ha Hb Da Db. eapply wp_bind; [apply Ha; eauto|]. intros l s1 V1 I1 X1 L1.
  eapply wp_bind; [apply Hb; [auto|eapply wext_Den; eauto]|]. intros r s2 V2 I2 X2 L2.
  apply wp_or2; auto; [apply (nnfPost_ext _ _ _ _ _ _ _ X2) in L1; destruct L1 as (u & H1 & H2 & H3 & _)|destruct L2 as (u & H1 & H2 & H3 & _)]; exists u; auto.
Qed.
Lemma and_calls pa pb a b fa fb s V : winv s V -> RecP pa a -> RecP pb b -> Den s fa a -> Den s fb b ->
  wp (fun n => l <- nnfRec n cf fa pa ;; r <- nnfRec n cf fb pb ;; up (And [l; r])) s V
     (fun g s' V' => exists u, Den s' g u /\ is_nnf u = true /\ repr V' (TAnd [polt pa a; polt pb b]) u).
Proof.
  intros I Ha Hb Da Db. eapply wp_bind; [apply Ha; eauto|]. intros l s1 V1 I1 X1 L1.
  eapply wp_bind; [apply Hb; [auto|eapply wext_Den; eauto]|]. intros r s2 V2 I2 X2 L2.
  apply wp_and2; auto; [apply (nnfPost_ext _ _ _ _ _ _ _ X2) in L1; destruct L1 as (u & H1 & H2 & H3 & _)|destruct L2 as (u & H1 & H2 & H3 & _)]; exists u; auto.
Qed.

Lemma bind_assoc {A B C} (m : M A) (k : A -> M B) (h : B -> M C) s :
  bind (bind m k) h s = bind m (fun x => bind (k x) h) s.
Proof. unfold bind. destruct (m s) as [[a s']|]; auto. Qed.

Lemma impl_ok pol a b : (forall p, RecP p a) -> (forall p, RecP p b) -> RecP pol (TImpl a b).
Proof.
  intros Ha Hb. apply wrap_ok. intros s V f I Hd. unfold nnfBody. rewrite (Den_sort _ _ _ Hd).
  destruct (opBin_impl s f a b (v_wf _ _ I) Hd) as [Da Db]. apply wp_get. destruct pol.
  - eapply wp_conseq; [apply (or_calls false true a b); auto|]. intros g s' V' _ _ (u & H1 & H2 & H3). exists u. split; auto. split; auto. split; [|intros _; split; [split|]; discriminate].
    eapply repr_l; [| | |exact H3]; [|simpl; rewrite andb_true_r; auto|simpl; intros x; tauto]. intros x. simpl. rewrite orb_false_r. destruct (eval x a), (eval x b); auto.
  - eapply wp_conseq; [apply (and_calls true false a b); auto|]. intros g s' V' _ _ (u & H1 & H2 & H3). exists u. split; auto. split; auto. split; [|intros _; split; [split|]; discriminate].
    eapply repr_l; [| | |exact H3]; [|simpl; rewrite andb_true_r; auto|simpl; intros x; tauto]. intros x. simpl. destruct (eval x a), (eval x b); auto.
Qed.

Lemma two_clauses pa pb pc pd a b fa fb s V : winv s V -> (forall p, RecP p a) -> (forall p, RecP p b) -> Den s fa a -> Den s fb b ->
  wp (fun n => l1 <- nnfRec n cf fa pa ;; r1 <- nnfRec n cf fb pb ;; o1 <- up (Or [l1; r1]) ;;
               l2 <- nnfRec n cf fa pc ;; r2 <- nnfRec n cf fb pd ;; o2 <- up (Or [l2; r2]) ;; up (And [o1; o2])) s V
     (fun g s' V' => exists u, Den s' g u /\ is_nnf u = true /\ repr V' (TAnd [TOr [polt pa a; polt pb b]; TOr [polt pc a; polt pd b]]) u).
Proof.
  intros I Ha Hb Da Db.
  apply (wp_ext (fun n => o1 <- (l1 <- nnfRec n cf fa pa ;; r1 <- nnfRec n cf fb pb ;; up (Or [l1; r1])) ;;
                          o2 <- (l2 <- nnfRec n cf fa pc ;; r2 <- nnfRec n cf fb pd ;; up (Or [l2; r2])) ;; up (And [o1; o2]))).
  { intros n. unfold bind. destruct (nnfRec n cf fa pa s) as [[l1 s1]|]; auto.
    destruct (nnfRec n cf fb pb s1) as [[r1 s2]|]; auto. destruct (up _ s2) as [[o1 s3]|]; auto.
    destruct (nnfRec n cf fa pc s3) as [[l2 s4]|]; auto. destruct (nnfRec n cf fb pd s4) as [[r2 s5]|]; auto. }
  eapply wp_bind; [apply (or_calls pa pb a b); auto|]. intros o1 s1 V1 I1 X1 (u1 & D1 & N1 & R1).
  eapply wp_bind; [apply (or_calls pc pd a b); eauto using wext_Den|]. intros o2 s2 V2 I2 X2 L2.
  apply wp_and2; auto. exists u1. split; [eapply wext_Den; eauto|]. split; auto. eapply wext_repr; eauto.
Qed.

Lemma equiv_ok pol a b : (forall p, RecP p a) -> (forall p, RecP p b) -> RecP pol (TEquiv a b).
Proof.
  intros Ha Hb. apply wrap_ok. intros s V f I Hd. unfold nnfBody. rewrite (Den_sort _ _ _ Hd).
  destruct (opBin_equiv s f a b (v_wf _ _ I) Hd) as [Da Db]. apply wp_get.
  assert (Hp : forall p q p' q', pbfree (TAnd [TOr [polt p a; polt q b]; TOr [polt p' a; polt q' b]]) = pbfree a && pbfree b).
  { intros p q p' q'. assert (forall r x, pbfree (polt r x) = pbfree x) by (intros [] ?; auto). simpl. rewrite !H. destruct (pbfree a), (pbfree b); auto. }
  destruct pol.
  - eapply wp_conseq; [apply (two_clauses false true true false a b); auto|]. intros g s' V' _ _ (u & H1 & H2 & H3). exists u. split; auto. split; auto. split; [|intros _; split; [split|]; discriminate].
    eapply repr_l; [| | |exact H3]; [|rewrite Hp; reflexivity|simpl; intros x; tauto]. intros x. simpl. destruct (eval x a), (eval x b); auto.
  - eapply wp_conseq; [apply (two_clauses false false true true a b); auto|]. intros g s' V' _ _ (u & H1 & H2 & H3). exists u. split; auto. split; auto. split; [|intros _; split; [split|]; discriminate].
    eapply repr_l; [| | |exact H3]; [|rewrite Hp; reflexivity|simpl; intros x; tauto]. intros x. simpl. destruct (eval x a), (eval x b); auto.
Qed.

Lemma nnf_pbfree t : pbfree t = true -> forall pol, RecP pol t.
Proof.
  induction t using tree_ind'; simpl; intros Hp pol; try (apply atom_ok; exact I).
  - apply not_ok. auto.
  - apply (nary_rec pol _ ts); auto. rewrite Forall_forall in *. rewrite forallb_forall in Hp. auto.
  - apply (nary_rec pol _ ts); auto. rewrite Forall_forall in *. rewrite forallb_forall in Hp. auto.
  - apply andb_true_iff in Hp. apply impl_ok; apply IHt1 || apply IHt2; tauto.
  - apply andb_true_iff in Hp. apply equiv_ok; apply IHt1 || apply IHt2; tauto.
  - discriminate.
Qed.

Lemma clauseTree_pbfree c : pbfree (clauseTree c) = true.
Proof. unfold clauseTree. destruct (map named c) as [|a [|b r]]; auto. simpl. induction r; auto. Qed.

Lemma clauseTree_flat c : flatOr (clauseTree c) = true.
Proof. unfold clauseTree. destruct (map named c) as [|a [|b r]]; auto. simpl. induction r; auto. Qed.
Lemma pb_pos k c rhs ls cs : encodable cf (TPBC k c rhs ls cs) -> RecP true (TPBC k c rhs ls cs).
Proof.
  intros He. apply wrap_ok. intros s V f I Hd. unfold nnfBody. rewrite (Den_sort _ _ _ Hd).
  assert (G : wp (fun n => cs <- encodePBCM cf f ;; nnfNary (nnfRec n cf) SAnd true cs) s V (nnfPost true (TPBC k c rhs ls cs))).
  { eapply wp_bind; [apply (encodePBCM_ok cf s V f k c rhs ls cs); auto|].
    intros fs s1 V1 I1 X1 (cls & HF & HR). eapply wp_conseq; [apply (nary_ok SAnd true fs (map clauseTree cls)); auto|].
    - apply Forall_forall. intros u Hu. apply in_map_iff in Hu. destruct Hu as (q & <- & _). apply nnf_pbfree. apply clauseTree_pbfree.
    - intros g s2 V2 I2 X2 (u & H1 & H2 & H3 & H4). exists u. split; auto. split; auto.
      split; [|intros _; split; [split; [discriminate|]|discriminate]; intros _; apply (H4 eq_refl); simpl; apply forallb_forall;
        intros w Hw; apply in_map_iff in Hw; destruct Hw as (q & <- & _); apply clauseTree_flat].
      apply (repr_trans V2 _ (TAnd (map clauseTree cls))); [eapply wext_repr; eauto|exact H3|]. simpl. discriminate. }
  destruct k; exact G.
Qed.
Lemma shallow_pos u : shallow u = true -> encodable cf u -> RecP true u.
Proof.
  destruct u; simpl; try discriminate; intros Hs He; try (apply atom_ok; exact I).
  - apply (nary_rec true _ ts); auto. rewrite forallb_forall in Hs. apply encodable_or in He. rewrite Forall_forall in *.
    intros x Hx. specialize (Hs x Hx). specialize (He x Hx). destruct x; try discriminate. apply pb_pos; auto.
  - apply pb_pos; auto.
Qed.
Lemma pb_neg k c rhs ls cs : encodable cf (TPBC k c rhs ls cs) -> RecP false (TPBC k c rhs ls cs).
Proof.
  intros He. apply wrap_ok. intros s V f I Hd. unfold nnfBody. rewrite (Den_sort _ _ _ Hd).
  assert (G : wp (fun n => g <- negatePBCM f ;; nnfRec n cf g true) s V (nnfPost false (TPBC k c rhs ls cs))).
  { eapply wp_bind; [apply rp_wp; [exact I|apply (negatePBCM_ok cf s f k c rhs ls cs); [apply I|auto|auto]]|].
    intros g s1 V1 I1 X1 (-> & u & D & E & Sh & Ev). eapply wp_conseq; [apply (shallow_pos u Sh E); auto|].
    intros h s2 V2 _ _ (w & H1 & H2 & H3 & _). exists w. split; auto. split; auto. split; [|discriminate]. destruct H3 as (R1 & R2 & R3). split; [|split].
    - intros b Hb. apply R1 in Hb. rewrite Ev in Hb. exact Hb.
    - intros b HV Hb. apply R2; auto. rewrite Ev. exact Hb.
    - simpl. discriminate. }
  destruct k; exact G.
Qed.

Lemma nnf_ok t : encodable cf t -> forall pol, RecP pol t.
Proof.
  induction t using tree_ind'; intros He pol; try (apply atom_ok; exact I).
  - apply not_ok. auto.
  - apply (nary_rec pol _ ts); auto. apply encodable_and in He. rewrite Forall_forall in *. auto.
  - apply (nary_rec pol _ ts); auto. apply encodable_or in He. rewrite Forall_forall in *. auto.
  - destruct He. apply impl_ok; auto.
  - destruct He. apply equiv_ok; auto.
  - destruct pol; [apply pb_pos|apply pb_neg]; auto.
Qed.

Lemma NNF_ok t s V f : winv s V -> Den s f t -> encodable cf t -> wp (fun n => NNF n cf f) s V (nnfPost true t).
Proof. intros I Hd He. apply (nnf_ok t He true); auto. Qed.
End NNF.

(** ** Cached predicates *)
Lemma allM_ok {C} (h : nat -> formula -> M bool) (P : C -> bool) : forall l (cs : list C) s V (R : state -> formula -> C -> Prop),
  (forall s V s' V', wext s V s' V' -> forall a c, R s a c -> R s' a c) ->
  (forall a c, In a l -> In c cs -> forall s' V', winv s' V' -> R s' a c -> wp (fun n => h n a) s' V' (fun b s2 V2 => b = P c)) ->
  winv s V -> Forall2 (R s) l cs -> wp (fun n => allM (h n) l) s V (fun b s' V' => b = forallb P cs).
Proof.
  induction l as [|a l IH]; intros cs s V R HR Hh I HF; inversion HF; subst.
  - apply wp_ret; auto.
  - cbn [allM]. eapply wp_bind; [apply (Hh a y); simpl; auto|]. intros b s1 V1 I1 X1 ->. simpl. destruct (P y); simpl; [|apply wp_ret; auto].
    apply (IH l' s1 V1 R); auto.
    + intros a' c' Ha Hc s2 V2 I2. apply Hh; simpl; auto.
    + eapply Forall2_impl; [|eassumption]. intros; eapply HR; eauto.
Qed.

Lemma isNNF_ok : forall t s V f, winv s V -> Den s f t -> wp (fun n => isNNF n f) s V (fun b s' V' => b = is_nnf t).
Proof.
  induction t using tree_ind'; intros s V f I Hd; apply wp_S; cbn [isNNF]; apply wp_get; unfold lookupPred;
  (destruct (predC s PredNNF f) as [b|] eqn:E;
   [destruct (k_pred _ _ (v_cache _ _ I) _ _ _ E) as (t' & Ht & ->); apply wp_ret; auto; simpl; rewrite (Den_fun _ _ _ _ Ht Hd); reflexivity|]);
  rewrite (Den_sort _ _ _ Hd).
  all: match goal with |- wp (fun n => bind _ (fun b0 => bind (put (setPred PredNNF ?f b0)) _)) ?s ?V (fun b s' V' => b = is_nnf ?t) =>
    assert (Fin : forall s' V' b, winv s' V' -> wext s V s' V' -> b = is_nnf t -> wp (fun _ : nat => bind (put (setPred PredNNF f b)) (fun _ => ret b)) s' V' (fun b _ _ => b = is_nnf t));
    [intros s' V' b I' X' Hb; destruct (winv_setPred s' V' PredNNF f b t I' (wext_Den _ _ _ _ _ _ X' Hd) Hb) as [I2 X2]; eapply wp_put; [exact X2|]; apply wp_ret; auto|] end.
  all: try (apply wp_bret; apply (Fin s V); auto using wext_refl; fail).
  - eapply wp_bind; [apply wp_get|intros b s1 V1 I1 X1 Hb; apply Fin; auto; exact Hb].
    apply (allM_ok isNNF is_nnf _ ts s V Den); auto; [intros; eapply wext_Den; eauto| |apply opNary_and; [apply I|auto]].
    intros a c Ha Hc s' V' I' HD. rewrite Forall_forall in H. apply (H c Hc); auto.
  - eapply wp_bind; [apply wp_get|intros b s1 V1 I1 X1 Hb; apply Fin; auto; exact Hb].
    apply (allM_ok isNNF is_nnf _ ts s V Den); auto; [intros; eapply wext_Den; eauto| |apply opNary_or; [apply I|auto]].
    intros a c Ha Hc s' V' I' HD. rewrite Forall_forall in H. apply (H c Hc); auto.
  - destruct k; apply wp_bret; apply (Fin s V); auto using wext_refl.
Qed.

(** the value of the CNF predicate is always in the cache for conjunctions and disjunctions *)
Lemma isCNF_ok t s V f : winv s V -> Den s f t -> wp (fun _ => isCNF f) s V (fun b s' V' => s' = s /\ V' = V /\ b = is_cnf t).
Proof.
  intros I Hd. unfold isCNF. apply wp_get. unfold lookupPred. destruct (predC s PredCNF f) as [b|] eqn:E.
  - destruct (k_pred _ _ (v_cache _ _ I) _ _ _ E) as (t' & Ht & ->). apply wp_ret; auto. rewrite (Den_fun _ _ _ _ Ht Hd). auto.
  - rewrite (Den_sort _ _ _ Hd). pose proof (v_wf _ _ I) as [W T].
    destruct t; try (apply wp_ret; auto; fail).
    + exfalso. apply Den_and_inv in Hd. destruct Hd as (l & Hn & _). apply node_ands in Hn; auto.
      apply (v_cnfk _ _ I f); auto. left. congruence.
    + exfalso. apply Den_or_inv in Hd. destruct Hd as (l & Hn & _). apply node_ors in Hn; auto.
      apply (v_cnfk _ _ I f); auto. right. congruence.
    + destruct cc; apply wp_ret; auto.
Qed.
