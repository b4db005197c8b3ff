(** * Proofs about Distribute, FactorOut and MinimizeNegations *)
From Coq Require Import String Ascii List Bool ZArith NArith Lia.
From Verif Require Import Spec Factory FactoryProofs FactoryProofs2 FactoryProofs3 FactoryApi FactoryProps Assign NormalForm NfBase NfAssign NfEnc NfNnf NfCnf NfFun Simplify SimpBase.
Import ListNotations.
Local Open Scope N_scope.

(** ** What occurs in a formula: names, and [None] for a constraint *)
Fixpoint occ2 (x : option string) (t : tree) : Prop :=
  match t with
  | TFalse | TTrue => False
  | TLit l => Some (fst l) = x
  | TNot t => occ2 x t
  | TAnd ts | TOr ts => (fix go (l : list tree) : Prop := match l with [] => False | t :: r => occ2 x t \/ go r end) ts
  | TImpl a b | TEquiv a b => occ2 x a \/ occ2 x b
  | TPBC _ _ _ ls _ => x = None \/ exists y p, x = Some y /\ In (y, p) ls
  end.
Definition narrow2 (u t : tree) : Prop := forall x, occ2 x u -> occ2 x t.
Lemma occ2_list x ts : (fix go (l : list tree) : Prop := match l with [] => False | t :: r => occ2 x t \/ go r end) ts <-> exists t, In t ts /\ occ2 x t.
Proof.
  induction ts as [|t ts IH]; [split; [intros []|intros (t & [] & _)]|]. rewrite IH. split.
  - intros [H|(u & J & H)]; [exists t; split; [left; auto|auto]|exists u; split; [right; auto|auto]].
  - intros (u & [->|J] & H); [auto|right; eauto].
Qed.
Lemma occ2_mk k x ts : dual k -> occ2 x (mk k ts) <-> exists t, In t ts /\ occ2 x t.
Proof. intros [-> | ->]; apply occ2_list. Qed.
Lemma occ2_occurs : forall t x, occ2 (Some x) t <-> occurs x t.
Proof.
  induction t using tree_ind'; intros x; cbn [occ2 occurs]; try tauto.
  - split; [intros E; injection E; auto|intros ->; auto].
  - apply IHt.
  - change (occurs x (TAnd ts)) with (occurs x (TAnd ts)). rewrite occ2_list. change ((fix go (l : list tree) : Prop := match l with [] => False | t :: r => occurs x t \/ go r end) ts) with (occurs x (TAnd ts)). rewrite occurs_and. rewrite Forall_forall in H. split; intros (t & J & O); exists t; split; auto; apply H; auto.
  - rewrite occ2_list. change ((fix go (l : list tree) : Prop := match l with [] => False | t :: r => occurs x t \/ go r end) ts) with (occurs x (TOr ts)). rewrite occurs_or. rewrite Forall_forall in H. split; intros (t & J & O); exists t; split; auto; apply H; auto.
  - rewrite IHt1, IHt2. tauto.
  - rewrite IHt1, IHt2. tauto.
  - split; [intros [E|(y & p & E & J)]; [discriminate|injection E as ->; eauto]|intros (p & J); right; eauto].
Qed.
Lemma occ2_pbfree : forall t, occ2 None t <-> pbfree t = false.
Proof.
  assert (L : forall ts, Forall (fun t => occ2 None t <-> pbfree t = false) ts -> (exists t, In t ts /\ occ2 None t) <-> forallb pbfree ts = false).
  { intros ts H. induction H as [|t ts E _ IH]; [split; [intros (t & [] & _)|discriminate]|]. cbn [forallb]. rewrite andb_false_iff, <- E, <- IH. split.
    - intros (u & [->|J] & O); [auto|right; eauto].
    - intros [O|(u & J & O)]; [exists t|exists u]; cbn; auto. }
  induction t using tree_ind'; cbn [occ2 pbfree]; try (split; [tauto|discriminate]).
  - split; discriminate.
  - apply IHt.
  - rewrite occ2_list. apply L; auto.
  - rewrite occ2_list. apply L; auto.
  - rewrite IHt1, IHt2, andb_false_iff. tauto.
  - rewrite IHt1, IHt2, andb_false_iff. tauto.
  - split; auto.
Qed.
Lemma narrow2_narrow u t : narrow2 u t -> narrow u t.
Proof. intros N x H. apply occ2_occurs, N, occ2_occurs; auto. Qed.
Lemma narrow2_free u t : narrow2 u t -> pbfree t = true -> pbfree u = true.
Proof. intros N H. destruct (pbfree u) eqn:E; auto. apply occ2_pbfree, N, occ2_pbfree in E. congruence. Qed.
Lemma narrow2_of u t : narrow u t -> (pbfree t = true -> pbfree u = true) -> narrow2 u t.
Proof.
  intros N F [x|] H; [apply occ2_occurs, N, occ2_occurs; auto|]. apply occ2_pbfree in H. apply occ2_pbfree. destruct (pbfree t); auto. rewrite F in H; auto.
Qed.
Lemma neg_narrow2 t u : is_neg_of t u -> narrow2 u t.
Proof. intros H x. destruct t; simpl in H; try (destruct p); try destruct l; subst; simpl; auto. Qed.
Lemma wp_nary2 k s V ops ts : dual k -> winv s V -> Forall2 (Den s) ops ts ->
  wp (fun _ => naryOp k ops) s V (fun g s' V' => V' = V /\ exists u, Den s' g u /\ equiv u (mk k ts) /\ narrow2 u (mk k ts) /\ nary_res k ts u /\ k_shape k ts u).
Proof.
  intros Hk I HF. eapply wp_conseq; [apply (wp_nary k s V ops ts Hk I HF)|]. cbv beta. intros g s' V' _ _ (E & u & D & Eq & N & R & Sh). split; auto. exists u. split; auto. split; auto. split; auto.
  apply narrow2_of; auto. destruct Hk as [-> | ->]; cbn [mk pbfree]; intros F; [apply (and_shape_closed pbfree ts u pbfree_A Sh F)|apply (or_shape_closed pbfree ts u pbfree_O Sh F)].
Qed.
Lemma narrow2_trans a b c : narrow2 a b -> narrow2 b c -> narrow2 a c. Proof. unfold narrow2; auto. Qed.
Lemma narrow2_mk k us ts : dual k -> Forall2 (fun u t => narrow2 u t) us ts -> narrow2 (mk k us) (mk k ts).
Proof.
  intros Hk HF x. rewrite !occ2_mk; auto. intros (u & Hu & Ho). destruct (Forall2_in_ll _ _ _ HF _ Hu) as (t & Ht & Hn). eauto.
Qed.
Lemma narrow2_sub k s l ts l' ts' : dual k -> Forall2 (Den s) l ts -> Forall2 (Den s) l' ts' -> (forall f, In f l -> In f l') -> narrow2 (mk k ts) (mk k ts').
Proof.
  intros Hk A B C x. rewrite !occ2_mk; auto. intros (t & Ht & Ho). destruct (Forall2_in_rr _ _ _ A _ Ht) as (f & Hf & Df).
  destruct (Forall2_in_ll _ _ _ B _ (C f Hf)) as (t' & Ht' & Df'). rewrite (Den_fun _ _ _ _ Df Df') in Ho. eauto.
Qed.
Lemma narrow_trans a b c : narrow a b -> narrow b c -> narrow a c. Proof. unfold narrow; auto. Qed.
Lemma narrow_mk k us ts : dual k -> Forall2 (fun u t => narrow u t) us ts -> narrow (mk k us) (mk k ts).
Proof.
  intros Hk HF x. rewrite !occurs_mk; auto. intros (u & Hu & Ho). destruct (Forall2_in_ll _ _ _ HF _ Hu) as (t & Ht & Hn). eauto.
Qed.
Lemma narrow_sub k s l ts l' ts' : dual k -> Forall2 (Den s) l ts -> Forall2 (Den s) l' ts' -> (forall f, In f l -> In f l') -> narrow (mk k ts) (mk k ts').
Proof.
  intros Hk A B C x. rewrite !occurs_mk; auto. intros (t & Ht & Ho). destruct (Forall2_in_rr _ _ _ A _ Ht) as (f & Hf & Df).
  destruct (Forall2_in_ll _ _ _ B _ (C f Hf)) as (t' & Ht' & Df'). rewrite (Den_fun _ _ _ _ Df Df') in Ho. eauto.
Qed.
Lemma Dens_Forall_known s l ts : Forall2 (Den s) l ts -> forall f, In f l -> known s f.
Proof. intros H f Hf. destruct (Forall2_in_ll _ _ _ H _ Hf) as (t & _ & D). eapply Den_known; eauto. Qed.
Lemma sub_dens s l ts l' : wf s -> Forall2 (Den s) l ts -> (forall f, In f l' -> In f l) -> exists ts', Forall2 (Den s) l' ts'.
Proof. intros Hw H Hi. apply known_dens; auto. apply Forall_forall. intros f Hf. eapply Dens_Forall_known; eauto. Qed.

(** ** Distribute *)
Definition DPost (t : tree) (g : formula) (s' : state) (V' : asg -> Prop) : Prop :=
  exists u, Den s' g u /\ equiv t u /\ narrow u t.
Lemma DPost_ext t g s V s' V' : wext s V s' V' -> DPost t g s V -> DPost t g s' V'.
Proof. intros X (u & H1 & H2 & H3). exists u. split; auto. eapply wext_Den; eauto. Qed.

Lemma partSet_cons m part set p : partSet ((part, set) :: m) p = if feqb p part then set else partSet m p.
Proof. unfold partSet. simpl. destruct (feqb p part); auto. Qed.

Section Parts.
Context (inner : fsort) (all : list formula) (s : state).
Definition has (op p : formula) : Prop := In op all /\ srt op = inner /\ In p (Operands op s).
Definition PI (st : pmap * formula * nat) : Prop :=
  let '(m, mc, am) := st in
  (forall p op, In op (partSet m p) -> has op p) /\ (mc = ffalse \/ exists op, has op mc).
Lemma distrPart_inv op p st : has op p -> PI st -> PI (distrPart op st p).
Proof.
  intros Ho. destruct st as [[m mc] am]. intros [H1 H2]. unfold distrPart.
  assert (A : forall q op', In op' (partSet ((p, addSet (partSet m p) op) :: m) q) -> has op' q).
  { intros q op'. rewrite partSet_cons. destruct (feqb_spec q p) as [->|]; auto. rewrite addSet_iff. intros [H| ->]; auto. }
  destruct (Nat.ltb _ _); split; auto. right. eauto.
Qed.
Lemma distrParts_inv operands : incl operands all -> PI (distrParts inner operands s).
Proof.
  intros Hi. unfold distrParts.
  assert (G : forall l st, incl l all -> PI st -> PI (fold_left (fun st op => if fsort_eqb (srt op) inner then fold_left (distrPart op) (Operands op s) st else st) l st)).
  { induction l as [|op l IH]; simpl; intros st Hl Hs; auto. apply IH; [intros x Hx; apply Hl; simpl; auto|].
    destruct (fsort_eqb (srt op) inner) eqn:E; auto.
    assert (srt op = inner) as Eo by (destruct (srt op), inner; auto; discriminate).
    assert (Q : forall ps st, incl ps (Operands op s) -> PI st -> PI (fold_left (distrPart op) ps st)).
    { induction ps as [|p ps IHp]; simpl; intros st' Hp Hs'; auto. apply IHp; [intros x Hx; apply Hp; simpl; auto|].
      apply distrPart_inv; auto. split; [apply Hl; simpl; auto|]. split; auto. apply Hp. simpl. auto. }
    apply Q; auto. apply incl_refl. }
  apply G; auto. split; [intros p op []|auto].
Qed.
End Parts.

Lemma sort_mk s op t k : dual k -> Den s op t -> srt op = k -> exists ps, t = mk k ps.
Proof. intros [-> | ->] D E; rewrite (Den_sort _ _ _ D) in E; destruct t; try discriminate; try (destruct cc; discriminate); simpl; eauto. Qed.

Lemma distributeNary_ok (rec : nat -> formula -> M formula) k ts s V f : dual k -> winv s V -> Den s f (mk k ts) ->
  (forall t, In t ts -> forall s' V' g, winv s' V' -> Den s' g t -> wp (fun n => rec n g) s' V' (DPost t)) ->
  wp (fun n => distributeNary (rec n) f) s V (DPost (mk k ts)).
Proof.
  intros Hk I D HR. unfold distributeNary.
  assert (Es : srt f = k) by (rewrite (Den_sort _ _ _ D); destruct Hk as [-> | ->]; auto). rewrite Es. cbv zeta.
  apply wp_get. pose proof (opNary_mk k s f ts Hk (v_wf _ _ I) D) as HO.
  eapply wp_bind.
  { apply (wp_mapM rec Den (fun s V g t => DPost t g s V)) with (cs := ts); auto.
    - intros; eapply wext_Den; eauto.
    - intros; eapply DPost_ext; eauto. }
  intros ds s1 V1 I1 X1 HD. simpl in HD.
  assert (exists us, Forall2 (Den s1) ds us /\ Forall2 (fun t u => equiv t u /\ narrow u t) ts us) as (us & Hus & Hrel).
  { clear -HD. induction HD as [|g t gs ts (u & A & B & C) HD (us & E & F)]; [exists []; split; constructor|].
    exists (u :: us). split; constructor; auto. }
  assert (Eus : equiv (mk k ts) (mk k us)).
  { intros b. rewrite !eval_mk. apply ev_Forall2. eapply Forall2_impl; [|exact Hrel]. intros t u [A _]. apply A. }
  assert (Nus : narrow (mk k us) (mk k ts)).
  { apply narrow_mk; auto. clear -Hrel. induction Hrel; constructor; auto. apply H. }
  set (operands := content (addAll [] ds)).
  assert (Hin : forall g, In g operands <-> In g ds) by (intros g; unfold operands; rewrite content_in, addAll_iff; simpl; tauto).
  pose proof (v_wf _ _ I1) as Hw1.
  destruct (sub_dens s1 ds us operands Hw1 Hus) as [os Hos]; [intros g; apply Hin|].
  assert (Eos : equiv (mk k us) (mk k os)) by (intros b; rewrite !eval_mk; eapply ev_same; eauto; intros g; symmetry; apply Hin).
  assert (Nos : narrow (mk k os) (mk k us)) by (eapply narrow_sub; eauto; intros g; apply Hin).
  apply wp_get. pose proof (distrParts_inv (flipSort k) operands s1 operands (incl_refl _)) as HP.
  destruct (distrParts (flipSort k) operands s1) as [[m mc] am]. destruct HP as [HP HM].
  destruct (feqb_spec mc ffalse) as [->|Hmc]; simpl.
  { eapply wp_conseq; [apply (wp_nary k s1 V1 operands os); auto|]. intros g s2 V2 _ _ (_ & u & Du & Eu & Nu & _). exists u. split; auto.
    split; [intros b; rewrite (Eus b), (Eos b); symmetry; apply Eu|]. eapply narrow_trans; eauto. eapply narrow_trans; eauto. }
  destruct (Nat.eqb am 1).
  { eapply wp_conseq; [apply (wp_nary k s1 V1 operands os); auto|]. intros g s2 V2 _ _ (_ & u & Du & Eu & Nu & _). exists u. split; auto.
    split; [intros b; rewrite (Eus b), (Eos b); symmetry; apply Eu|]. eapply narrow_trans; eauto. eapply narrow_trans; eauto. }
  destruct HM as [->|(op0 & Ho1 & Ho2 & Ho3)]; [contradiction|].
  (* the tree of the most common part *)
  pose proof (dual_flip k Hk) as Hfk.
  assert (Hop : forall op, In op operands -> srt op = flipSort k -> exists ps, Den s1 op (mk (flipSort k) ps) /\ Forall2 (Den s1) (Operands op s1) ps).
  { intros op Hop Hs. destruct (Forall2_in_ll _ _ _ Hos _ Hop) as (t & Ht & Dt). destruct (sort_mk s1 op t (flipSort k) Hfk Dt Hs) as [ps ->].
    exists ps. split; auto. destruct (Den_mk_inv _ s1 op ps Hfk Hw1 Dt) as (l & -> & _ & HF & _). auto. }
  destruct (Hop op0 Ho1 Ho2) as (ps0 & Dp0 & Fp0). destruct (Forall2_in_ll _ _ _ Fp0 _ Ho3) as (mt & Hmt & Dmc).
  set (st := partSet m mc) in *.
  assert (Hst : forall g, In g (content st) -> In g operands) by (intros g Hg; apply (proj1 (content_in _ _)) in Hg; apply (HP mc g Hg)).
  destruct (sub_dens s1 operands os (content st) Hw1 Hos Hst) as [ss Hss].
  eapply wp_bind.
  { apply (wp_mapM (fun n g => parts <- get (Operands g) ;; naryOp (flipSort k) (filter (fun p => negb (feqb p mc)) parts))
      (fun s' g t => Den s' g t /\ Den s' mc mt /\ exists ps, t = mk (flipSort k) ps /\ In mc (Operands g s') /\ Forall2 (Den s') (Operands g s') ps)
      (fun s' V' g t => exists u, Den s' g u /\ (forall b, conn (flipSort k) (eval b mt) (eval b u) = eval b t) /\ narrow u t /\ narrow mt t)) with (cs := ss).
    - intros s2 V2 s3 V3 X23 g t (A & B & ps & E & C & F). pose proof (x_ext _ _ _ _ X23) as E23.
      split; [eapply wext_Den; eauto|]. split; [eapply wext_Den; eauto|]. exists ps. split; auto.
      rewrite (ext_Operands s2 s3 g E23) by (eapply Den_known; eauto). split; auto. eapply wext_Dens; eauto.
    - intros s2 V2 s3 V3 X23 g t (u & A & B). exists u. split; auto. eapply wext_Den; eauto.
    - intros g t Hg Ht s2 V2 I2 X2 (A & B & ps & E & C & F). apply wp_get.
      set (parts := Operands g s2) in *. set (fl := filter _ parts).
      assert (Hfl : forall x, In x (mc :: fl) <-> In x parts).
      { intros x. unfold fl. simpl. rewrite filter_In. split.
        - intros [<-|[? _]]; auto.
        - intros Hx. destruct (feqb_spec x mc) as [->|]; auto. }
      destruct (sub_dens s2 parts ps fl (v_wf _ _ I2) F) as [fs Hfs]; [intros x Hx; apply Hfl; simpl; auto|].
      eapply wp_conseq; [apply (wp_nary (flipSort k) s2 V2 fl fs); auto|]. intros r s3 V3 _ _ (_ & u & Du & Eu & Nu & _).
      exists u. split; auto. subst t. split; [|split].
      + intros b. rewrite (Eu b), !eval_mk.
        rewrite <- (ev_same (flipSort k) s2 b (mc :: fl) (mt :: fs) parts ps); auto.
      + eapply narrow_trans; [exact Nu|]. eapply narrow_sub; eauto. intros x Hx. apply Hfl. simpl; auto.
      + intros x Hx. apply occurs_mk; auto. destruct (Forall2_in_ll _ _ _ F _ C) as (t' & Ht' & Dt'). rewrite (Den_fun _ _ _ _ Dt' B) in Ht'. eauto.
    - auto.
    - assert (G : forall g, In g (content st) -> In mc (Operands g s1)) by (intros g Hg; apply (proj1 (content_in _ _)) in Hg; apply (HP mc g Hg)).
      assert (G2 : forall g, In g (content st) -> srt g = flipSort k) by (intros g Hg; apply (proj1 (content_in _ _)) in Hg; apply (HP mc g Hg)).
      clear -Hss G G2 Hop Hst Dmc Hw1. induction Hss as [|g t l ss Dg Hss IH]; constructor.
      + split; auto. split; auto. destruct (Hop g) as (ps & Dg' & Fg); [apply Hst; simpl; auto|apply G2; simpl; auto|].
        exists ps. rewrite (Den_fun _ _ _ _ Dg Dg'). split; auto. split; auto. apply G. simpl; auto.
      + apply IH; intros; [apply Hst|apply G|apply G2]; simpl; auto. }
  intros rel s2 V2 I2 X2 Hrel2. simpl in Hrel2.
  assert (exists rs, Forall2 (Den s2) rel rs /\ Forall2 (fun r t => (forall b, conn (flipSort k) (eval b mt) (eval b r) = eval b t) /\ narrow r t /\ narrow mt t) rs ss) as (rs & Hrs & Hrr).
  { clear -Hrel2. induction Hrel2 as [|g t gs ts (u & A & B) HD (us & E & F)]; [exists []; split; constructor|].
    exists (u :: us). split; constructor; auto. }
  eapply wp_bind; [apply (wp_nary k s2 V2 rel rs); auto|]. intros o s3 V3 I3 X3 (_ & uo & Do & Eo & No & _).
  assert (Dm3 : Den s3 mc mt) by (eapply wext_Den; [exact X3|]; eapply wext_Den; [exact X2|]; auto).
  eapply wp_bind; [apply (wp_nary (flipSort k) s3 V3 [mc; o] [mt; uo]); auto|]. intros i s4 V4 I4 X4 (_ & ui & Di & Ei & Ni & _).
  set (rest := filter (fun op => negb (memF op st)) operands).
  assert (Hos4 : Forall2 (Den s4) operands os) by (eapply wext_Dens; [exact X4|]; eapply wext_Dens; [exact X3|]; eapply wext_Dens; [exact X2|]; auto).
  assert (Hss4 : Forall2 (Den s4) (content st) ss) by (eapply wext_Dens; [exact X4|]; eapply wext_Dens; [exact X3|]; eapply wext_Dens; [exact X2|]; auto).
  destruct (sub_dens s4 operands os rest (v_wf _ _ I4) Hos4) as [re Hre]; [intros x Hx; apply filter_In in Hx; tauto|].
  destruct (known_dens s4 (content (addSet rest i)) (v_wf _ _ I4)) as [fs Hfs].
  { apply Forall_forall. intros x Hx. apply (proj1 (content_in _ _)) in Hx; apply (proj1 (addSet_iff _ _ _)) in Hx. destruct Hx as [Hx| ->]; [|eapply Den_known; eauto].
    eapply Dens_Forall_known; eauto. }
  assert (Hall : forall x, In x (content st ++ rest) <-> In x operands).
  { intros x. unfold rest. rewrite in_app_iff, filter_In, content_in. split.
    - intros [H|[H _]]; auto. apply Hst. apply (proj2 (content_in _ _)); auto.
    - intros H. destruct (memF x st) eqn:Em; [apply memF_iff in Em; auto|right; auto]. }
  assert (Hfi : forall x, In x (content (addSet rest i)) <-> In x (i :: rest)).
  { intros x. rewrite content_in, addSet_iff. simpl. intuition. }
  eapply wp_conseq; [apply (wp_nary k s4 V4 (content (addSet rest i)) fs); auto|]. intros g s5 V5 _ X5 (_ & u & Du & Eu & Nu & _).
  exists u. split; auto. split.
  - intros b. rewrite (Eus b), (Eos b), (Eu b), !eval_mk.
    rewrite <- (ev_same k s4 b (content st ++ rest) (ss ++ re) operands os); auto using Forall2_app.
    rewrite (ev_same k s4 b (content (addSet rest i)) fs (i :: rest) (ui :: re)); auto.
    rewrite ev_app. unfold ev at 3. simpl. fold (ev k b re). f_equal.
    rewrite (Ei b), ev_pair, (Eo b), eval_mk. apply ev_distr; auto. eapply Forall2_impl; [|exact Hrr]. intros r t [A _]. apply A.
  - eapply narrow_trans; [exact Nu|]. eapply narrow_trans; [|eapply narrow_trans; [exact Nos|exact Nus]].
    intros x. rewrite !occurs_mk; auto. intros (t & Ht & Ho). destruct (Forall2_in_rr _ _ _ Hfs _ Ht) as (g' & Hg' & Dg').
    apply Hfi in Hg'. destruct Hg' as [<-|Hg'].
    + rewrite (Den_fun _ _ _ _ Dg' Di) in Ho. apply Ni in Ho. apply occurs_mk in Ho; auto. destruct Ho as (y & [<-|[<-|[]]] & Ho).
      * exists (mk (flipSort k) ps0). split; [|apply occurs_mk; eauto].
        destruct (Forall2_in_ll _ _ _ Hos _ Ho1) as (t0 & Ht0 & Dt0). rewrite (Den_fun _ _ _ _ Dp0 Dt0). auto.
      * apply No in Ho. apply occurs_mk in Ho; auto. destruct Ho as (r & Hr & Ho). destruct (Forall2_in_ll _ _ _ Hrr _ Hr) as (t' & Ht' & _ & Hn & _).
        destruct (Forall2_in_rr _ _ _ Hss _ Ht') as (g2 & Hg2 & Dg2). destruct (Forall2_in_ll _ _ _ Hos _ (Hst _ Hg2)) as (t2 & Ht2 & Dt2).
        rewrite (Den_fun _ _ _ _ Dg2 Dt2) in Hn. eauto.
    + assert (Ho' : In g' operands) by (apply Hall, in_or_app; auto). destruct (Forall2_in_ll _ _ _ Hos4 _ Ho') as (t2 & Ht2 & Dt2).
      rewrite (Den_fun _ _ _ _ Dg' Dt2) in Ho. eauto.
Qed.

Lemma distribute_ok : forall t s V f, winv s V -> Den s f t -> wp (fun n => distributeS n f) s V (DPost t).
Proof.
  intros t. induction t as [t IH] using subtree_ind. rewrite Forall_forall in IH. intros s V f I D. apply wp_S. cbn [distributeS].
  apply wp_get. unfold lookupTrans. destruct (transC s TransDistr f) as [g|] eqn:E.
  { destruct (k_trans _ _ (v_cache _ _ I) _ _ _ E) as (t' & u & Ht & Hu & Hs). apply wp_ret; auto. rewrite (Den_fun _ _ _ _ Ht D) in Hs.
    exists u. split; auto. }
  cut (wp (fun n => match srt f with
           | SFalse | STrue | SLit | SCC | SPBC => ret f
           | SNot => op <- get (opNot f) ;; d <- distributeS n op ;; up (Not d)
           | SImpl | SEquiv => q <- get (opBin f) ;; l <- distributeS n (fst q) ;; r <- distributeS n (snd q) ;; binOp (srt f) l r
           | SOr | SAnd => distributeNary (distributeS n) f
           end) s V (DPost t)).
  { intros HB. eapply wp_bind; [exact HB|]. intros g s1 V1 I1 X1 (u & Du & Eu & Nu).
    destruct (winv_setTrans s1 V1 TransDistr f g t u I1) as [I2 X2]; auto; [eapply wext_Den; eauto|split; auto|].
    eapply wp_put; [exact X2|]. apply wp_ret; auto. exists u. split; [eapply wext_Den; eauto|auto]. }
  rewrite (Den_sort _ _ _ D).
  assert (Self : wp (fun _ => ret f) s V (DPost t)) by (apply wp_ret; auto; exists t; split; auto; split; [intros b; auto|intros x; auto]).
  destruct t as [| |np|t|ts|ts|a b|a b|[] c r ls cs]; auto.
  - apply wp_get. pose proof (opNot_den s f t (v_wf _ _ I) D) as Do.
    eapply wp_bind; [apply (IH t); simpl; auto|].
    intros d s1 V1 I1 X1 (u & Du & Eu & Nu). eapply wp_conseq; [apply (wp_not s1 V1 d u); auto|].
    intros g s2 V2 _ _ (_ & w & Dw & Hn). exists w. split; auto. split.
    + intros b. rewrite (is_neg_of_eval _ _ b Hn). simpl. rewrite (Eu b). auto.
    + apply neg_narrow in Hn. intros x Hx. simpl. apply Nu, Hn; auto.
  - apply (distributeNary_ok (fun n => distributeS n) SAnd ts s V f (or_introl eq_refl) I D). intros t Ht s' V' g I' D'. apply IH; auto.
  - apply (distributeNary_ok (fun n => distributeS n) SOr ts s V f (or_intror eq_refl) I D). intros t Ht s' V' g I' D'. apply IH; auto.
  - apply wp_get. destruct (opBin_impl s f a b (v_wf _ _ I) D) as [Da Db].
    eapply wp_bind; [apply (IH a); simpl; auto|]. intros l s1 V1 I1 X1 (ua & Dua & Eua & Nua).
    eapply wp_bind; [apply (IH b); simpl; auto; eapply wext_Den; eauto|]. intros r s2 V2 I2 X2 (ub & Dub & Eub & Nub).
    rewrite binOp_impl. eapply wp_conseq; [apply rp_wp; [exact I2|apply (rp_impl l r ua ub); [apply I2|eapply wext_Den; eauto|auto]]|].
    intros g s3 V3 _ _ (_ & u & Du & Eu & Su). exists u. split; auto. split.
    + intros v. rewrite (Eu v). simpl. rewrite (Eua v), (Eub v). auto.
    + intros x Hx. simpl. destruct Su as [-> |[-> |[Hn| ->]]]; simpl in Hx; auto; [destruct Hx|apply neg_narrow in Hn; auto|destruct Hx; auto].
  - apply wp_get. destruct (opBin_equiv s f a b (v_wf _ _ I) D) as [Da Db].
    eapply wp_bind; [apply (IH a); simpl; auto|]. intros l s1 V1 I1 X1 (ua & Dua & Eua & Nua).
    eapply wp_bind; [apply (IH b); simpl; auto; eapply wext_Den; eauto|]. intros r s2 V2 I2 X2 (ub & Dub & Eub & Nub).
    rewrite binOp_equiv. eapply wp_conseq; [apply rp_wp; [exact I2|apply (rp_equiv l r ua ub); [apply I2|eapply wext_Den; eauto|auto]]|].
    intros g s3 V3 _ _ (_ & u & Du & Eu & Su). exists u. split; auto. split.
    + intros v. rewrite (Eu v). simpl. rewrite (Eua v), (Eub v). auto.
    + intros x Hx. simpl. destruct Su as [-> |[-> |[-> |[-> |[Hn|[Hn| ->]]]]]]; simpl in Hx; auto; try (destruct Hx; fail); try (apply neg_narrow in Hn; auto); destruct Hx; auto.
Qed.

(** ** FactorOut *)
Definition cnt (g : formula) (l : list formula) : nat := length (filter (feqb g) l).
Lemma cnt_app g l m : cnt g (l ++ m) = (cnt g l + cnt g m)%nat.
Proof. unfold cnt. rewrite filter_app, app_length. auto. Qed.
Lemma feqb_refl f : feqb f f = true. Proof. destruct (feqb_spec f f); auto. Qed.

Lemma countStep_inv l : forall pre c mf mx, (forall g, c g = cnt g pre) -> (mx <= cnt mf pre)%nat ->
  let '(c', mf', mx') := fold_left countStep l (c, mf, mx) in (mx' <= cnt mf' (pre ++ l))%nat.
Proof.
  induction l as [|g l IH]; intros pre c mf mx Hc Hm; cbn [fold_left].
  - rewrite app_nil_r. auto.
  - assert (Hc' : forall g', upd feqb c g (S (c g)) g' = cnt g' (pre ++ [g])).
    { intros g'. unfold upd. rewrite cnt_app. unfold cnt at 2. simpl. destruct (feqb_spec g' g) as [->|]; simpl; rewrite Hc; lia. }
    replace (pre ++ g :: l) with ((pre ++ [g]) ++ l) by (rewrite <- app_assoc; auto).
    unfold countStep at 2. cbv zeta. change (Nat.succ (c g)) with (S (c g)). destruct (Nat.ltb_spec mx (S (c g))).
    + apply IH; auto. rewrite cnt_app. unfold cnt at 2. simpl. rewrite feqb_refl. simpl. rewrite Hc. lia.
    + apply IH; auto. rewrite cnt_app. lia.
Qed.
Lemma maxOccurring_spec f s mf : maxOccurring f s = Some mf -> (2 <= cnt mf (flat_map (counted s) (Operands f s)))%nat.
Proof.
  unfold maxOccurring. set (l := flat_map _ _). pose proof (countStep_inv l [] (fun _ => 0%nat) ffalse 0 (fun _ => eq_refl) (le_n _)) as H. simpl in H.
  destruct (fold_left _ _ _) as [[c m] x]. destruct (Nat.ltb_spec x 2); intros E; inversion E; subst. lia.
Qed.
Lemma cnt_in g l : (1 <= cnt g l)%nat -> In g l.
Proof.
  unfold cnt. induction l; simpl; [lia|]. destruct (feqb_spec g a) as [->|]; auto.
Qed.
Lemma filter_weight s mf m ops ps : Forall2 (Den s) ops ps -> Den s mf m ->
  exists fs, Forall2 (Den s) (filter (fun op => negb (feqb op mf)) ops) fs /\ (wsum fs + cnt mf ops * weight m = wsum ps)%nat.
Proof.
  intros HF Hm. induction HF as [|o p ops ps D HF (fs & A & B)]; [exists []; split; [constructor|reflexivity]|].
  unfold cnt in *. simpl. destruct (feqb_spec o mf) as [->|Hne]; simpl.
  - rewrite feqb_refl. simpl. exists fs. split; auto. rewrite (Den_fun _ _ _ _ D Hm), wsum_cons. lia.
  - destruct (feqb_spec mf o); [congruence|]. exists (p :: fs). split; [constructor; auto|]. rewrite !wsum_cons. lia.
Qed.
Lemma ext_counted s s' a : ext s s' -> known s a -> counted s' a = counted s a.
Proof. intros E K. unfold counted. rewrite (ext_Operands s s' a E K). auto. Qed.

Definition splitPost (k : fsort) (m : tree) (s : state) (V : asg -> Prop) (q : bool * formula) (c : tree * nat) : Prop :=
  exists u, Den s (snd q) u /\ (weight u + snd c * weight m <= weight (fst c))%nat /\ narrow2 u (fst c) /\
    (forall b, if fst q then conn (flipSort k) (eval b m) (eval b u) = eval b (fst c) else eval b u = eval b (fst c)).
Lemma splitPost_ext k m s V s' V' q c : wext s V s' V' -> splitPost k m s V q c -> splitPost k m s' V' q c.
Proof. intros X (u & A & B). exists u. split; auto. eapply wext_Den; eauto. Qed.

Lemma innerK_sort k s a t : dual k -> Den s a t -> innerK k t = true -> (srt a = SAnd \/ srt a = SOr) -> srt a = flipSort k.
Proof. intros [-> | ->] D Hi Hs; rewrite (Den_sort _ _ _ D) in *; destruct t; try discriminate; destruct Hs; try discriminate; auto; destruct cc; discriminate. Qed.

Lemma splitOperand_ok k mf m s V a t : dual k -> winv s V -> Den s a t -> innerK k t = true -> Den s mf m ->
  wp (fun _ => splitOperand k mf a) s V (fun q s' V' => splitPost k m s' V' q (t, cnt mf (counted s a))).
Proof.
  intros Hk I D Hi Dm. unfold splitOperand. pose proof (v_wf _ _ I) as Hw.
  assert (Other : srt a <> SLit -> srt a <> SAnd -> srt a <> SOr -> wp (fun _ => ret (false, a)) s V (fun q s' V' => splitPost k m s' V' q (t, cnt mf (counted s a)))).
  { intros H1 H2 H3. apply wp_ret; auto. exists t. simpl. split; auto. split; [|split; [intros x; auto|auto]].
    unfold counted. destruct (srt a); try congruence; simpl; lia. }
  assert (Nary : srt a = SAnd \/ srt a = SOr -> wp (fun _ => ops <- get (opNary a) ;; app <- naryOp (srt a) (filter (fun op => negb (feqb op mf)) ops) ;; ret (memF mf ops, app)) s V
                   (fun q s' V' => splitPost k m s' V' q (t, cnt mf (counted s a)))).
  { intros Hs. pose proof (innerK_sort k s a t Hk D Hi Hs) as Es. pose proof (dual_flip k Hk) as Hfk.
    destruct (sort_mk s a t (flipSort k) Hfk D Es) as [ps ->]. destruct (Den_mk_inv _ s a ps Hfk Hw D) as (l & El & En & HF & _).
    apply wp_get. rewrite En, Es. destruct (filter_weight s mf m l ps HF Dm) as (fs & Hfs & Wfs).
    eapply wp_bind; [apply (wp_nary2 (flipSort k) s V _ fs); auto|]. intros app s1 V1 I1 X1 (_ & u & Du & Eu & Nu & Ru & _). apply wp_ret; auto.
    exists u. simpl. split; auto. split.
    { apply nary_weight in Ru. rewrite weight_mk. unfold counted. rewrite El. destruct Hs as [-> | ->]; lia. }
    split. { eapply narrow2_trans; [exact Nu|]. eapply narrow2_sub; eauto. intros x Hx. apply filter_In in Hx. tauto. }
    intros b. rewrite (Eu b), !eval_mk. destruct (memF mf l) eqn:Em.
    - apply memF_iff in Em. rewrite <- (ev_same (flipSort k) s b (mf :: filter (fun op => negb (feqb op mf)) l) (m :: fs) l ps); auto.
      intros x. simpl. rewrite filter_In. split; [intros [<-|[? _]]; auto|]. intros Hx. destruct (feqb_spec x mf) as [->|]; auto.
    - apply (ev_same (flipSort k) s b (filter (fun op => negb (feqb op mf)) l) fs l ps); auto. intros x. rewrite filter_In. split; [tauto|]. intros Hx. split; auto.
      destruct (feqb_spec x mf) as [->|]; auto. apply memF_iff in Hx. congruence. }
  destruct (srt a) eqn:Es; try (apply Other; discriminate); try (apply Nary; auto; fail).
  apply wp_ret; auto. unfold counted. rewrite Es. pose proof (Den_sort _ _ _ D) as Ds. rewrite Es in Ds.
  destruct t as [| |np|t|ts|ts|a' b'|a' b'|[] c r ls cs]; try discriminate.
  unfold cnt. simpl. destruct (feqb_spec a mf) as [->|Hne].
  - rewrite feqb_refl. simpl. assert (m = TLit np) as -> by (eapply Den_fun; eauto).
    exists (if fsort_eqb k SOr then TTrue else TFalse). destruct Hk as [-> | ->]; simpl; (split; [apply Den_true||apply Den_false|]); (split; [lia|]);
      (split; [intros x []|]); intros b; rewrite ?andb_true_r, ?orb_false_r; auto.
  - destruct (feqb_spec mf a); [congruence|]. exists (TLit np). simpl. split; auto. split; [lia|]. split; [intros x; auto|auto].
Qed.

Lemma split_lists k m s V : dual k -> forall qs cs, Forall2 (splitPost k m s V) qs cs ->
  exists uu rr, Forall2 (Den s) (map snd (filter (fun q => negb (fst q)) qs)) uu /\ Forall2 (Den s) (map snd (filter fst qs)) rr /\
    (wsum uu + wsum rr + list_sum (map snd cs) * weight m <= wsum (map fst cs))%nat /\
    (forall b, conn k (ev k b uu) (conn (flipSort k) (eval b m) (ev k b rr)) = ev k b (map fst cs)) /\
    (forall u, In u uu \/ In u rr -> narrow2 u (mk k (map fst cs))).
Proof.
  intros Hk qs cs H. induction H as [|[e g] [t n] qs cs (u & Du & Wu & Nu & Eu) HF (uu & rr & A & B & C & D & E)]; simpl in *.
  - exists [], []. split; [constructor|]. split; [constructor|]. split; [unfold wsum; simpl; lia|]. split; [|intros u [[]|[]]].
    intros b. unfold ev. simpl. destruct Hk as [-> | ->]; simpl; destruct (eval b m); auto.
  - assert (N2 : forall w, narrow2 w (mk k (map fst cs)) -> narrow2 w (mk k (t :: map fst cs))).
    { intros w Hw x Hx. apply Hw in Hx. apply (occ2_mk k) in Hx; auto. apply occ2_mk; auto. destruct Hx as (y & Hy & Ho). exists y. simpl; auto. }
    assert (N1 : narrow2 u (mk k (t :: map fst cs))).
    { intros x Hx. apply occ2_mk; auto. exists t. simpl; auto. }
    destruct e; simpl in *.
    + exists uu, (u :: rr). split; auto. split; [constructor; auto|]. split; [rewrite !wsum_cons; lia|]. split.
      * intros b. specialize (D b). specialize (Eu b). unfold ev in *. simpl. rewrite <- D, <- Eu.
        destruct Hk as [-> | ->]; simpl; destruct (eval b m), (eval b u), (fold_right _ _ uu), (fold_right _ _ rr); auto.
      * intros w [Hw|[<-|Hw]]; auto.
    + exists (u :: uu), rr. split; [constructor; auto|]. split; auto. split; [rewrite !wsum_cons; lia|]. split.
      * intros b. specialize (D b). specialize (Eu b). unfold ev in *. simpl. rewrite <- D, <- Eu.
        destruct Hk as [-> | ->]; simpl; destruct (eval b m), (eval b u), (fold_right _ _ uu), (fold_right _ _ rr); auto.
      * intros w [[<-|Hw]|Hw]; auto.
Qed.

Definition lighter (t : tree) (g : formula) (s : state) (V : asg -> Prop) : Prop :=
  exists u, Den s g u /\ equiv t u /\ narrow2 u t /\ (weight u < weight t)%nat.
Lemma factorOutStep_ok k ts s V f : dual k -> winv s V -> Den s f (mk k ts) ->
  wp (fun _ => factorOutStep f) s V (fun r s' V' => match r with Some g => lighter (mk k ts) g s' V' | None => True end).
Proof.
  intros Hk I D. unfold factorOutStep. apply wp_get. destruct (maxOccurring f s) as [mf|] eqn:Em; [|apply wp_ret; auto].
  apply maxOccurring_spec in Em. pose proof (v_wf _ _ I) as Hw.
  assert (Es : srt f = k) by (rewrite (Den_sort _ _ _ D); destruct Hk as [-> | ->]; auto). rewrite Es. cbv zeta.
  destruct (Den_mk_inv k s f ts Hk Hw D) as (l & El & _ & HF & _ & Hi). rewrite El in Em. apply wp_get. rewrite El. rewrite forallb_forall in Hi.
  (* the formula that is factored out *)
  assert (exists m, Den s mf m /\ (1 <= weight m)%nat /\ narrow2 m (mk k ts)) as (m & Dm & Wm & Nm).
  { assert (Hin : In mf (flat_map (counted s) l)) by (apply cnt_in; lia). apply in_flat_map in Hin. destruct Hin as (a & Ha & Hc).
    destruct (Forall2_in_ll _ _ _ HF _ Ha) as (t & Ht & Dt). specialize (Hi t Ht). unfold counted in Hc.
    assert (Nary : srt a = SAnd \/ srt a = SOr -> In mf (Operands a s) -> exists m, Den s mf m /\ (1 <= weight m)%nat /\ narrow2 m (mk k ts)).
    { intros Hs Hm. pose proof (innerK_sort k s a t Hk Dt Hi Hs) as Ea. pose proof (dual_flip k Hk) as Hfk.
      destruct (sort_mk s a t (flipSort k) Hfk Dt Ea) as [ps ->]. destruct (Den_mk_inv _ s a ps Hfk Hw Dt) as (l' & El' & _ & HF' & _ & Hi').
      rewrite El' in Hm. destruct (Forall2_in_ll _ _ _ HF' _ Hm) as (m & Hmm & Dm). exists m. split; auto. rewrite forallb_forall in Hi'.
      split; [eapply Den_weight; eauto; apply (innerK_const (flipSort k)); auto|].
      intros x Hx. apply occ2_mk; auto. exists (mk (flipSort k) ps). split; auto. apply occ2_mk; eauto. }
    destruct (srt a); try (destruct Hc; fail); auto.
    destruct Hc as [<-|[]]. exists t. split; auto. split; [eapply Den_weight; eauto; apply (innerK_const k); auto|].
    intros x Hx. apply occ2_mk; eauto. }
  set (cs := combine ts (map (fun a => cnt mf (counted s a)) l)).
  assert (Hlen : length (map (fun a => cnt mf (counted s a)) l) = length ts) by (rewrite map_length; eapply Forall2_length; eauto).
  assert (Ecs : map fst cs = ts /\ list_sum (map snd cs) = cnt mf (flat_map (counted s) l)).
  { unfold cs. clear -HF. induction HF; simpl; [split; reflexivity|]. destruct IHHF as [A B]. rewrite A, B, cnt_app. auto. }
  destruct Ecs as [Ec1 Ec2].
  eapply wp_bind.
  { apply (wp_mapM (fun _ a => splitOperand k mf a)
      (fun s' a c => Den s' a (fst c) /\ innerK k (fst c) = true /\ Den s' mf m /\ snd c = cnt mf (counted s' a))
      (splitPost k m)) with (cs := cs); auto.
    - intros s1 V1 s2 V2 X a c (A & B & C & E). pose proof (x_ext _ _ _ _ X) as EX.
      split; [eapply wext_Den; eauto|]. split; auto. split; [eapply wext_Den; eauto|]. rewrite (ext_counted s1 s2 a EX); auto. eapply Den_known; eauto.
    - intros; eapply splitPost_ext; eauto.
    - intros a [t n] Ha Hc s1 V1 I1 X1 (A & B & C & E). simpl in *. subst n. apply (splitOperand_ok k mf m s1 V1 a t); auto.
    - unfold cs. clear -HF Hi Dm. induction HF; simpl; constructor; simpl; auto.
      + split; auto. split; [apply Hi; simpl; auto|]. auto.
      + apply IHHF. intros; apply Hi; simpl; auto. }
  intros qs s1 V1 I1 X1 HQ. simpl in HQ. destruct (split_lists k m s1 V1 Hk qs cs HQ) as (uu & rr & A & B & C & Ev & Nn).
  rewrite Ec1, Ec2 in C. rewrite Ec1 in Ev, Nn.
  eapply wp_bind; [apply (wp_nary2 k s1 V1 _ uu); auto|]. intros un s2 V2 I2 X2 (_ & u2 & D2 & E2 & N2 & R2 & _).
  eapply wp_bind; [apply (wp_nary2 k s2 V2 _ rr); auto; eapply wext_Dens; eauto|]. intros re s3 V3 I3 X3 (_ & u3 & D3 & E3 & N3 & R3 & _).
  assert (Dm3 : Den s3 mf m) by (eapply wext_Den; [exact X3|]; eapply wext_Den; [exact X2|]; eapply wext_Den; [exact X1|]; auto).
  eapply wp_bind; [apply (wp_nary2 (flipSort k) s3 V3 [mf; re] [m; u3]); auto using dual_flip|]. intros fo s4 V4 I4 X4 (_ & u4 & D4 & E4 & N4 & R4 & _).
  assert (D24 : Den s4 un u2) by (eapply wext_Den; [exact X4|]; eapply wext_Den; [exact X3|]; auto).
  eapply wp_bind; [apply (wp_nary2 k s4 V4 [un; fo] [u2; u4]); auto|]. intros g s5 V5 I5 X5 (_ & u5 & D5 & E5 & N5 & R5 & _).
  apply wp_ret; auto. exists u5. split; auto. split; [|split].
  - intros b. rewrite (E5 b), ev_pair, (E2 b), (E4 b), ev_pair, (E3 b), !eval_mk. symmetry. apply Ev.
  - assert (G : forall l, incl l (uu ++ rr) -> narrow2 (mk k l) (mk k ts)).
    { intros l0 Hl x Hx. apply occ2_mk in Hx; auto. destruct Hx as (t & Ht & Ho). apply (Nn t); auto. apply in_app_iff. auto. }
    intros x Hx. apply N5 in Hx. apply occ2_mk in Hx; auto. destruct Hx as (t & [<-|[<-|[]]] & Ho).
    + apply N2 in Ho. apply (G uu); auto. intros y Hy. apply in_app_iff; auto.
    + apply N4 in Ho. apply occ2_mk in Ho; auto using dual_flip. destruct Ho as (t & [<-|[<-|[]]] & Ho); auto.
      apply N3 in Ho. apply (G rr); auto. intros y Hy. apply in_app_iff; auto.
  - apply nary_weight in R2. apply nary_weight in R3. apply nary_weight in R4. apply nary_weight in R5.
    rewrite weight_mk. unfold wsum in R4, R5. simpl in R4, R5. fold (wsum uu) in *.
    assert (2 * weight m <= cnt mf (flat_map (counted s) l) * weight m)%nat by (apply Nat.mul_le_mono_r; auto). lia.
Qed.

Definition FOPost (t : tree) (f g : formula) (s : state) (V : asg -> Prop) : Prop :=
  exists u, Den s g u /\ equiv t u /\ narrow2 u t /\ (g = f \/ (weight u < weight t)%nat).
Lemma FOPost_ext t f g s V s' V' : wext s V s' V' -> FOPost t f g s V -> FOPost t f g s' V'.
Proof. intros X (u & A & B). exists u. split; auto. eapply wext_Den; eauto. Qed.
Lemma FOPost_self t f s V : Den s f t -> FOPost t f f s V.
Proof. intros D. exists t. split; auto. split; [intros b; auto|]. split; [intros x; auto|auto]. Qed.

Section FactorOut.
Context (less : rating).
Definition FOP (w : nat) : Prop := forall t s V f i j, (weight t < w)%nat -> winv s V -> Den s f t ->
  wp (fun n => factorLoop (factorOutRec less (i + n)) (j + n) f) s V (FOPost t f).

Lemma Dens_same s l ts l' : wf s -> Forall2 (Den s) l ts -> Forall2 (Den s) l' ts -> l = l'.
Proof. intros Hw A B. eapply Dens_inj; eauto. Qed.
Lemma naryOp_exact k s f ops ts : dual k -> wf s -> Den s f (mk k ts) -> Forall2 (Den s) ops ts -> naryOp k ops s = Some (f, s).
Proof.
  intros [-> | ->] Hw D HF; simpl in D.
  - rewrite naryOp_and. unfold up. rewrite (And_exact s f ops ts); auto.
  - rewrite naryOp_or. unfold up. rewrite (Or_exact s f ops ts); auto.
Qed.

Lemma simplify_ok s V g u : winv s V -> Den s g u -> (srt g = SAnd \/ srt g = SOr) ->
  wp (fun _ => factorOutSimplify less g) s V (fun h s' V' => FOPost u g h s' V').
Proof.
  intros I D Hs. destruct (sort_mk s g u (srt g) Hs D eq_refl) as [ts ->]. unfold factorOutSimplify.
  eapply wp_bind; [apply (factorOutStep_ok (srt g) ts s V g); auto|]. intros [h|] s1 V1 I1 X1 HP.
  - apply wp_get. apply wp_ret; auto. destruct (less s1 g h).
    + apply FOPost_self. eapply wext_Den; eauto.
    + destruct HP as (w & A & B & C & E). exists w. auto.
  - apply wp_ret; auto. apply FOPost_self. eapply wext_Den; eauto.
Qed.

Lemma notable_neg s op t u : wf s -> (exists f, Den s f (TNot t)) -> Den s op t -> is_neg_of t u -> u = TNot t.
Proof.
  intros Hw [f D] Do Hn. destruct (Den_not_inv _ _ _ D) as (g & Hg & Dg). destruct Hw as [W _]. destruct (w_ok _ W _ _ Hg) as (_ & Hno & _).
  unfold notable in Hno. rewrite (Den_sort _ _ _ Dg) in Hno. destruct t; try discriminate; exact Hn.
Qed.

Lemma neg_weight t u : is_neg_of t u -> (weight u <= S (weight t))%nat.
Proof. destruct t as [| |[x p]|t|ts|ts|a b|a b|cc c r ls cs]; simpl; intros ->; simpl; lia. Qed.

Lemma rec_ok w t s V f i : FOP w -> (weight t <= w)%nat -> winv s V -> Den s f t ->
  wp (fun n => factorOutRec less (S (i + n)) f) s V (FOPost t f).
Proof.
  intros HW Ht I D. cbn [factorOutRec]. pose proof (v_wf _ _ I) as Hw.
  assert (Self : wp (fun _ => ret f) s V (FOPost t f)) by (apply wp_ret; auto; apply FOPost_self; auto).
  assert (Nary : forall k ts, dual k -> t = mk k ts -> srt f = k ->
     wp (fun n => ops <- get (opNary f) ;; nops <- mapM (factorLoop (factorOutRec less (i + n)) (i + n)) ops ;; g <- naryOp k nops ;;
                  match srt g with SAnd | SOr => factorOutSimplify less g | _ => ret g end) s V (FOPost t f)).
  { intros k ts Hk -> Es. destruct (Den_mk_inv k s f ts Hk Hw D) as (l & _ & El & HF & _ & _). apply wp_get. rewrite El.
    assert (Hlt : forall t, In t ts -> (weight t < w)%nat).
    { intros t Hin. pose proof (operand_weight k s f ts t Hk Hw D Hin). rewrite weight_mk in Ht. lia. }
    eapply wp_bind.
    { apply (wp_mapM (fun n => factorLoop (factorOutRec less (i + n)) (i + n)) (fun s' a c => Den s' a (snd c) /\ fst c = a)
        (fun s' V' g c => FOPost (snd c) (fst c) g s' V')) with (cs := combine l ts).
      - intros s1 V1 s2 V2 X a c [A B]. split; auto. eapply wext_Den; eauto.
      - intros; eapply FOPost_ext; eauto.
      - intros a [a' t] Ha Hc s1 V1 I1 X1 [A B]. simpl in *. subst a'. apply HW; auto. apply Hlt. eapply in_combine_r; eauto.
      - auto.
      - clear -HF. induction HF; simpl; constructor; auto. }
    intros nops s1 V1 I1 X1 HN. simpl in HN.
    assert (Hd : exists us, Forall2 (Den s1) nops us /\ Forall2 (fun t u => equiv t u /\ narrow2 u t) ts us /\ (nops = l \/ (wsum us < wsum ts)%nat) /\ (wsum us <= wsum ts)%nat).
    { pose proof (wext_Dens _ _ _ _ _ _ X1 HF) as HF1. pose proof (v_wf _ _ I1) as Hw1. clear -HN HF1 Hw1.
      revert nops HN. induction HF1 as [|a t l ts Da HF IH]; simpl; intros nops HN; inversion HN as [|g c nops' cs' (u & A & B & C & E) HN' E1 E2]; subst.
      - exists []. repeat split; auto; constructor.
      - destruct (IH _ HN') as (us & P1 & P2 & P3 & P4). exists (u :: us). split; [constructor; auto|]. split; [constructor; auto|].
        simpl in *. rewrite !wsum_cons. destruct E as [-> |E].
        + rewrite <- (Den_fun _ _ _ _ Da A) in *. split; [destruct P3 as [-> |P3]; [auto|right; lia]|lia].
        + split; [right; lia|lia]. }
    destruct Hd as (us & Hus & Hrel & Hsame & Hle).
    assert (Eus : equiv (mk k ts) (mk k us)).
    { intros b. rewrite !eval_mk. apply ev_Forall2. eapply Forall2_impl; [|exact Hrel]. intros x y [A _]. apply A. }
    assert (Nus : narrow2 (mk k us) (mk k ts)).
    { apply narrow2_mk; auto. clear -Hrel. induction Hrel; constructor; auto. apply H. }
    eapply wp_bind.
    { instantiate (1 := fun g s' V' => exists u, Den s' g u /\ equiv (mk k ts) u /\ narrow2 u (mk k ts) /\ (g = f \/ (weight u < wsum ts)%nat)).
      destruct Hsame as [-> |Hlt2].
      - apply (wp_ext (fun _ => ret f)).
        + intros n. unfold ret. symmetry. apply (naryOp_exact k s1 f l ts); auto; [apply I1|eapply wext_Den; eauto|eapply wext_Dens; eauto].
        + apply wp_ret; auto. exists (mk k ts). split; [eapply wext_Den; eauto|]. split; [intros b; auto|]. split; [intros x; auto|auto].
      - eapply wp_conseq; [apply (wp_nary2 k s1 V1 nops us); auto|]. intros g s2 V2 _ _ (_ & u & Du & Eu & Nu & Ru & _). exists u. split; auto.
        split; [intros b; rewrite (Eus b); symmetry; apply Eu|]. split; [eapply narrow2_trans; eauto|]. apply nary_weight in Ru. right. lia. }
    intros g s2 V2 I2 X2 (u & Du & Eu & Nu & Hg).
    assert (Base : FOPost (mk k ts) f g s2 V2).
    { exists u. split; auto. split; auto. split; auto. rewrite weight_mk. auto. }
    destruct (srt g) eqn:Eg; try (apply wp_ret; auto; fail).
    all: eapply wp_conseq; [apply (simplify_ok s2 V2 g u); auto|]; intros h s3 V3 _ X3 (v & Dv & Ev & Nv & Hv); exists v; split; auto;
      (split; [intros b; rewrite (Eu b); auto|]); (split; [eapply narrow2_trans; eauto|]); rewrite weight_mk;
      destruct Hg as [-> |Hg];
      [ assert (u = mk k ts) as -> by (eapply Den_fun; [exact Du|]; eapply wext_Den; [exact X2|]; eapply wext_Den; [exact X1|]; exact D);
        destruct Hv as [-> |Hv]; [auto|rewrite weight_mk in Hv; auto]
      | right; destruct Hv as [-> |Hv]; [rewrite (Den_fun _ _ _ _ Dv (wext_Den _ _ _ _ _ _ X3 Du)); auto|lia] ]. }
  pose proof (Den_sort _ _ _ D) as Ds. destruct (srt f) eqn:Es; try exact Self.
  - destruct t as [| |np|t1|ts|ts|a b|a b|[] cc r ls cs]; try discriminate.
    pose proof (opNot_den _ _ _ Hw D) as Do. apply wp_get. set (op := opNot f s) in *.
    eapply wp_bind; [apply (HW t1); auto; simpl in Ht; lia|]. intros nop s1 V1 I1 X1 (u & Du & Eu & Nu & Hu).
    eapply wp_conseq; [apply (wp_not s1 V1 nop u); auto|]. intros g s2 V2 I2 X2 (_ & v & Dv & Hv). exists v. split; auto.
    split; [intros b; simpl; rewrite (Eu b), (is_neg_of_eval _ _ b Hv); auto|].
    split; [eapply narrow2_trans; [apply neg_narrow2; exact Hv|]; intros x Hx; apply Nu; auto|].
    destruct Hu as [-> |Hu].
    + left. pose proof (wext_Den _ _ _ _ _ _ X1 Do) as Do1. pose proof (Den_fun _ _ _ _ Du Do1) as ->.
      pose proof (wext_Den _ _ _ _ _ _ X1 D) as D1. pose proof (wext_Den _ _ _ _ _ _ X2 D1) as D2.
      apply (Den_inj s2 (v_wf _ _ I2) (TNot t1)); auto. rewrite <- (notable_neg s op t1 v); eauto.
    + right. simpl. pose proof (neg_weight _ _ Hv). lia.
  - destruct (sort_mk s f t SAnd (or_introl eq_refl) D Es) as [ts ->]. apply (Nary SAnd ts (or_introl eq_refl)); auto.
  - destruct (sort_mk s f t SOr (or_intror eq_refl) D Es) as [ts ->]. apply (Nary SOr ts (or_intror eq_refl)); auto.
Qed.
Lemma factor_ok : forall w, FOP w.
Proof.
  induction w as [|w IH]; intros t s V f i j Hlt I D; [lia|].
  apply wp_S. apply (wp_ext (fun n => g <- factorOutRec less (S (i + n)) f ;; if feqb g f then ret g else factorLoop (factorOutRec less (S i + n)) (j + n) g)).
  { intros n. rewrite !Nat.add_succ_r. reflexivity. }
  eapply wp_bind; [apply (rec_ok w t s V f i); auto; lia|]. intros g s1 V1 I1 X1 (u & Du & Eu & Nu & Hu).
  destruct (feqb_spec g f) as [->|Hne].
  - apply wp_ret; auto. exists u. auto.
  - destruct Hu as [|Hu]; [contradiction|]. eapply wp_conseq; [apply (IH u s1 V1 g (S i) j); auto; lia|].
    intros h s2 V2 _ X2 (v & Dv & Ev & Nv & Hv). exists v. split; auto. split; [intros b; rewrite (Eu b); auto|]. split; [eapply narrow2_trans; eauto|].
    right. destruct Hv as [-> |Hv]; [rewrite (Den_fun _ _ _ _ Dv (wext_Den _ _ _ _ _ _ X2 Du)); auto|lia].
Qed.
Lemma factorOut_ok t s V f : winv s V -> Den s f t -> wp (fun n => factorOut less n f) s V (FOPost t f).
Proof. intros I D. apply (factor_ok (S (weight t)) t s V f O O); auto. Qed.
End FactorOut.

(** ** MinimizeNegations *)
Section MinNeg.
Context (len : formula -> N).
Lemma smallest_in top : forall l f, In (smallest len top f l) (f :: l).
Proof.
  unfold smallest. induction l as [|g l IH]; intros f; simpl; auto.
  destruct (_ <? _)%N; [destruct (IH g) as [E|E]|destruct (IH f) as [E|E]]; simpl in *; auto.
Qed.
Lemma smallest_le top : forall l f g, In g (f :: l) -> (formattedLength len top (smallest len top f l) <= formattedLength len top g)%N.
Proof.
  unfold smallest. induction l as [|h l IH]; intros f g Hg; simpl in Hg |- *.
  - destruct Hg as [<-|[]]. lia.
  - destruct (N.ltb_spec (formattedLength len top h) (formattedLength len top f)) as [Hl|Hl].
    + destruct Hg as [<-|Hg]; [|apply IH; simpl; auto]. specialize (IH h h (or_introl eq_refl)). lia.
    + destruct Hg as [<-|[<-|Hg]]; [apply IH; simpl; auto| |apply IH; simpl; auto]. specialize (IH f f (or_introl eq_refl)). lia.
Qed.

Definition MNPost (t : tree) (s : state) (V : asg -> Prop) (r : formula * formula) : Prop :=
  exists p q, Den s (fst r) p /\ Den s (snd r) q /\ equiv t p /\ equiv (TNot t) q /\ narrow p t /\ narrow q t.
Lemma MNPost_ext t s V s' V' r : wext s V s' V' -> MNPost t s V r -> MNPost t s' V' r.
Proof. intros X (p & q & A & B & C). exists p, q. split; [eapply wext_Den; eauto|]. split; [eapply wext_Den; eauto|]. auto. Qed.

Lemma DPost_smallest top t f l s V : (forall g, In g (f :: l) -> DPost t g s V) -> DPost t (smallest len top f l) s V.
Proof. intros H. apply H, smallest_in. Qed.

(** negating the operands of [k] and exchanging conjunction and disjunction *)
Lemma ev_flip k b ts qs : dual k -> Forall2 (fun t q => equiv (TNot t) q) ts qs -> ev (flipSort k) b qs = negb (ev k b ts).
Proof.
  intros Hk H. induction H as [|t q ts qs E H IH]; unfold ev in *; simpl.
  - destruct Hk as [-> | ->]; auto.
  - rewrite IH, <- (E b). simpl. destruct Hk as [-> | ->]; simpl; destruct (eval b t); auto.
Qed.
Lemma ev_partition k b (P : formula * formula -> bool) s : dual k -> forall rs ts, Forall2 (fun r t => MNPost t s (fun _ => True) r) rs ts ->
  exists ps qs, Forall2 (Den s) (map fst (filter P rs)) ps /\ Forall2 (Den s) (map snd (filter (fun q => negb (P q)) rs)) qs /\
    conn k (ev k b ps) (negb (ev (flipSort k) b qs)) = ev k b ts.
Proof.
  intros Hk rs ts H. induction H as [|[f g] t rs ts (p & q & A & B & C & D & _) H (ps & qs & P1 & P2 & P3)].
  - exists [], []. split; [constructor|]. split; [constructor|]. unfold ev. destruct Hk as [-> | ->]; auto.
  - simpl in *. destruct (P (f, g)); simpl.
    + exists (p :: ps), qs. split; [constructor; auto|]. split; auto. unfold ev in *. simpl. rewrite <- P3, (C b).
      destruct Hk as [-> | ->]; simpl; destruct (eval b p), (fold_right _ _ ps), (fold_right _ _ qs); auto.
    + exists ps, (q :: qs). split; auto. split; [constructor; auto|]. unfold ev in *. simpl. rewrite <- P3, <- (D b). simpl.
      destruct Hk as [-> | ->]; simpl; destruct (eval b t), (fold_right _ _ ps), (fold_right _ _ qs); auto.
Qed.
Lemma Dens_fun s l ts us : Forall2 (Den s) l ts -> Forall2 (Den s) l us -> ts = us.
Proof. intros H. revert us. induction H; intros us H'; inversion H'; subst; auto. f_equal; [eapply Den_fun; eauto|auto]. Qed.

Lemma MN_dens (V V' : asg -> Prop) s k : dual k -> forall rs ts, Forall2 (fun r t => MNPost t s V r) rs ts -> forall P : formula * formula -> bool,
  exists ps qs, Forall2 (Den s) (map fst (filter P rs)) ps /\ Forall2 (Den s) (map snd (filter P rs)) qs /\
    (forall u, In u ps \/ In u qs -> narrow u (mk k ts)).
Proof.
  intros Hk rs ts H P. induction H as [|[f g] t rs ts (p & q & A & B & C & D & N1 & N2) H (ps & qs & P1 & P2 & P3)].
  - exists [], []. split; [constructor|]. split; [constructor|]. intros u [[]|[]].
  - assert (G : forall w, narrow w (mk k ts) -> narrow w (mk k (t :: ts))).
    { intros w Hw x Hx. apply Hw in Hx. apply occurs_mk in Hx; auto. apply occurs_mk; auto. destruct Hx as (y & Hy & Ho). exists y. simpl; auto. }
    assert (G1 : forall w, narrow w t -> narrow w (mk k (t :: ts))).
    { intros w Hw x Hx. apply occurs_mk; auto. exists t. simpl; auto. }
    simpl in *. destruct (P (f, g)); simpl.
    + exists (p :: ps), (q :: qs). split; [constructor; auto|]. split; [constructor; auto|]. intros u [[<-|Hu]|[<-|Hu]]; auto.
    + exists ps, qs. split; [exact P1|]. split; [exact P2|]. intros u Hu. apply G, P3, Hu.
Qed.
Lemma filter_true {A} (l : list A) : filter (fun _ => true) l = l.
Proof. induction l; simpl; congruence. Qed.

Lemma findPositive_ok k s V rs ts top : dual k -> winv s V -> Forall2 (fun r t => MNPost t s V r) rs ts ->
  wp (fun _ => findSmallestPositive len k rs top) s V (DPost (mk k ts)).
Proof.
  intros Hk I H. unfold findSmallestPositive. cbv zeta.
  assert (NN : forall us, (forall u, In u us -> narrow u (mk k ts)) -> forall k', dual k' -> narrow (mk k' us) (mk k ts)).
  { intros us Hu k' Hk' x Hx. apply occurs_mk in Hx; auto. destruct Hx as (y & Hy & Ho). eapply Hu; eauto. }
  set (P := fun q : formula * formula => (formattedLength len false (fst q) <? formattedLength len false (snd q))%N).
  assert (H' : Forall2 (fun r t => MNPost t s (fun _ => True) r) rs ts) by (eapply Forall2_impl; [|exact H]; intros ? ? HH; exact HH).
  destruct (MN_dens V V s k Hk rs ts H (fun _ => true)) as (ps & qs0 & Hps & _ & Nps). rewrite filter_true in Hps.
  destruct (MN_dens V V s k Hk rs ts H P) as (ps1 & qs0' & Hps1 & _ & Nps1).
  destruct (MN_dens V V s k Hk rs ts H (fun q => negb (P q))) as (ps0 & qs1 & _ & Hqs1 & Nqs1).
  assert (Eps : Forall2 equiv ts ps).
  { clear -H Hps. revert ps Hps. induction H as [|[f g] t rs ts (p & q & A & B & C & _) H IH]; simpl; intros ps Hps; inversion Hps as [|? p' ? ps' Hp' Hps']; subst; constructor; [|apply IH; exact Hps'].
    simpl in *. rewrite (Den_fun _ _ _ _ Hp' A). exact C. }
  eapply wp_bind; [apply (wp_nary k s V _ ps); auto|]. intros g1 s1 V1 I1 X1 (_ & u1 & D1 & E1 & N1 & _).
  eapply wp_bind; [apply (wp_nary k s1 V1 _ ps1); auto; eapply wext_Dens; eauto|]. intros g2 s2 V2 I2 X2 (_ & u2 & D2 & E2 & N2 & _).
  eapply wp_bind; [apply (wp_nary (flipSort k) s2 V2 _ qs1); auto using dual_flip; eapply wext_Dens; [exact X2|]; eapply wext_Dens; [exact X1|]; exact Hqs1|].
  intros g3 s3 V3 I3 X3 (_ & u3 & D3 & E3 & N3 & _).
  eapply wp_bind; [apply (wp_not s3 V3 g3 u3); auto|]. intros g4 s4 V4 I4 X4 (_ & u4 & D4 & E4).
  eapply wp_bind.
  { apply (wp_nary k s4 V4 [g2; g4] [u2; u4]); auto. constructor; [|constructor; auto].
    eapply wext_Den; [exact X4|]; eapply wext_Den; [exact X3|]; auto. }
  intros g5 s5 V5 I5 X5 (_ & u5 & D5 & E5 & N5 & _). apply wp_ret; auto.
  apply DPost_smallest. intros g [<-|[<-|[]]].
  - exists u1. split; [eapply wext_Den; [exact X5|]; eapply wext_Den; [exact X4|]; eapply wext_Den; [exact X3|]; eapply wext_Den; [exact X2|]; auto|].
    split; [|eapply narrow_trans; [exact N1|]; apply NN; auto]. intros b. rewrite (E1 b), !eval_mk. apply ev_Forall2. eapply Forall2_impl; [|exact Eps]. intros x y E. apply E.
  - exists u5. split; auto. split.
    + intros b. rewrite (E5 b), ev_pair, (E2 b), (is_neg_of_eval _ _ b E4), (E3 b), !eval_mk.
      destruct (ev_partition k b P s Hk rs ts H') as (ps2 & qs2 & A & B & C).
      rewrite (Dens_fun _ _ _ _ Hps1 A), (Dens_fun _ _ _ _ Hqs1 B). auto.
    + intros x Hx. apply N5 in Hx. apply occurs_mk in Hx; auto. destruct Hx as (y & [<-|[<-|[]]] & Ho).
      * apply N2 in Ho. revert Ho. apply NN; auto.
      * apply (neg_narrow _ _ E4) in Ho. apply N3 in Ho. revert Ho. apply NN; auto using dual_flip.
Qed.
Lemma findNegative_ok k s V rs ts sp top : dual k -> winv s V -> Forall2 (fun r t => MNPost t s V r) rs ts -> DPost (mk k ts) sp s V ->
  wp (fun _ => findSmallestNegative len k rs sp top) s V (DPost (TNot (mk k ts))).
Proof.
  intros Hk I H (u & Du & Eu & Nu). unfold findSmallestNegative.
  destruct (MN_dens V V s k Hk rs ts H (fun _ => true)) as (ps0 & qs & _ & Hqs & Nqs). rewrite filter_true in Hqs.
  assert (Eqs : Forall2 (fun t q => equiv (TNot t) q) ts qs).
  { clear -H Hqs. revert qs Hqs. induction H as [|[f g] t rs ts (p & q & A & B & C & D & _) H IH]; simpl; intros ps Hps; inversion Hps as [|? p' ? ps' Hp' Hps']; subst; constructor; [|apply IH; exact Hps'].
    simpl in *. rewrite (Den_fun _ _ _ _ Hp' B). exact D. }
  eapply wp_bind; [apply (wp_not s V sp u); auto|]. intros g1 s1 V1 I1 X1 (_ & u1 & D1 & E1).
  eapply wp_bind; [apply (wp_nary (flipSort k) s1 V1 _ qs); auto using dual_flip; eapply wext_Dens; eauto|]. intros g2 s2 V2 I2 X2 (_ & u2 & D2 & E2 & N2 & _).
  apply wp_ret; auto. apply DPost_smallest. intros g [<-|[<-|[]]].
  - exists u1. split; [eapply wext_Den; eauto|]. split; [intros b; rewrite (is_neg_of_eval _ _ b E1); simpl; rewrite (Eu b); auto|].
    intros x Hx. apply (neg_narrow _ _ E1) in Hx. apply Nu in Hx. exact Hx.
  - exists u2. split; auto. split; [intros b; rewrite (E2 b), eval_mk, (ev_flip k b ts qs); auto; simpl; rewrite eval_mk; auto|].
    intros x Hx. apply N2 in Hx. apply occurs_mk in Hx; auto using dual_flip. destruct Hx as (y & Hy & Ho). eapply Nqs; eauto.
Qed.

Lemma negMin_ok : forall t s V f top, winv s V -> Den s f t -> is_nnf t = true -> isConst t = false ->
  wp (fun n => negationMinimize len n f top) s V (fun r s' V' => MNPost t s' V' r).
Proof.
  induction t as [t IHt] using subtree_ind. intros s V f top I D Hn Hc. pose proof (v_wf _ _ I) as Hw. apply wp_S. cbn [negationMinimize].
  assert (Nary : forall k ts, dual k -> t = mk k ts ->
    wp (fun n => ops <- get (opNary f) ;; rs <- mapM (fun op => negationMinimize len n op false) ops ;;
                 sp <- findSmallestPositive len k rs top ;; sn <- findSmallestNegative len k rs sp top ;; ret (sp, sn)) s V (fun r s' V' => MNPost t s' V' r)).
  { intros k ts Hk ->. destruct (Den_mk_inv k s f ts Hk Hw D) as (l & _ & El & HF & _ & Hi). apply wp_get. rewrite El.
    rewrite forallb_forall in Hi.
    assert (Hnn : forall t, In t ts -> is_nnf t = true) by (intros t Ht; destruct Hk as [-> | ->]; simpl in Hn; rewrite forallb_forall in Hn; auto).
    eapply wp_bind.
    { apply (wp_mapM (fun n op => negationMinimize len n op false) (fun s' a t => Den s' a t) (fun s' V' r t => MNPost t s' V' r)) with (cs := ts); auto.
      - intros; eapply wext_Den; eauto.
      - intros; eapply MNPost_ext; eauto.
      - intros a t Ha Ht s1 V1 I1 X1 Da. rewrite Forall_forall in IHt. apply IHt; auto.
        + destruct Hk as [-> | ->]; simpl; auto.
        + apply (innerK_const k); auto. }
    intros rs s1 V1 I1 X1 HR. simpl in HR.
    eapply wp_bind; [apply (findPositive_ok k s1 V1 rs ts top); auto|]. intros sp s2 V2 I2 X2 HP.
    eapply wp_bind; [apply (findNegative_ok k s2 V2 rs ts sp top); auto; eapply Forall2_impl; [|exact HR]; intros; eapply MNPost_ext; eauto|].
    intros sn s3 V3 I3 X3 (q & Dq & Eq & Nq). apply wp_ret; auto. destruct HP as (p & Dp & Ep & Np).
    exists p, q. simpl. split; [eapply wext_Den; eauto|]. split; [exact Dq|]. split; [exact Ep|]. split; [exact Eq|]. split; [exact Np|exact Nq]. }
  pose proof (Den_sort _ _ _ D) as Ds. rewrite Ds.
  destruct t as [| |np|t1|ts|ts|a b|a b|cc c r ls cs]; try discriminate.
  - eapply wp_bind; [apply (wp_not s V f (TLit np)); auto|]. intros g s1 V1 I1 X1 (_ & u & Du & Eu). apply wp_ret; auto.
    exists (TLit np), u. simpl. split; [eapply wext_Den; eauto|]. split; auto. split; [intros b; auto|].
    split; [intros b; rewrite (is_neg_of_eval _ _ b Eu); auto|]. split; [intros x; auto|]. apply neg_narrow; auto.
  - apply (Nary SAnd ts (or_introl eq_refl)); auto.
  - apply (Nary SOr ts (or_intror eq_refl)); auto.
Qed.

Lemma repr_equiv V t u p : repr V t u -> equiv u p -> narrow p u -> repr V t p.
Proof.
  intros (A & B & C) E Nn. split; [intros b H; apply A; rewrite (E b); auto|]. split; [intros b Hb H; rewrite <- (E b); auto|].
  intros Hp. destruct (C Hp) as [C1 C2]. split; [intros b; rewrite (C1 b); auto|auto].
Qed.
Definition MinPost (t : tree) (f g : formula) (s : state) (V : asg -> Prop) : Prop :=
  (exists u, Den s g u /\ repr V t u) /\ (len g <= len f)%N.
Lemma minimizeNegations_ok cf t s V f : winv s V -> Den s f t -> encodable cf t ->
  wp (fun n => minimizeNegations len n cf f) s V (MinPost t f).
Proof.
  intros I D He. unfold minimizeNegations.
  eapply wp_bind; [apply (NNF_ok cf t); auto|]. intros nnf s1 V1 I1 X1 (u & Du & Hu & Ru & _).
  assert (L : forall l, In f (f :: l) -> (len (smallest len true f l) <= len f)%N) by (intros l Hl; exact (smallest_le true l f f Hl)).
  destruct (isAtomic nnf) eqn:Ea.
  - apply wp_ret; auto. split; [|apply L; simpl; auto]. destruct (smallest_in true [nnf] f) as [<-|[<-|[]]]; [exists t|exists u]; (split; [|auto]); auto.
    + eapply wext_Den; eauto.
    + apply repr_refl.
  - eapply wp_bind; [apply (negMin_ok u s1 V1 nnf true); auto|].
    { unfold isAtomic in Ea. rewrite (Den_sort _ _ _ Du) in Ea. destruct u; auto; discriminate. }
    intros [p q] s2 V2 I2 X2 (pt & qt & Dp & _ & Ep & _ & Np & _). apply wp_ret; auto. cbn [fst snd] in *. split; [|apply L; left; reflexivity].
    destruct (smallest_in true [nnf; p] f) as [<-|[<-|[<-|[]]]].
    + exists t. split; [eapply wext_Den; [exact X2|]; eapply wext_Den; eauto|apply repr_refl].
    + exists u. split; [eapply wext_Den; eauto|]. eapply wext_repr; eauto.
    + exists pt. split; auto. eapply repr_equiv; eauto. eapply wext_repr; eauto.
Qed.
End MinNeg.
