(** * Invariant of the formula factory and the meaning of its constructors *)
From Coq Require Import String Ascii List Bool ZArith NArith Lia.
From Verif Require Import Spec Factory.
Import ListNotations.
Local Open Scope N_scope.

(** ** Decidable equalities *)
Lemma fsort_eqb_spec a b : reflect (a = b) (fsort_eqb a b).
Proof. destruct a, b; simpl; constructor; congruence. Qed.
Lemma feqb_spec a b : reflect (a = b) (feqb a b).
Proof.
  destruct a as [sa ia], b as [sb ib]; unfold feqb; simpl.
  destruct (fsort_eqb_spec sa sb), (N.eqb_spec ia ib); simpl; constructor; congruence.
Qed.
Lemma feqb_refl a : feqb a a = true.
Proof. destruct (feqb_spec a a); congruence. Qed.
Lemma peqb_spec a b : reflect (a = b) (peqb a b).
Proof.
  destruct a as [a1 a2], b as [b1 b2]; unfold peqb; simpl.
  destruct (feqb_spec a1 b1), (feqb_spec a2 b2); simpl; constructor; congruence.
Qed.
Lemma cmp_eqb_spec a b : reflect (a = b) (cmp_eqb a b).
Proof. destruct a, b; simpl; constructor; congruence. Qed.
Lemma list_eqb_spec {A} (e : A -> A -> bool) (H : forall a b, reflect (a = b) (e a b)) :
  forall a b, reflect (a = b) (list_eqb e a b).
Proof.
  induction a as [|x a IH]; destruct b as [|y b]; simpl; try (constructor; congruence).
  destruct (H x y); simpl; [|constructor; congruence].
  destruct (IH b); constructor; congruence.
Qed.
Lemma opsEquals_spec a b : reflect (a = b) (opsEquals a b).
Proof. apply list_eqb_spec, feqb_spec. Qed.
Lemma pbcsEquals_spec a b : reflect (a = b) (pbcsEquals a b).
Proof.
  destruct a as [l1 c1 r1 k1], b as [l2 c2 r2 k2]; unfold pbcsEquals; simpl.
  destruct (cmp_eqb_spec k1 k2); simpl; [|constructor; congruence].
  destruct (Z.eqb_spec r1 r2); simpl; [|constructor; congruence].
  destruct (opsEquals_spec l1 l2); simpl; [|constructor; congruence].
  destruct (list_eqb_spec Z.eqb Z.eqb_spec c1 c2); simpl; constructor; congruence.
Qed.

(** ** negId *)
Lemma negId_eq i : negId i = if N.odd i then i - 1 else i + 1.
Proof. unfold negId. destruct i as [|[p|p|]]; simpl; try reflexivity. Qed.
Lemma negId_invol i : negId (negId i) = i.
Proof. unfold negId. rewrite N.lxor_assoc, N.lxor_nilpotent, N.lxor_0_r. reflexivity. Qed.
Lemma negId_inj i j : negId i = negId j -> i = j.
Proof. intros H. rewrite <- (negId_invol i), H. apply negId_invol. Qed.
Lemma negId_odd i : N.odd (negId i) = negb (N.odd i).
Proof. unfold negId. destruct i as [|[p|p|]]; reflexivity. Qed.
Lemma negId_neq i : negId i <> i.
Proof. intros H. pose proof (negId_odd i) as E. rewrite H in E. destruct (N.odd i); discriminate. Qed.
Lemma negId_le i : N.odd i = true -> negId i <= i.
Proof. intros H. rewrite negId_eq, H. lia. Qed.

(** ** Shapes: the one-level structure stored for a formula *)
Inductive shape :=
| ShFalse | ShTrue | ShLit (n : string) (p : bool) | ShNot (f : formula)
| ShAnd (l : list formula) | ShOr (l : list formula)
| ShImpl (a b : formula) | ShEquiv (a b : formula) | ShCC (p : pbc) | ShPBC (p : pbc).

Definition node (s : state) (f : formula) : option shape :=
  match srt f with
  | SFalse => if fid f =? 0 then Some ShFalse else None
  | STrue => if fid f =? 1 then Some ShTrue else None
  | SLit => option_map (fun np => ShLit (fst np) (snd np)) (literals s f)
  | SNot => option_map ShNot (nots s f)
  | SAnd => option_map ShAnd (ands s f)
  | SOr => option_map ShOr (ors s f)
  | SImpl => option_map (fun p => ShImpl (fst p) (snd p)) (impls s f)
  | SEquiv => option_map (fun p => ShEquiv (fst p) (snd p)) (equivs s f)
  | SCC => option_map ShCC (ccs s f)
  | SPBC => option_map ShPBC (pbcs s f)
  end.

Definition shape_sort (sh : shape) : fsort :=
  match sh with
  | ShFalse => SFalse | ShTrue => STrue | ShLit _ _ => SLit | ShNot _ => SNot
  | ShAnd _ => SAnd | ShOr _ => SOr | ShImpl _ _ => SImpl | ShEquiv _ _ => SEquiv
  | ShCC _ => SCC | ShPBC _ => SPBC
  end.

Lemma node_sort s f sh : node s f = Some sh -> srt f = shape_sort sh.
Proof.
  unfold node. destruct (srt f) eqn:E; intros H.
  all: try (destruct (_ =? _); inversion H; reflexivity).
  all: match type of H with option_map _ ?x = _ => destruct x; inversion H; reflexivity end.
Qed.

(** ** Denotation *)
Definition litDen (s : state) (l : formula) (np : lit) : Prop := node s l = Some (ShLit (fst np) (snd np)).

Inductive Den (s : state) : formula -> tree -> Prop :=
| DFalse f : node s f = Some ShFalse -> Den s f TFalse
| DTrue f : node s f = Some ShTrue -> Den s f TTrue
| DLit f n p : node s f = Some (ShLit n p) -> Den s f (TLit (n, p))
| DNot f g t : node s f = Some (ShNot g) -> Den s g t -> Den s f (TNot t)
| DAnd f l ts : node s f = Some (ShAnd l) -> Forall2 (Den s) l ts -> Den s f (TAnd ts)
| DOr f l ts : node s f = Some (ShOr l) -> Forall2 (Den s) l ts -> Den s f (TOr ts)
| DImpl f a b ta tb : node s f = Some (ShImpl a b) -> Den s a ta -> Den s b tb -> Den s f (TImpl ta tb)
| DEquiv f a b ta tb : node s f = Some (ShEquiv a b) -> Den s a ta -> Den s b tb -> Den s f (TEquiv ta tb)
| DCC f p ls : node s f = Some (ShCC p) -> Forall2 (litDen s) (p_lits p) ls ->
    Den s f (TPBC true (p_cmp p) (p_rhs p) ls (p_coeffs p))
| DPBC f p ls : node s f = Some (ShPBC p) -> Forall2 (litDen s) (p_lits p) ls ->
    Den s f (TPBC false (p_cmp p) (p_rhs p) ls (p_coeffs p)).

Definition known (s : state) (f : formula) : Prop := exists sh, node s f = Some sh.

Lemma Den_known s f t : Den s f t -> known s f.
Proof. inversion 1; red; eauto. Qed.

Lemma litDen_fun s ls : forall ns ns', Forall2 (litDen s) ls ns -> Forall2 (litDen s) ls ns' -> ns = ns'.
Proof.
  induction ls; intros ns ns' H1 H2; inversion H1; inversion H2; subst; auto.
  f_equal; auto. unfold litDen in *. destruct y, y0; simpl in *. congruence.
Qed.

Lemma Den_fun s : forall t f t', Den s f t -> Den s f t' -> t = t'.
Proof.
  assert (HL : forall ts, Forall (fun t => forall f t', Den s f t -> Den s f t' -> t = t') ts ->
      forall l ts', Forall2 (Den s) l ts -> Forall2 (Den s) l ts' -> ts = ts').
  { induction 1; intros l' ts' H1 H2; inversion H1; subst; inversion H2; subst; auto.
    f_equal; eauto. }
  induction t using tree_ind'; intros f t' H1 H2; inversion H1; subst; inversion H2; subst; try congruence.
  - f_equal. eapply IHt; [eassumption|]. congruence.
  - f_equal. eapply HL; eauto. congruence.
  - f_equal. eapply HL; eauto. congruence.
  - f_equal; [eapply IHt1|eapply IHt2]; try eassumption; congruence.
  - f_equal; [eapply IHt1|eapply IHt2]; try eassumption; congruence.
  - assert (p0 = p) by congruence; subst. f_equal. eapply litDen_fun; eauto.
  - assert (p0 = p) by congruence; subst. f_equal. eapply litDen_fun; eauto.
Qed.

(** ** The invariant *)
Definition notable (f : formula) : bool :=
  match srt f with SFalse | STrue | SLit | SNot => false | _ => true end.

(** neither a constant nor of sort [k] *)
Definition inner (k : fsort) (f : formula) : bool :=
  negb (fsort_eqb (srt f) k || fsort_eqb (srt f) SFalse || fsort_eqb (srt f) STrue).

(** operands for which Implication / Equivalence simplify *)
Definition implTriv (cv : bool) (a b : formula) : bool :=
  (feqb a ffalse || feqb b ftrue) || feqb a ftrue || (feqb b ffalse || (fid a =? negId (fid b))) || (negb cv && feqb a b).
Definition equivTriv (cv : bool) (a b : formula) : bool :=
  feqb a ftrue || feqb b ftrue || feqb a ffalse || feqb b ffalse || (negb cv && feqb a b) || (negb cv && (fid a =? negId (fid b))).

Definition shape_ok (s : state) (f : formula) (sh : shape) : Prop :=
  match sh with
  | ShFalse => fid f = 0
  | ShTrue => fid f = 1
  | ShLit n p => N.odd (fid f) = p /\ 2 <= fid f /\
      (p = false -> exists v, node s v = Some (ShLit n true) /\ fid f = negId (fid v))
  | ShNot g => N.odd (fid f) = false /\ notable g = true /\ fid f = negId (fid g)
  | ShAnd l => N.odd (fid f) = true /\ (2 <= length l)%nat /\ Forall (fun g => inner SAnd g = true) l
  | ShOr l => N.odd (fid f) = true /\ (2 <= length l)%nat /\ Forall (fun g => inner SOr g = true) l
  | ShImpl a b => N.odd (fid f) = true /\ implTriv (conserve s) a b = false
  | ShEquiv a b => N.odd (fid f) = true /\ equivTriv (conserve s) a b = false
  | ShCC p => N.odd (fid f) = true /\ (p_lits p <> [] /\ (0 <= p_rhs p)%Z) /\ p_coeffs p = map (fun _ => 1%Z) (p_lits p) /\
      Forall (fun l => exists n, node s l = Some (ShLit n true)) (p_lits p)
  | ShPBC p => N.odd (fid f) = true /\ (p_lits p <> [] /\ isCC (p_cmp p) (p_rhs p) (p_lits p) (p_coeffs p) = false) /\ length (p_coeffs p) = length (p_lits p) /\
      Forall (fun l => exists n q, node s l = Some (ShLit n q)) (p_lits p)
  end.

Record wfn (s : state) : Prop := {
  w_nid : 2 <= nid s;
  w_id : forall f sh, node s f = Some sh -> fid f <= nid s;
  w_inj : forall f g, known s f -> known s g -> fid f = fid g -> f = g;
  w_uniq : forall f g sh, node s f = Some sh -> node s g = Some sh -> f = g;
  w_ok : forall f sh, node s f = Some sh -> shape_ok s f sh;
  w_den : forall f, known s f -> exists t, Den s f t
}.

Record wft (s : state) : Prop := {
  t_lit : forall f x, literals s f = Some x -> srt f = SLit;
  t_not : forall f x, nots s f = Some x -> srt f = SNot;
  t_impl : forall f x, impls s f = Some x -> srt f = SImpl;
  t_equiv : forall f x, equivs s f = Some x -> srt f = SEquiv;
  t_and : forall f x, ands s f = Some x -> srt f = SAnd;
  t_or : forall f x, ors s f = Some x -> srt f = SOr;
  t_cc : forall f x, ccs s f = Some x -> srt f = SCC;
  t_pbc : forall f x, pbcs s f = Some x -> srt f = SPBC;
  c_pos : forall n f, posLit s n = Some f <-> literals s f = Some (n, true);
  c_neg : forall n f, negLit s n = Some f <-> literals s f = Some (n, false);
  c_not : forall f g, notC s f = Some g <-> nots s g = Some f;
  c_impl : forall a b f, implC s (a, b) = Some f <-> impls s f = Some (a, b);
  c_equiv : forall a b f, equivC s (a, b) = Some f <-> equivs s f = Some (a, b);
  c_and : forall h f, In f (andC s h) <-> exists l, ands s f = Some l /\ hashOperands l = h;
  c_or : forall h f, In f (orC s h) <-> exists l, ors s f = Some l /\ hashOperands l = h;
  c_cc : forall h f, In f (ccC s h) <-> exists p, ccs s f = Some p /\ hashPbc p = h;
  c_pbc : forall h f, In f (pbcC s h) <-> exists p, pbcs s f = Some p /\ hashPbc p = h
}.

Definition wf (s : state) : Prop := wfn s /\ wft s.

(** ** Extension: what every operation of the library does to the factory *)
Record ext (s s' : state) : Prop := {
  e_node : forall f sh, node s f = Some sh -> node s' f = Some sh;
  e_nid : nid s <= nid s';
  e_cons : conserve s' = conserve s
}.

Lemma ext_refl s : ext s s.
Proof. constructor; auto; lia. Qed.
Lemma ext_trans a b c : ext a b -> ext b c -> ext a c.
Proof. intros [] []; constructor; auto; try lia; congruence. Qed.

Lemma ext_known s s' f : ext s s' -> known s f -> known s' f.
Proof. intros E [sh H]. exists sh. apply E; auto. Qed.

Lemma ext_Den s s' : ext s s' -> forall t f, Den s f t -> Den s' f t.
Proof.
  intros E.
  assert (HL : forall ts, Forall (fun t => forall f, Den s f t -> Den s' f t) ts ->
      forall l, Forall2 (Den s) l ts -> Forall2 (Den s') l ts).
  { induction 1; intros l' H1; inversion H1; subst; constructor; auto. }
  assert (HLit : forall ls ns, Forall2 (litDen s) ls ns -> Forall2 (litDen s') ls ns).
  { induction 1; constructor; auto. apply E; auto. }
  induction t using tree_ind'; intros f Hd; inversion Hd; subst;
    match goal with H : node s f = Some _ |- _ => apply E in H end.
  - constructor; auto.
  - constructor; auto.
  - constructor; auto.
  - eapply DNot; eauto.
  - eapply DAnd; eauto.
  - eapply DOr; eauto.
  - eapply DImpl; eauto.
  - eapply DEquiv; eauto.
  - eapply DCC; eauto.
  - eapply DPBC; eauto.
Qed.

Lemma ext_Dens s s' l ts : ext s s' -> Forall2 (Den s) l ts -> Forall2 (Den s') l ts.
Proof. intros E. induction 1; constructor; auto. eapply ext_Den; eauto. Qed.

(** ** Adding one node preserves the structural invariant *)
Lemma node_false s : node s ffalse = Some ShFalse. Proof. reflexivity. Qed.
Lemma node_true s : node s ftrue = Some ShTrue. Proof. reflexivity. Qed.
Lemma known_false s : known s ffalse. Proof. red; eauto using node_false. Qed.
Lemma known_true s : known s ftrue. Proof. red; eauto using node_true. Qed.

Lemma shape_ok_mono s s' f sh : ext s s' -> shape_ok s f sh -> shape_ok s' f sh.
Proof.
  intros E. destruct sh; simpl; auto.
  - intros (H1 & H2 & H3); repeat split; auto. intros Hp. destruct (H3 Hp) as (v & Hv & He).
    exists v; split; auto. apply E; auto.
  - rewrite (e_cons _ _ E); auto.
  - rewrite (e_cons _ _ E); auto.
  - intros (H1 & H2 & H3 & H4). refine (conj H1 (conj H2 (conj H3 _))). eapply Forall_impl; [|exact H4].
    simpl. intros a [n Hn]. exists n. apply E; auto.
  - intros (H1 & H2 & H3 & H4). refine (conj H1 (conj H2 (conj H3 _))). eapply Forall_impl; [|exact H4].
    simpl. intros a (n & q & Hn). exists n, q. apply E; auto.
Qed.

Definition children (sh : shape) : list formula :=
  match sh with
  | ShNot f => [f]
  | ShAnd l | ShOr l => l
  | ShImpl a b | ShEquiv a b => [a; b]
  | ShCC p | ShPBC p => p_lits p
  | _ => []
  end.

Definition adds (s s' : state) (f : formula) (sh : shape) : Prop :=
  forall g, node s' g = if feqb g f then Some sh else node s g.

Lemma wfn_dens s l : wfn s -> Forall (known s) l -> exists ts, Forall2 (Den s) l ts.
Proof.
  intros W. induction 1.
  - exists []; constructor.
  - destruct IHForall as [ts Hts]. destruct (w_den s W x H) as [t Ht].
    exists (t :: ts); constructor; auto.
Qed.

Lemma lits_dens s ls : Forall (fun l => exists n q, node s l = Some (ShLit n q)) ls -> exists ns, Forall2 (litDen s) ls ns.
Proof.
  induction 1.
  - exists []; constructor.
  - destruct IHForall as [ts Hts]. destruct H as (n & q & H). exists ((n, q) :: ts); constructor; auto.
Qed.

Lemma adds_ext s s' f sh : adds s s' f sh -> node s f = None -> nid s <= nid s' ->
  conserve s' = conserve s -> ext s s'.
Proof.
  intros A Hf Hn Hc. constructor; auto.
  intros g sh' Hg. rewrite A. destruct (feqb_spec g f); auto. congruence.
Qed.

Lemma wfn_add s s' f sh :
  wfn s -> adds s s' f sh -> nid s <= nid s' -> conserve s' = conserve s ->
  (forall g, known s g -> fid g <> fid f) ->
  (forall g, node s g <> Some sh) ->
  fid f <= nid s' -> shape_ok s' f sh ->
  Forall (known s) (children sh) ->
  ext s s' /\ wfn s'.
Proof.
  intros W A Hn Hc Hfresh Hnew Hid Hok Hch.
  assert (Hf : node s f = None).
  { destruct (node s f) eqn:E; auto. exfalso. eapply (Hfresh f); [red; eauto|reflexivity]. }
  assert (E : ext s s') by (eapply adds_ext; eauto).
  split; auto.
  assert (K : forall g, known s' g -> g = f \/ known s g).
  { intros g [x Hx]. rewrite A in Hx. destruct (feqb_spec g f); auto. right; red; eauto. }
  constructor.
  - pose proof (w_nid s W). lia.
  - intros g sh' Hg. rewrite A in Hg. destruct (feqb_spec g f); [subst; auto|].
    apply (w_id s W) in Hg. lia.
  - intros a b Ha Hb He. apply K in Ha. apply K in Hb.
    destruct Ha as [->|Ha], Hb as [->|Hb]; auto.
    + exfalso. eapply Hfresh; eauto.
    + exfalso. eapply Hfresh; eauto.
    + eapply (w_inj s W); eauto.
  - intros a b x Ha Hb. rewrite A in Ha, Hb.
    destruct (feqb_spec a f), (feqb_spec b f); subst; auto.
    + inversion Ha; subst. exfalso. eapply Hnew; eauto.
    + inversion Hb; subst. exfalso. eapply Hnew; eauto.
    + eapply (w_uniq s W); eauto.
  - intros g x Hg. rewrite A in Hg. destruct (feqb_spec g f).
    + inversion Hg; subst. auto.
    + eapply shape_ok_mono; eauto. eapply (w_ok s W); auto.
  - intros g Hg. apply K in Hg. destruct Hg as [->|Hg].
    + assert (Hnode : node s' f = Some sh). { rewrite A, feqb_refl; auto. }
      assert (Hd : exists ts, Forall2 (Den s') (children sh) ts).
      { destruct (wfn_dens s _ W Hch) as [ts Hts]. exists ts. eapply ext_Dens; eauto. }
      destruct Hd as [ts Hts].
      destruct sh; simpl in Hts, Hok.
      * exists TFalse; constructor; auto.
      * exists TTrue; constructor; auto.
      * eexists; eapply DLit; eauto.
      * inversion Hts; subst. eexists; eapply DNot; eauto.
      * eexists; eapply DAnd; eauto.
      * eexists; eapply DOr; eauto.
      * inversion Hts; subst. inversion H3; subst. eexists; eapply DImpl; eauto.
      * inversion Hts; subst. inversion H3; subst. eexists; eapply DEquiv; eauto.
      * destruct Hok as (_ & _ & _ & Hl).
        assert (Hl' : Forall (fun l => exists n q, node s' l = Some (ShLit n q)) (p_lits p)).
        { eapply Forall_impl; [|exact Hl]. intros a [n Hx]; eauto. }
        destruct (lits_dens _ _ Hl') as [ns Hns]. eexists; eapply DCC; eauto.
      * destruct Hok as (_ & _ & _ & Hl).
        destruct (lits_dens _ _ Hl) as [ns Hns]. eexists; eapply DPBC; eauto.
    + destruct (w_den s W g Hg) as [t Ht]. exists t. eapply ext_Den; eauto.
Qed.

(** ** Frame condition of the constructors: which caches they may write *)
Record frame (s s' : state) : Prop := {
  fr_trans : forall k f g, transC s' k f = Some g -> transC s k f = Some g \/
      (k = TransCNF /\ g = f /\ exists t, Den s' f t /\ is_cnf t = true);
  fr_pred : forall k f b, predC s' k f = Some b -> predC s k f = Some b \/
      (k = PredCNF /\ exists t, Den s' f t /\ b = is_cnf t);
  fr_func : funcC s' = funcC s;
  fr_aux : auxCtr s' = auxCtr s
}.

Definition names (s : state) (n : string) : Prop := posLit s n <> None.
Definition samenames (s s' : state) : Prop := forall n, names s' n -> names s n.

Lemma frame_refl s : frame s s.
Proof. constructor; auto. Qed.
Lemma frame_trans a b c : ext b c -> frame a b -> frame b c -> frame a c.
Proof.
  intros E [A1 A2 A3 A4] [B1 B2 B3 B4]; constructor; try congruence.
  - intros k f g H. apply B1 in H. destruct H as [H|H]; auto. apply A1 in H. destruct H as [H|H]; auto.
    right. destruct H as (-> & -> & t & Ht & Hc). split; auto. split; auto. exists t; split; auto. eapply ext_Den; eauto.
  - intros k f g H. apply B2 in H. destruct H as [H|H]; auto. apply A2 in H. destruct H as [H|H]; auto.
    right. destruct H as (-> & t & Ht & Hc). split; auto. exists t; split; auto. eapply ext_Den; eauto.
Qed.

Lemma frame_same s s' : transC s' = transC s -> predC s' = predC s -> funcC s' = funcC s -> auxCtr s' = auxCtr s -> frame s s'.
Proof. intros H1 H2 H3 H4; constructor; auto; rewrite ?H1, ?H2; auto. Qed.

(** Everything one constructor call guarantees. *)
Definition good (s s' : state) : Prop := wf s' /\ ext s s' /\ frame s s'.

Lemma good_refl s : wf s -> good s s.
Proof. intros; split; auto. split; [apply ext_refl|apply frame_refl]. Qed.
Lemma good_trans a b c : good a b -> good b c -> good a c.
Proof.
  intros (W1 & E1 & F1) (W2 & E2 & F2). split; auto. split; [eapply ext_trans|eapply frame_trans]; eauto.
Qed.

(** ** Fresh formulas have no table entries *)
Lemma fresh_none s f : wf s -> (forall g, known s g -> fid g <> fid f) ->
  literals s f = None /\ nots s f = None /\ impls s f = None /\ equivs s f = None /\
  ands s f = None /\ ors s f = None /\ ccs s f = None /\ pbcs s f = None.
Proof.
  intros [W T] Hf.
  assert (N0 : node s f = None).
  { destruct (node s f) eqn:E; auto. exfalso; eapply (Hf f); auto; red; eauto. }
  repeat split;
  match goal with |- ?m s f = None => destruct (m s f) eqn:E; auto; exfalso end.
  - pose proof (t_lit s T _ _ E) as H; unfold node in N0; rewrite H, E in N0; discriminate.
  - pose proof (t_not s T _ _ E) as H; unfold node in N0; rewrite H, E in N0; discriminate.
  - pose proof (t_impl s T _ _ E) as H; unfold node in N0; rewrite H, E in N0; discriminate.
  - pose proof (t_equiv s T _ _ E) as H; unfold node in N0; rewrite H, E in N0; discriminate.
  - pose proof (t_and s T _ _ E) as H; unfold node in N0; rewrite H, E in N0; discriminate.
  - pose proof (t_or s T _ _ E) as H; unfold node in N0; rewrite H, E in N0; discriminate.
  - pose proof (t_cc s T _ _ E) as H; unfold node in N0; rewrite H, E in N0; discriminate.
  - pose proof (t_pbc s T _ _ E) as H; unfold node in N0; rewrite H, E in N0; discriminate.
Qed.

Lemma nextPosId_spec s : let i := fst (nextPosId s) in N.odd i = true /\ nid s < i.
Proof.
  unfold nextPosId; simpl. destruct (N.even (nid s)) eqn:E.
  - rewrite N.add_1_r, N.odd_succ. split; auto; lia.
  - replace (nid s + 2) with (N.succ (N.succ (nid s))) by lia.
    rewrite N.odd_succ, N.even_succ, <- N.negb_even, E. split; auto; lia.
Qed.

Lemma above_fresh s f : wfn s -> nid s < fid f -> forall g, known s g -> fid g <> fid f.
Proof. intros W H g [sh Hg] E. apply (w_id s W) in Hg. lia. Qed.

Ltac fresh4 := match goal with
  | |- context [feqb ?a ?b] => destruct (feqb_spec a b); subst
  | H : context [feqb ?a ?b] |- _ => destruct (feqb_spec a b); subst
  | |- context [peqb ?a ?b] => destruct (peqb_spec a b)
  | H : context [peqb ?a ?b] |- _ => destruct (peqb_spec a b)
  | |- context [String.eqb ?a ?b] => destruct (String.eqb_spec a b); subst
  | H : context [String.eqb ?a ?b] |- _ => destruct (String.eqb_spec a b); subst
  | |- context [N.eqb ?a ?b] => destruct (N.eqb_spec a b); subst
  | H : context [N.eqb ?a ?b] |- _ => destruct (N.eqb_spec a b); subst
  end.

(** node of the literal tables *)
Lemma node_lit s f n p : wft s -> (literals s f = Some (n, p) <-> node s f = Some (ShLit n p)).
Proof.
  intros T. split.
  - intros H. unfold node. rewrite (t_lit s T _ _ H), H. reflexivity.
  - intros H. pose proof (node_sort _ _ _ H) as Hs. unfold node in H. rewrite Hs in H. simpl in H.
    destruct (literals s f) as [[n' p']|]; simpl in H; congruence.
Qed.
Lemma node_nots s f g : wft s -> (nots s f = Some g <-> node s f = Some (ShNot g)).
Proof.
  intros T. split.
  - intros H. unfold node. rewrite (t_not s T _ _ H), H. reflexivity.
  - intros H. pose proof (node_sort _ _ _ H) as Hs. unfold node in H. rewrite Hs in H. simpl in H.
    destruct (nots s f); simpl in H; congruence.
Qed.
Lemma node_ands s f l : wft s -> (ands s f = Some l <-> node s f = Some (ShAnd l)).
Proof.
  intros T. split.
  - intros H. unfold node. rewrite (t_and s T _ _ H), H. reflexivity.
  - intros H. pose proof (node_sort _ _ _ H) as Hs. unfold node in H. rewrite Hs in H. simpl in H.
    destruct (ands s f); simpl in H; congruence.
Qed.
Lemma node_ors s f l : wft s -> (ors s f = Some l <-> node s f = Some (ShOr l)).
Proof.
  intros T. split.
  - intros H. unfold node. rewrite (t_or s T _ _ H), H. reflexivity.
  - intros H. pose proof (node_sort _ _ _ H) as Hs. unfold node in H. rewrite Hs in H. simpl in H.
    destruct (ors s f); simpl in H; congruence.
Qed.
Lemma node_impls s f a b : wft s -> (impls s f = Some (a, b) <-> node s f = Some (ShImpl a b)).
Proof.
  intros T. split.
  - intros H. unfold node. rewrite (t_impl s T _ _ H), H. reflexivity.
  - intros H. pose proof (node_sort _ _ _ H) as Hs. unfold node in H. rewrite Hs in H. simpl in H.
    destruct (impls s f) as [[]|]; simpl in H; congruence.
Qed.
Lemma node_equivs s f a b : wft s -> (equivs s f = Some (a, b) <-> node s f = Some (ShEquiv a b)).
Proof.
  intros T. split.
  - intros H. unfold node. rewrite (t_equiv s T _ _ H), H. reflexivity.
  - intros H. pose proof (node_sort _ _ _ H) as Hs. unfold node in H. rewrite Hs in H. simpl in H.
    destruct (equivs s f) as [[]|]; simpl in H; congruence.
Qed.
Lemma node_ccs s f p : wft s -> (ccs s f = Some p <-> node s f = Some (ShCC p)).
Proof.
  intros T. split.
  - intros H. unfold node. rewrite (t_cc s T _ _ H), H. reflexivity.
  - intros H. pose proof (node_sort _ _ _ H) as Hs. unfold node in H. rewrite Hs in H. simpl in H.
    destruct (ccs s f); simpl in H; congruence.
Qed.
Lemma node_pbcs s f p : wft s -> (pbcs s f = Some p <-> node s f = Some (ShPBC p)).
Proof.
  intros T. split.
  - intros H. unfold node. rewrite (t_pbc s T _ _ H), H. reflexivity.
  - intros H. pose proof (node_sort _ _ _ H) as Hs. unfold node in H. rewrite Hs in H. simpl in H.
    destruct (pbcs s f); simpl in H; congruence.
Qed.

(** ** The initial factory *)
Lemma wf_new cv : wf (newFactory cv).
Proof.
  assert (K : forall f sh, node (newFactory cv) f = Some sh -> (f = ffalse /\ sh = ShFalse) \/ (f = ftrue /\ sh = ShTrue)).
  { intros [[] i] sh; unfold node; simpl; try discriminate; intros H.
    - destruct (N.eqb_spec i 0); inversion H; subst; left; split; reflexivity.
    - destruct (N.eqb_spec i 1); inversion H; subst; right; split; reflexivity. }
  split.
  - constructor.
    + simpl; lia.
    + intros f sh H. apply K in H. destruct H as [[-> _]|[-> _]]; simpl; lia.
    + intros f g [a Ha] [b Hb]. apply K in Ha. apply K in Hb.
      destruct Ha as [[-> _]|[-> _]], Hb as [[-> _]|[-> _]]; simpl; congruence.
    + intros f g sh Ha Hb. apply K in Ha. apply K in Hb.
      destruct Ha as [[-> ->]|[-> ->]], Hb as [[-> ?]|[-> ?]]; simpl; congruence.
    + intros f sh H. apply K in H. destruct H as [[-> ->]|[-> ->]]; reflexivity.
    + intros f [sh H]. apply K in H. destruct H as [[-> ->]|[-> ->]]; eexists; [apply DFalse|apply DTrue]; reflexivity.
  - constructor; simpl; intros; try discriminate; split; try discriminate; try tauto;
    try (intros [? [? ?]]; discriminate).
Qed.

(** ** Variables and literals *)
Lemma Var_spec s n v s' : wf s -> Var n s = (v, s') ->
  good s s' /\ node s' v = Some (ShLit n true) /\ (forall m, names s' m <-> names s m \/ m = n) /\
  (posLit s n <> None -> s' = s).
Proof.
  intros [W T] H. unfold Var in H.
  destruct (posLit s n) as [v0|] eqn:Ep.
  - inversion H; subst. split; [apply good_refl; split; auto|]. split.
    + apply node_lit; auto. apply (c_pos s' T); auto.
    + split; auto. intros m; split; auto. intros [Hm| ->]; auto. red. congruence.
  - pose proof (nextPosId_spec s) as [Ho Hi]. destruct (nextPosId s) as [i s1] eqn:En. simpl in Ho, Hi.
    assert (Es1 : s1 = set_nid i s). { unfold nextPosId in En. inversion En; auto. }
    inversion H; subst v s'; clear H. subst s1. simpl.
    set (v := F SLit i).
    assert (Hfr : forall g, known s g -> fid g <> fid v) by (apply above_fresh; auto).
    destruct (fresh_none s v (conj W T) Hfr) as (Hl & _).
    set (s' := set_literals _ _).
    assert (A : adds s s' v (ShLit n true)).
    { intros g. unfold node, s', upd; simpl. destruct (feqb_spec g v); [subst; reflexivity|].
      destruct (srt g) eqn:Es; auto. }
    assert (Hnode : node s' v = Some (ShLit n true)).
    { rewrite A, feqb_refl; auto. }
    destruct (wfn_add s s' v (ShLit n true)) as [E W']; auto.
    + simpl; lia.
    + intros g Hg. apply node_lit in Hg; auto. apply (c_pos s T) in Hg. congruence.
    + simpl; lia.
    + simpl. repeat split; auto; try discriminate. pose proof (w_nid s W). lia.
    + constructor.
    + split; [split; [split; auto|split; auto]|split].
      * destruct T. constructor; auto; unfold s', upd; simpl; intros.
        -- fresh4; auto. eapply t_lit0; eauto.
        -- split; intros Hx; repeat fresh4; try congruence; auto.
           ++ apply c_pos0 in Hx. congruence.
           ++ apply c_pos0 in Hx. congruence.
           ++ apply c_pos0 in Hx. congruence.
           ++ apply c_pos0 in Hx. congruence.
        -- split; intros Hx; repeat fresh4; try congruence; auto.
           ++ apply c_neg0 in Hx. congruence.
           ++ apply c_neg0 in Hx. congruence.
           ++ apply c_neg0 in Hx. congruence.
      * apply frame_same; reflexivity.
      * auto.
      * split; [|congruence]. intros m. unfold names, s', upd; simpl. fresh4; [|tauto]. split; auto. congruence.
Qed.

Lemma Lit_spec s n p v s' : wf s -> Lit n p s = (v, s') ->
  good s s' /\ node s' v = Some (ShLit n p) /\ (forall m, names s' m <-> names s m \/ m = n).
Proof.
  intros Hw H. unfold Lit in H.
  destruct (Var n s) as [v0 s1] eqn:Ev.
  destruct (Var_spec s n v0 s1 Hw Ev) as (G & Hn & Hnames & _).
  destruct p.
  { inversion H; subst; auto. }
  destruct G as ([W T] & E & Fr).
  destruct (negLit s1 n) as [l|] eqn:El.
  - inversion H; subst. split; [split; [split|]; auto|]. split; auto.
    apply node_lit; auto. apply (c_neg s' T); auto.
  - pose proof (w_ok s1 W v0 _ Hn) as (Ho & H2 & _).
    pose proof (w_id s1 W v0 _ Hn) as Hid.
    pose proof (negId_le (fid v0) Ho) as Hle.
    assert (Hlt : nid s1 <? negId (fid v0) = false) by (apply N.ltb_ge; lia).
    rewrite Hlt in H. inversion H; subst v s'; clear H.
    set (l := F SLit (negId (fid v0))).
    set (s' := set_literals _ _).
    assert (Hfr : forall g, known s1 g -> fid g <> fid l).
    { intros g [sh Hg] He. simpl in He.
      pose proof (w_ok s1 W g _ Hg) as Hok.
      assert (Hodd : N.odd (fid g) = false) by (rewrite He, negId_odd, Ho; auto).
      destruct sh; simpl in Hok; try (destruct Hok; congruence); try congruence.
      - rewrite Hok in He. rewrite negId_eq, Ho in He. lia.
      - rewrite Hok in Hodd. discriminate.
      - destruct Hok as (Hp & _ & Hok). subst p. rewrite Hodd in *. destruct (Hok eq_refl) as (w & Hw' & Hwe).
        assert (w = v0). { apply (w_inj s1 W); try (red; eauto). apply negId_inj. congruence. }
        subst w. assert (n0 = n) by congruence. subst.
        apply node_lit in Hg; auto. apply (c_neg s1 T) in Hg. congruence.
      - destruct Hok as (_ & Hnt & Hok). assert (f = v0).
        { apply (w_inj s1 W); try (red; eauto).
          - destruct (w_den s1 W g) as [t Ht]; [red; eauto|]. inversion Ht; subst; try congruence.
            assert (g0 = f) by congruence. subst. eapply Den_known; eauto.
          - apply negId_inj. congruence. }
        subst f. apply node_sort in Hn. unfold notable in Hnt. rewrite Hn in Hnt. discriminate. }
    destruct (fresh_none s1 l (conj W T) Hfr) as (Hl & _).
    assert (A : adds s1 s' l (ShLit n false)).
    { intros g. unfold node, s', upd; simpl. destruct (feqb_spec g l); [subst; reflexivity|].
      destruct (srt g) eqn:Es; auto. }
    assert (Hnode : node s' l = Some (ShLit n false)).
    { rewrite A, feqb_refl; auto. }
    destruct (wfn_add s1 s' l (ShLit n false)) as [E' W']; auto.
    + simpl; lia.
    + intros g Hg. apply node_lit in Hg; auto. apply (c_neg s1 T) in Hg. congruence.
    + simpl; lia.
    + simpl. split; [rewrite negId_odd, Ho; auto|]. split.
      * assert (fid v0 <> 2) by (intros Hx; rewrite Hx in Ho; discriminate).
        rewrite negId_eq, Ho. lia.
      * intros _. exists v0; split; auto. rewrite A. destruct (feqb_spec v0 l); auto.
        exfalso. rewrite e in Ho. simpl in Ho. rewrite negId_odd in Ho.
        assert (N.odd (fid v0) = false) by (destruct (N.odd (fid v0)); auto; discriminate).
        rewrite e in H. simpl in H. rewrite negId_odd in H. destruct (N.odd (fid v0)); discriminate.
    + constructor.
    + split; [eapply good_trans with (b := s1)|split].
      * split; auto. split; auto.
      * split; [split; auto|split; auto; apply frame_same; reflexivity].
        destruct T. constructor; auto; unfold s', upd; simpl; intros.
        -- fresh4; auto. eapply t_lit0; eauto.
        -- split; intros Hx; repeat fresh4; try congruence; auto.
           ++ apply c_pos0 in Hx. congruence.
           ++ apply c_pos0 in Hx. congruence.
           ++ apply c_pos0 in Hx. congruence.
        -- split; intros Hx; repeat fresh4; try congruence; auto.
           ++ apply c_neg0 in Hx. congruence.
           ++ apply c_neg0 in Hx. congruence.
           ++ apply c_neg0 in Hx. congruence.
           ++ apply c_neg0 in Hx. congruence.
      * auto.
      * exact Hnames.
Qed.

(** ** Structural identity *)
Lemma Den_inj s : wf s -> forall t f g, Den s f t -> Den s g t -> f = g.
Proof.
  intros [W T].
  assert (HL : forall ts, Forall (fun t => forall f g, Den s f t -> Den s g t -> f = g) ts ->
      forall l l', Forall2 (Den s) l ts -> Forall2 (Den s) l' ts -> l = l').
  { induction 1; intros l0 l0' H1 H2; inversion H1; subst; inversion H2; subst; auto. f_equal; eauto. }
  assert (HN : forall ns l l', Forall2 (litDen s) l ns -> Forall2 (litDen s) l' ns -> l = l').
  { induction ns; intros l l' H1 H2; inversion H1; subst; inversion H2; subst; auto. f_equal; eauto.
    unfold litDen in *. eapply (w_uniq s W); eauto. }
  induction t using tree_ind'; intros f g H1 H2; inversion H1; subst; inversion H2; subst;
    eapply (w_uniq s W); eauto.
  - match goal with H : Den s ?a t, H' : Den s ?b t |- _ => rewrite (IHt _ _ H H'); auto end.
  - match goal with H' : Forall2 _ ?a ts, H'' : Forall2 _ ?b ts |- _ => rewrite (HL _ H _ _ H' H''); auto end.
  - match goal with H' : Forall2 _ ?a ts, H'' : Forall2 _ ?b ts |- _ => rewrite (HL _ H _ _ H' H''); auto end.
  - match goal with H : Den s ?a t1, H' : Den s ?b t1, K : Den s ?c t2, K' : Den s ?d t2 |- _ =>
      rewrite (IHt1 _ _ H H'), (IHt2 _ _ K K'); auto end.
  - match goal with H : Den s ?a t1, H' : Den s ?b t1, K : Den s ?c t2, K' : Den s ?d t2 |- _ =>
      rewrite (IHt1 _ _ H H'), (IHt2 _ _ K K'); auto end.
  - replace p with p0; auto. destruct p, p0; simpl in *; subst; f_equal; eauto.
  - replace p with p0; auto. destruct p, p0; simpl in *; subst; f_equal; eauto.
Qed.

(** ** Complements *)
Lemma even_known s e : wf s -> known s e -> N.odd (fid e) = false ->
  node s e = Some ShFalse /\ e = ffalse \/
  (exists n v, node s e = Some (ShLit n false) /\ node s v = Some (ShLit n true) /\ fid e = negId (fid v)) \/
  (exists g, node s e = Some (ShNot g) /\ known s g /\ notable g = true /\ fid e = negId (fid g)).
Proof.
  intros [W T] [sh Hn] Ho. pose proof (w_ok s W e sh Hn) as Hok.
  destruct sh; simpl in Hok; try (destruct Hok; congruence); try congruence.
  - left. split; auto. apply node_sort in Hn. destruct e; simpl in *; subst; reflexivity.
  - rewrite Hok in Ho. discriminate.
  - destruct Hok as (Hp & _ & Hok). subst p. rewrite Ho in *. destruct (Hok eq_refl) as (v & Hv & He).
    right; left. exists n, v; auto.
  - destruct Hok as (_ & Hnt & He). right; right. exists f. repeat split; auto.
    destruct (w_den s W e) as [t Ht]; [red; eauto|]. inversion Ht; subst; try congruence.
    assert (g = f) by congruence. subst. eapply Den_known; eauto.
Qed.

Lemma comp_even s e o t u : wf s -> known s e -> known s o -> N.odd (fid e) = false ->
  fid e = negId (fid o) -> Den s e t -> Den s o u -> forall b, eval b t = negb (eval b u).
Proof.
  intros Hw Ke Ko Ho He Dt Du b. pose proof Hw as [W T].
  destruct (even_known s e Hw Ke Ho) as [[Hn ->]|[(n & v & Hn & Hv & Hid)|(g & Hn & Kg & Hnt & Hid)]].
  - assert (o = ftrue).
    { apply (w_inj s W); auto using known_true. apply negId_inj. rewrite <- He. reflexivity. }
    subst o. inversion Dt; subst; try congruence. inversion Du; subst; try (rewrite node_true in *; congruence). reflexivity.
  - assert (v = o). { apply (w_inj s W); auto; [red; eauto|]. apply negId_inj; congruence. }
    subst v. inversion Dt; subst; try congruence. inversion Du; subst; try congruence.
    assert (n1 = n0 /\ p0 = true /\ p = false) as (-> & -> & ->) by (split; [congruence|split; congruence]). reflexivity.
  - assert (g = o). { apply (w_inj s W); auto. apply negId_inj; congruence. }
    subst g. inversion Dt; subst; try congruence.
    assert (g = o) by congruence. subst. simpl. f_equal. f_equal. eapply Den_fun; eauto.
Qed.

Lemma comp_eval s f g t u : wf s -> Den s f t -> Den s g u -> fid f = negId (fid g) ->
  forall b, eval b t = negb (eval b u).
Proof.
  intros Hw Dt Du He b.
  destruct (N.odd (fid f)) eqn:Ho.
  - assert (Hg : fid g = negId (fid f)) by (rewrite He, negId_invol; auto).
    assert (Hog : N.odd (fid g) = false) by (rewrite Hg, negId_odd, Ho; auto).
    rewrite (comp_even s g f u t Hw (Den_known _ _ _ Du) (Den_known _ _ _ Dt) Hog Hg Du Dt).
    rewrite negb_involutive; auto.
  - exact (comp_even s f g t u Hw (Den_known _ _ _ Dt) (Den_known _ _ _ Du) Ho He Dt Du b).
Qed.

(** ** Negation *)
Definition is_neg_of (t u : tree) : Prop :=
  match t with
  | TFalse => u = TTrue
  | TTrue => u = TFalse
  | TLit (n, p) => u = TLit (n, negb p)
  | TNot t' => u = t'
  | _ => u = TNot t
  end.

Lemma is_neg_of_eval t u b : is_neg_of t u -> eval b u = negb (eval b t).
Proof.
  destruct t; simpl; try (intros ->; reflexivity).
  - destruct l as [n p]. intros ->. unfold eval_lit; simpl. destruct p; simpl; auto. rewrite negb_involutive; auto.
  - intros ->. rewrite negb_involutive. auto.
Qed.

Lemma known_children s f sh g : wf s -> node s f = Some sh -> In g (children sh) -> known s g.
Proof.
  intros [W T] Hn Hi. destruct (w_den s W f) as [t Ht]; [red; eauto|].
  assert (HF : forall l ts, Forall2 (Den s) l ts -> In g l -> known s g).
  { induction 1; simpl; [tauto|]. intros [->|]; auto. eapply Den_known; eauto. }
  assert (HL : forall l ts, Forall2 (litDen s) l ts -> In g l -> known s g).
  { induction 1; simpl; [tauto|]. intros [->|]; auto. red; eauto. }
  inversion Ht; subst; rewrite H in Hn; inversion Hn; subst; simpl in Hi; try tauto; eauto.
  all: intuition subst; eauto using Den_known.
Qed.

Lemma notable_odd s f : wf s -> known s f -> notable f = true -> N.odd (fid f) = true.
Proof.
  intros [W T] [sh H] Hn. pose proof (w_ok s W f sh H) as Hok. pose proof (node_sort _ _ _ H) as Hs.
  unfold notable in Hn. rewrite Hs in Hn. destruct sh; simpl in *; try discriminate; tauto.
Qed.

(** the default branch of Not, factory.go:245-255 *)
Lemma NotDefault_spec s f t r s' : wf s -> Den s f t -> notable f = true ->
  match notC s f with
      | Some g => (g, s)
      | None =>
          let i := negId (fid f) in
          let s1 := if nid s <? i then set_nid i s else s in
          let g := F SNot i in
          (g, set_nots (upd feqb (nots s1) g (Some f))
              (set_notC (upd feqb (notC s1) f (Some g)) s1))
      end = (r, s') ->
  good s s' /\ samenames s s' /\ Den s' r (TNot t) /\ fid r = negId (fid f).
Proof.
  intros Hw Hd Hnt H. pose proof Hw as [W T].
  assert (Kf : known s f) by (eapply Den_known; eauto).
  destruct (notC s f) as [g|] eqn:Ec.
  - inversion H; subst. apply (c_not s' T) in Ec. apply node_nots in Ec; auto.
    split; [apply good_refl; auto|]. split; [intros ? ?; auto|]. split; [eapply DNot; eauto|].
    destruct (w_ok s' W r _ Ec) as (_ & _ & He). auto.
  - pose proof (notable_odd s f Hw Kf Hnt) as Ho.
    destruct Kf as [shf Hf].
    pose proof (w_id s W f _ Hf) as Hid.
    pose proof (negId_le (fid f) Ho) as Hle.
    assert (Hlt : nid s <? negId (fid f) = false) by (apply N.ltb_ge; lia).
    cbv zeta in H. rewrite Hlt in H. inversion H; subst r s'; clear H.
    set (l := F SNot (negId (fid f))).
    set (s' := set_nots _ _).
    assert (Hfr : forall g, known s g -> fid g <> fid l).
    { intros g Kg He. simpl in He.
      assert (Hodd : N.odd (fid g) = false) by (rewrite He, negId_odd, Ho; auto).
      destruct (even_known s g Hw Kg Hodd) as [[Hn ->]|[(n & v & Hn & Hv & Hi)|(g' & Hn & Kg' & Hnt' & Hi)]].
      - assert (f = ftrue). { apply (w_inj s W); auto using known_true; [red; eauto|]. apply negId_inj. rewrite <- He. reflexivity. }
        subst f. discriminate.
      - assert (f = v). { apply (w_inj s W); [red; eauto|red; eauto|]. apply negId_inj. congruence. }
        subst f. apply node_sort in Hv. unfold notable in Hnt. rewrite Hv in Hnt. discriminate.
      - assert (f = g'). { apply (w_inj s W); auto; [red; eauto|]. apply negId_inj. congruence. }
        subst g'. apply node_nots in Hn; auto. apply (c_not s T) in Hn. congruence. }
    destruct (fresh_none s l (conj W T) Hfr) as (_ & Hl & _).
    assert (A : adds s s' l (ShNot f)).
    { intros g. unfold node, s', upd; simpl. destruct (feqb_spec g l); [subst; reflexivity|].
      destruct (srt g) eqn:Es; auto. }
    assert (Hnode : node s' l = Some (ShNot f)).
    { rewrite A, feqb_refl; auto. }
    destruct (wfn_add s s' l (ShNot f)) as [E' W']; auto.
    + simpl; lia.
    + intros g Hg. apply node_nots in Hg; auto. apply (c_not s T) in Hg. congruence.
    + simpl; lia.
    + simpl. split; [rewrite negId_odd, Ho; auto|]. auto.
    + repeat constructor. red; eauto.
    + split; [|split; [intros ? ?; auto|split; auto]].
      * split; [split; auto|split; auto; apply frame_same; reflexivity].
        destruct T. constructor; auto; unfold s', upd; simpl; intros.
        -- fresh4; auto. eapply t_not0; eauto.
        -- split; intros Hx; repeat fresh4; try congruence; auto.
           ++ apply c_not0 in Hx. congruence.
           ++ apply c_not0 in Hx. congruence.
           ++ apply c_not0 in Hx. congruence.
           ++ apply c_not0 in Hx. congruence.
      * eapply DNot; eauto. eapply ext_Den; eauto.
Qed.

Lemma Not_spec s f t r s' : wf s -> Den s f t -> Not f s = (r, s') ->
  good s s' /\ samenames s s' /\ (exists u, Den s' r u /\ is_neg_of t u) /\ fid r = negId (fid f).
Proof.
  intros Hw Hd H. pose proof Hw as [W T]. unfold Not in H.
  assert (SN : forall x, samenames x x) by (intros ? ?; auto).
  destruct (feqb_spec f ffalse) as [->|Hnf].
  { inversion H; subst. split; [apply good_refl; auto|]. split; auto. split; auto.
    exists TTrue. inversion Hd; subst; rewrite node_false in *; try congruence. split; simpl; auto. apply DTrue, node_true. }
  destruct (feqb_spec f ftrue) as [->|Hnt].
  { inversion H; subst. split; [apply good_refl; auto|]. split; auto. split; auto.
    exists TFalse. inversion Hd; subst; rewrite node_true in *; try congruence. split; simpl; auto. apply DFalse, node_false. }
  assert (Kf : known s f) by (eapply Den_known; eauto).
  destruct (srt f) eqn:Es; cycle 2.
  - (* literal *)
    inversion Hd; subst; match goal with H : node s f = Some _ |- _ => pose proof (node_sort _ _ _ H) as Hs; rewrite Es in Hs; try discriminate end.
    pose proof H0 as Hl. apply node_lit in Hl; auto. rewrite Hl in H.
    destruct (Lit_spec s n (negb p) r s' Hw H) as (G & Hr & Hnm).
    split; auto. split.
    { intros m Hm. apply Hnm in Hm. destruct Hm as [Hm| ->]; auto.
      destruct p.
      - apply (c_pos s T) in Hl. red. congruence.
      - destruct (w_ok s W f _ H0) as (_ & _ & Hx). destruct (Hx eq_refl) as (v & Hv & _).
        apply node_lit in Hv; auto. apply (c_pos s T) in Hv. red; congruence. }
    split.
    { exists (TLit (n, negb p)). split; [apply DLit; auto|reflexivity]. }
    destruct G as ([W' T'] & E & _). apply E in H0.
    destruct p; simpl in Hr.
    + destruct (w_ok s' W' r _ Hr) as (_ & _ & Hx). destruct (Hx eq_refl) as (v & Hv & He).
      rewrite He. f_equal. f_equal. eapply (w_uniq s' W'); eauto.
    + destruct (w_ok s' W' f _ H0) as (_ & _ & Hx). destruct (Hx eq_refl) as (v & Hv & He).
      rewrite He, negId_invol. f_equal. eapply (w_uniq s' W'); eauto.
  - (* not *)
    inversion Hd; subst; match goal with H : node s f = Some _ |- _ => pose proof (node_sort _ _ _ H) as Hs; rewrite Es in Hs; try discriminate end.
    pose proof H0 as Hl. apply node_nots in Hl; auto. rewrite Hl in H. inversion H; subst.
    split; [apply good_refl; auto|]. split; auto. split.
    { exists t0. split; auto. reflexivity. }
    destruct (w_ok s' W f _ H0) as (_ & _ & He). rewrite He, negId_invol. auto.
  - destruct (NotDefault_spec s f t r s' Hw Hd) as (G & S1 & D1 & I1); auto; [unfold notable; rewrite Es; auto|].
    refine (conj G (conj S1 (conj _ I1))). exists (TNot t). split; auto. inversion Hd; subst; simpl; auto; 
    match goal with H : node s f = Some _ |- _ => apply node_sort in H; rewrite Es in H; discriminate end.
  - destruct (NotDefault_spec s f t r s' Hw Hd) as (G & S1 & D1 & I1); auto; [unfold notable; rewrite Es; auto|].
    refine (conj G (conj S1 (conj _ I1))). exists (TNot t). split; auto. inversion Hd; subst; simpl; auto; 
    match goal with H : node s f = Some _ |- _ => apply node_sort in H; rewrite Es in H; discriminate end.
  - destruct (NotDefault_spec s f t r s' Hw Hd) as (G & S1 & D1 & I1); auto; [unfold notable; rewrite Es; auto|].
    refine (conj G (conj S1 (conj _ I1))). exists (TNot t). split; auto. inversion Hd; subst; simpl; auto; 
    match goal with H : node s f = Some _ |- _ => apply node_sort in H; rewrite Es in H; discriminate end.
  - destruct (NotDefault_spec s f t r s' Hw Hd) as (G & S1 & D1 & I1); auto; [unfold notable; rewrite Es; auto|].
    refine (conj G (conj S1 (conj _ I1))). exists (TNot t). split; auto. inversion Hd; subst; simpl; auto; 
    match goal with H : node s f = Some _ |- _ => apply node_sort in H; rewrite Es in H; discriminate end.
  - destruct (NotDefault_spec s f t r s' Hw Hd) as (G & S1 & D1 & I1); auto; [unfold notable; rewrite Es; auto|].
    refine (conj G (conj S1 (conj _ I1))). exists (TNot t). split; auto. inversion Hd; subst; simpl; auto; 
    match goal with H : node s f = Some _ |- _ => apply node_sort in H; rewrite Es in H; discriminate end.
  - destruct (NotDefault_spec s f t r s' Hw Hd) as (G & S1 & D1 & I1); auto; [unfold notable; rewrite Es; auto|].
    refine (conj G (conj S1 (conj _ I1))). exists (TNot t). split; auto. inversion Hd; subst; simpl; auto; 
    match goal with H : node s f = Some _ |- _ => apply node_sort in H; rewrite Es in H; discriminate end.
  - exfalso. destruct Kf as [sh Hn]. unfold node in Hn. rewrite Es in Hn. destruct (N.eqb_spec (fid f) 0); [|discriminate].
    apply Hnf. destruct f; simpl in *; subst; reflexivity.
  - exfalso. destruct Kf as [sh Hn]. unfold node in Hn. rewrite Es in Hn. destruct (N.eqb_spec (fid f) 1); [|discriminate].
    apply Hnt. destruct f; simpl in *; subst; reflexivity.
Qed.
