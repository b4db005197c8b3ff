(** * C01 - C07: the formula factory *)
From Coq Require Import String Ascii List Bool ZArith NArith Lia.
From Verif Require Import Spec Factory FactoryProofs FactoryProofs2 FactoryProofs3 FactoryApi.
Import ListNotations.
Local Open Scope N_scope.

(** ** Reading through the accessors is the internal denotation *)
Lemma LiteralNamePhase_node s f np : wf s -> (LiteralNamePhase f s = Some np <-> litDen s f np).
Proof.
  intros [W T]. unfold LiteralNamePhase, litDen, node. destruct np as [n p]. simpl.
  destruct (srt f); try (split; discriminate).
  - destruct (fid f =? 0); split; discriminate.
  - destruct (fid f =? 1); split; discriminate.
  - destruct (literals s f) as [[n' p']|]; simpl; split; intros H; inversion H; auto.
  - destruct (nots s f); split; discriminate.
  - destruct (ands s f); split; discriminate.
  - destruct (ors s f); split; discriminate.
  - destruct (impls s f); split; discriminate.
  - destruct (equivs s f); split; discriminate.
  - destruct (ccs s f); split; discriminate.
  - destruct (pbcs s f); split; discriminate.
Qed.

Lemma Reads_Den s : wf s -> forall t f, Reads s f t <-> Den s f t.
Proof.
  intros Hw. pose proof Hw as [W T].
  assert (HL : forall ls ns, Forall2 (fun l np => LiteralNamePhase l s = Some np) ls ns <-> Forall2 (litDen s) ls ns).
  { induction ls; intros ns; split; intros H; inversion H; subst; constructor; try (apply LiteralNamePhase_node; auto; fail); apply IHls; auto. }
  assert (HF : forall ts, Forall (fun t => forall f, Reads s f t <-> Den s f t) ts ->
     forall l, Forall2 (Reads s) l ts <-> Forall2 (Den s) l ts).
  { induction 1; intros l'; split; intros Hx; inversion Hx; subst; constructor; try (apply H; auto; fail); apply IHForall; auto. }
  induction t using tree_ind'; intros f; split; intros Hd.
  - inversion Hd; subst. apply Den_false.
  - inversion Hd; subst. assert (f = ffalse) as -> by (eapply Den_inj; eauto using Den_false). constructor.
  - inversion Hd; subst. apply Den_true.
  - inversion Hd; subst. assert (f = ftrue) as -> by (eapply Den_inj; eauto using Den_true). constructor.
  - inversion Hd; subst. apply litDen_Den. apply LiteralNamePhase_node; auto.
  - inversion Hd; subst. constructor. apply LiteralNamePhase_node; auto.
  - inversion Hd; subst. eapply DNot; [apply node_nots; eauto|apply IHt; auto].
  - inversion Hd; subst. eapply R_not; [eapply (node_sort _ _ _ H0)|apply node_nots; eauto|apply IHt; auto].
  - inversion Hd; subst. unfold NaryOperands in H2. rewrite H1 in H2. eapply DAnd; [apply node_ands; eauto|apply HF; auto].
  - inversion Hd; subst. pose proof (node_sort _ _ _ H1) as Hs. eapply R_and; [exact Hs| |apply HF; eauto]. unfold NaryOperands. rewrite Hs. apply node_ands; auto.
  - inversion Hd; subst. unfold NaryOperands in H2. rewrite H1 in H2. eapply DOr; [apply node_ors; eauto|apply HF; auto].
  - inversion Hd; subst. pose proof (node_sort _ _ _ H1) as Hs. eapply R_or; [exact Hs| |apply HF; eauto]. unfold NaryOperands. rewrite Hs. apply node_ors; auto.
  - inversion Hd; subst. unfold BinaryLeftRight in H2. rewrite H1 in H2. eapply DImpl; [apply node_impls; eauto|apply IHt1; auto|apply IHt2; auto].
  - inversion Hd; subst. pose proof (node_sort _ _ _ H1) as Hs. eapply R_impl; [exact Hs| |apply IHt1; eauto|apply IHt2; eauto]. unfold BinaryLeftRight. rewrite Hs. apply node_impls; auto.
  - inversion Hd; subst. unfold BinaryLeftRight in H2. rewrite H1 in H2. eapply DEquiv; [apply node_equivs; eauto|apply IHt1; auto|apply IHt2; auto].
  - inversion Hd; subst. pose proof (node_sort _ _ _ H1) as Hs. eapply R_equiv; [exact Hs| |apply IHt1; eauto|apply IHt2; eauto]. unfold BinaryLeftRight. rewrite Hs. apply node_equivs; auto.
  - inversion Hd; subst. unfold PBCOps in *.
    destruct (srt f) eqn:Es; try discriminate; simpl.
    + apply DCC; [apply node_ccs; auto|apply HL; auto].
    + apply DPBC; [apply node_pbcs; auto|apply HL; auto].
  - inversion Hd; subst.
    + match goal with H : node s f = _ |- _ => pose proof (node_sort _ _ _ H) as Hs; apply node_ccs in H; auto end.
      replace true with (fsort_eqb (srt f) SCC) by (rewrite Hs; reflexivity).
      apply R_pbc; [unfold PBCOps; rewrite Hs; auto|apply HL; auto].
    + match goal with H : node s f = _ |- _ => pose proof (node_sort _ _ _ H) as Hs; apply node_pbcs in H; auto end.
      replace false with (fsort_eqb (srt f) SCC) by (rewrite Hs; reflexivity).
      apply R_pbc; [unfold PBCOps; rewrite Hs; auto|apply HL; auto].
Qed.

(** ** Cache writes keep the invariant *)
Lemma cache_ext s t p u a : ext s (set_transC t (set_predC p (set_funcC u (set_auxCtr a s)))).
Proof. constructor; auto. simpl; lia. Qed.
Lemma cache_wf s t p u a : wf s -> wf (set_transC t (set_predC p (set_funcC u (set_auxCtr a s)))).
Proof.
  intros [W T]. set (s' := set_transC _ _). assert (E : ext s s') by apply cache_ext.
  split.
  - destruct W. constructor; auto.
    intros f H. destruct (w_den f H) as [x Hx]. exists x. eapply ext_Den; eauto.
  - destruct T. constructor; auto.
Qed.
Lemma aux_eta s : set_auxCtr (auxCtr s) s = s. Proof. destruct s; reflexivity. Qed.
Lemma cache_wf' s t p u : wf s -> wf (set_transC t (set_predC p (set_funcC u s))).
Proof. intros H. rewrite <- (aux_eta s). apply cache_wf. auto. Qed.
Lemma cache_ext' s t p u : ext s (set_transC t (set_predC p (set_funcC u s))).
Proof. rewrite <- (aux_eta s) at 2. apply cache_ext. Qed.
Lemma auxCtr_wf s a : wf s -> wf (set_auxCtr a s) /\ ext s (set_auxCtr a s).
Proof.
  intros H. split.
  - apply (cache_wf s (transC s) (predC s) (funcC s) a) in H. destruct s; exact H.
  - pose proof (cache_ext s (transC s) (predC s) (funcC s) a) as E. destruct s; exact E.
Qed.

Lemma NewAuxVar_spec s k v s' : wf s -> NewAuxVar k s = (v, s') ->
  wf s' /\ ext s s' /\ node s' v = Some (ShLit (auxName k (auxCtr s k)) true) /\
  (forall m, names s' m <-> names s m \/ m = auxName k (auxCtr s k)) /\
  auxCtr s' = upd auxsort_beq (auxCtr s) k (auxCtr s k + 1) /\
  transC s' = transC s /\ predC s' = predC s /\ funcC s' = funcC s.
Proof.
  intros Hw H. unfold NewAuxVar in H. destruct (Var _ s) as [v1 s1] eqn:Ev. inversion H; subst; clear H.
  destruct (Var_spec _ _ _ _ Hw Ev) as ((W1 & E1 & F1) & Hn & Hnames & _).
  destruct (auxCtr_wf s1 (upd auxsort_beq (auxCtr s1) k (auxCtr s1 k + 1)) W1) as [W2 E2].
  split; auto. split; [eapply ext_trans; eauto|]. split; [apply E2; auto|]. split; [exact Hnames|].
  split; [simpl; rewrite (fr_aux _ _ F1); auto|].
  unfold Var in Ev. destruct (posLit s _); [inversion Ev; subst; auto|]. unfold nextPosId in Ev. inversion Ev; subst; auto.
Qed.

(** ** Held formulas *)
Definition held (s : state) (H : list formula) : Prop := wf s /\ Forall (known s) H.

Lemma held_in s H f : held s H -> In f H -> exists t, Den s f t.
Proof. intros [[W T] K] Hi. rewrite Forall_forall in K. apply (w_den s W). auto. Qed.
Lemma held_incl s H l : held s H -> incl l H -> exists ts, Forall2 (Den s) l ts.
Proof.
  intros Hh. induction l as [|f l IH]; intros Hi; [exists []; constructor|].
  destruct (held_in s H f Hh) as [t Ht]; [apply Hi; left; auto|].
  destruct IH as [ts Hts]; [intros x Hx; apply Hi; right; auto|]. exists (t :: ts). constructor; auto.
Qed.
Lemma held_lits s H l : held s H -> incl l H -> Forall isLit l -> exists ns, Forall2 (litDen s) l ns.
Proof.
  intros Hh Hi HL. destruct (held_incl s H l Hh Hi) as [ts Hts]. clear Hi.
  induction Hts as [|f t l ts Hd Hds IH]; [exists []; constructor|]. inversion HL; subst.
  destruct (Den_lit_inv s f t Hd) as (n & p & -> & Hl); auto.
  destruct IH as [ns Hns]; auto. exists ((n, p) :: ns). constructor; auto.
Qed.
Lemma Forall_isVar l : Forall isVar l -> Forall isLit l.
Proof. apply Forall_impl. intros a [H _]; exact H. Qed.
Lemma held_vars s H l : held s H -> incl l H -> Forall isVar l -> exists ns, Forall2 (litDen s) l ns /\ forallb snd ns = true.
Proof.
  intros Hh Hi HL. destruct (held_lits s H l Hh Hi (Forall_isVar _ HL)) as [ns Hns]. exists ns. split; auto.
  rewrite <- (litDens_pos s l ns); auto; [|apply Hh]. apply forallb_forall. rewrite Forall_forall in HL. intros x Hx. apply HL; auto.
Qed.

(** ** The meaning of every constructor, on trees *)
Lemma litDen_litof s l ts ns : Forall2 (Den s) l ts -> Forall2 (litDen s) l ns -> map lit_of ts = ns.
Proof.
  intros H. revert ns. induction H; intros ns Hn; inversion Hn; subst; auto. simpl. f_equal; auto.
  apply litDen_Den in H3. rewrite (Den_fun _ _ _ _ H H3). reflexivity.
Qed.
Lemma map_const_length {A B C} (c : C) (l : list A) (l' : list B) : length l = length l' -> map (fun _ => c) l = map (fun _ => c) l'.
Proof. revert l'. induction l; intros [|]; simpl; intros; try discriminate; auto. f_equal; auto. Qed.

Lemma cc_tree_equiv c rhs ns : equiv (cc_tree c rhs ns) (TPBC true c rhs ns (map (fun _ => 1%Z) ns)).
Proof. intros b. destruct ns; simpl; auto. unfold trivial_pbc. destruct (cmp_holds c 0 rhs); auto. Qed.
Lemma pb_tree_equiv c rhs ns cs : equiv (pb_tree c rhs ns cs) (TPBC false c rhs ns cs).
Proof.
  intros b. destruct ns; simpl.
  - unfold trivial_pbc. destruct (cmp_holds c 0 rhs); auto.
  - destruct (_ && _); auto.
Qed.

Lemma constructCC_meaning s c rhs vars ts ns r s' : wf s -> (0 <= rhs)%Z -> Forall2 (Den s) vars ts -> Forall2 (litDen s) vars ns -> forallb snd ns = true ->
  constructCC c rhs vars s = (r, s') ->
  wf s' /\ ext s s' /\ exists t, Den s' r t /\ equiv t (TPBC true c rhs (map lit_of ts) (map (fun _ => 1%Z) ts)).
Proof.
  intros Hw Hrhs Hd Hn Hp H. destruct (constructCC_spec s c rhs vars ns r s' Hw Hrhs Hn Hp H) as ((W & E & _) & _ & D).
  split; auto. split; auto. exists (cc_tree c rhs ns). split; auto.
  rewrite (litDen_litof s vars ts ns Hd Hn).
  replace (map (fun _ => 1%Z) ts) with (map (fun _ : lit => 1%Z) ns); [apply cc_tree_equiv|].
  apply map_const_length. rewrite <- (Forall2_length _ _ _ Hd), <- (Forall2_length _ _ _ Hn). auto.
Qed.

Lemma run_spec c s H r s' ts : held s H -> allowed H c -> Forall2 (Den s) (operands_of c) ts -> run c s = (r, s') ->
  wf s' /\ ext s s' /\ exists t, Den s' r t /\ equiv t (promise c s ts).
Proof.
  intros Hh Ha Hd Hr. pose proof Hh as [Hw Hk].
  destruct c; simpl in Ha, Hd, Hr |- *.
  - destruct (Var_spec _ _ _ _ Hw Hr) as ((W & E & _) & Hn & _). split; auto. split; auto. eexists; split; [apply DLit; eauto|intros b; auto].
  - destruct (Lit_spec _ _ _ _ _ Hw Hr) as ((W & E & _) & Hn & _). split; auto. split; auto. eexists; split; [apply DLit; eauto|intros b; auto].
  - destruct (NewAuxVar_spec _ _ _ _ Hw Hr) as (W & E & Hn & _). split; auto. split; auto. eexists; split; [apply DLit; eauto|intros b; auto].
  - inversion Hd as [|? t ? ts' Hd1 Hd2]; subst. inversion Hd2; subst.
    destruct (Not_spec _ _ _ _ _ Hw Hd1 Hr) as ((W & E & _) & _ & (u & Du & Hu) & _). split; auto. split; auto.
    exists u; split; auto. intros b. simpl. apply is_neg_of_eval; auto.
  - inversion Hd as [|? t ? ts' Hd1 Hd2]; subst. inversion Hd2 as [|? t2 ? ts2 Hd3 Hd4]; subst.
    destruct (Implication_spec _ _ _ _ _ _ _ Hw Hd1 Hd3 Hr) as ((W & E & _) & _ & (u & Du & Hu & _)). eauto.
  - inversion Hd as [|? t ? ts' Hd1 Hd2]; subst. inversion Hd2 as [|? t2 ? ts2 Hd3 Hd4]; subst.
    destruct (Equivalence_spec _ _ _ _ _ _ _ Hw Hd1 Hd3 Hr) as ((W & E & _) & _ & (u & Du & Hu & _)). eauto.
  - destruct (And_spec _ _ _ _ _ Hw Hd Hr) as ((W & E & _) & _ & (u & Du & Hu & _) & _). eauto.
  - destruct (Or_spec _ _ _ _ _ Hw Hd Hr) as ((W & E & _) & _ & (u & Du & Hu & _) & _). eauto.
  - destruct (Minterm_spec _ _ _ _ _ Hw Hd (proj2 Ha) Hr) as ((W & E & _) & _ & (u & Du & Hu & _)). eauto.
  - destruct (Clause_spec _ _ _ _ _ Hw Hd (proj2 Ha) Hr) as ((W & E & _) & _ & (u & Du & Hu & _)). eauto.
  - destruct Ha as [Hi Hv]. destruct (held_vars s H vars Hh Hi Hv) as (ns & Hn & Hp). eapply constructCC_meaning; eauto; lia.
  - destruct Ha as [Hi Hv]. destruct (held_vars s H vars Hh Hi Hv) as (ns & Hn & Hp). eapply constructCC_meaning; eauto; lia.
  - destruct Ha as [Hi Hv]. destruct (held_vars s H vars Hh Hi Hv) as (ns & Hn & Hp). eapply constructCC_meaning; eauto; lia.
  - destruct Ha as (Hi & Hv & Hlen). destruct (held_lits s H ls Hh Hi Hv) as (ns & Hn).
    destruct (PBC_spec s c rhs ls cs ns r s' Hw Hn Hlen Hr) as ((W & E & _) & _ & D). split; auto. split; auto.
    eexists; split; eauto. rewrite (litDen_litof s ls ts ns Hd Hn). apply pb_tree_equiv.
Qed.

Lemma allowed_incl H c : allowed H c -> incl (operands_of c) H.
Proof.
  destruct c; simpl; intros Ha; try (destruct Ha; assumption); auto; intros g Hg; simpl in Hg; intuition subst; auto.
Qed.

Lemma known_ext s s' H : ext s s' -> Forall (known s) H -> Forall (known s') H.
Proof. intros E. apply Forall_impl. intros a. apply ext_known; auto. Qed.

Lemma Operands_children s f g : wf s -> known s f -> In g (Operands f s) -> known s g.
Proof.
  intros Hw [sh Hn] Hi. pose proof Hw as [W T]. eapply known_children; eauto.
  pose proof (node_sort _ _ _ Hn) as Hs. unfold Operands in Hi. rewrite Hs in Hi.
  destruct sh; simpl in *; try tauto.
  - apply node_nots in Hn; auto. rewrite Hn in Hi. auto.
  - apply node_ands in Hn; auto. unfold getops in Hi. rewrite Hn in Hi. auto.
  - apply node_ors in Hn; auto. unfold getops in Hi. rewrite Hn in Hi. auto.
  - apply node_impls in Hn; auto. unfold getpair in Hi. rewrite Hn in Hi. auto.
  - apply node_equivs in Hn; auto. unfold getpair in Hi. rewrite Hn in Hi. auto.
Qed.

Lemma PBCOps_node s f p : wf s -> PBCOps f s = Some p -> node s f = Some (ShCC p) \/ node s f = Some (ShPBC p).
Proof. intros [W T] H. unfold PBCOps in H. destruct (srt f); try discriminate; [left; apply node_ccs|right; apply node_pbcs]; auto. Qed.

Lemma step_held ok s H s' H' : step ok (s, H) (s', H') -> held s H -> held s' H' /\ ext s s' /\ incl H H'.
Proof.
  intros St Hh. pose proof Hh as [Hw Hk].
  inversion St as [c s0 H0 r s0' Hok Hal Hrun|f g s0 H0 Hi Hop|f p g s0 H0 Hi Hop Hp|t p u s0 H0]; subst.
  - destruct (held_incl s H _ Hh (allowed_incl _ _ Hal)) as [ts Hts].
    destruct (run_spec _ _ _ _ _ _ Hh Hal Hts Hrun) as (W & E & t & D & _).
    split; [split; auto; constructor; [eapply Den_known; eauto|eapply known_ext; eauto]|]. split; auto. apply incl_tl, incl_refl.
  - split; [split; auto; constructor; auto; eapply Operands_children; eauto; rewrite Forall_forall in Hk; auto|].
    split; [apply ext_refl|apply incl_tl, incl_refl].
  - split; [split; auto; constructor; auto|split; [apply ext_refl|apply incl_tl, incl_refl]].
    destruct (PBCOps_node _ _ _ Hw Hop) as [Hx|Hx]; (eapply known_children; [exact Hw|exact Hx|simpl; auto]).
  - split; [split; [apply cache_wf'; auto|eapply known_ext; eauto; apply cache_ext']|]. split; [apply cache_ext'|apply incl_refl].
Qed.

Lemma steps_held ok w w' : steps ok w w' -> held (fst w) (snd w) ->
  held (fst w') (snd w') /\ ext (fst w) (fst w') /\ incl (snd w) (snd w').
Proof.
  induction 1; intros Hh.
  - split; auto. split; [apply ext_refl|apply incl_refl].
  - destruct (IHsteps Hh) as (H1 & E1 & I1). destruct w2 as [s2 H2], w3 as [s3 H3].
    destruct (step_held _ _ _ _ _ H0 H1) as (H4 & E4 & I4).
    split; auto. split; [eapply ext_trans; eauto|eapply incl_tran; eauto].
Qed.

Lemma held_new cv : held (newFactory cv) [ffalse; ftrue].
Proof. split; [apply wf_new|]. repeat constructor; [apply known_false|apply known_true]. Qed.

Lemma history_held ok cv s H : history ok cv s H -> held s H.
Proof. intros Hh. apply (steps_held _ _ _ Hh). apply held_new. Qed.

(** * The properties *)

(** ** C01 Formulas are immutable *)
Theorem C01_immutable : forall ok cv s H s' H' f t,
  history ok cv s H -> steps ok (s, H) (s', H') ->
  In f H -> Reads s f t -> Reads s' f t /\ forall u, Reads s' f u -> u = t.
Proof.
  intros ok cv s H s' H' f t Hh St Hi Hr. pose proof (history_held _ _ _ _ Hh) as Hd.
  destruct (steps_held _ _ _ St Hd) as (H1 & E & _). simpl in *.
  pose proof Hd as [Hw _]. pose proof H1 as [Hw' _].
  apply Reads_Den in Hr; auto. pose proof (ext_Den _ _ E _ _ Hr) as Hr'. split; [apply Reads_Den; auto|].
  intros u Hu. apply Reads_Den in Hu; auto. eapply Den_fun; eauto.
Qed.

(** every held formula has exactly one structure *)
Theorem C01_readable : forall ok cv s H f, history ok cv s H -> In f H -> exists t, Reads s f t /\ forall u, Reads s f u -> u = t.
Proof.
  intros ok cv s H f Hh Hi. apply history_held in Hh. destruct (held_in _ _ _ Hh Hi) as [t Ht].
  exists t. destruct Hh as [Hw _]. split; [apply Reads_Den; auto|]. intros u Hu. apply Reads_Den in Hu; auto. eapply Den_fun; eauto.
Qed.

(** ** C02 Structural identity is identity *)
Theorem C02_identity : forall ok cv s H f g t u,
  history ok cv s H -> In f H -> In g H -> Reads s f t -> Reads s g u -> (f = g <-> t = u).
Proof.
  intros ok cv s H f g t u Hh Hf Hg Rf Rg. apply history_held in Hh. destruct Hh as [Hw _].
  apply Reads_Den in Rf; auto. apply Reads_Den in Rg; auto. split.
  - intros ->. eapply Den_fun; eauto.
  - intros ->. eapply Den_inj; eauto.
Qed.

(** The Go value of a formula is [code f], a uint32 with 28 bits for the id.  As long as the
    ids fit, distinct formulas have distinct Go values, and Sort() and ID() recover the pair. *)
Lemma code_eq f : fid f < 2 ^ 28 -> code f = sortnum (srt f) * 2 ^ 28 + fid f.
Proof.
  intros Hb. unfold code. change 0x0FFFFFFF with (N.ones 28). rewrite N.land_ones, N.mod_small by auto.
  rewrite N.shiftl_mul_pow2. rewrite <- N.lxor_lor, <- N.add_nocarry_lxor; auto.
  all: apply N.bits_inj_0; intros n; rewrite N.land_spec.
  all: destruct (N.lt_ge_cases n 28); [rewrite <- N.shiftl_mul_pow2, N.shiftl_spec_low; auto|].
  all: rewrite (N.bits_above_log2 (fid f)); [apply andb_false_r|].
  all: destruct (N.eq_dec (fid f) 0) as [->|]; [simpl; lia|apply N.log2_lt_pow2; [lia|]; eapply N.lt_le_trans; [eassumption|apply N.pow_le_mono_r; lia]].
Qed.

Theorem C02_encoding : forall ok cv s H f g, history ok cv s H -> In f H -> In g H ->
  nid s < 2 ^ 28 -> code f = code g -> f = g.
Proof.
  intros ok cv s H f g Hh Hf Hg Hb Hc. apply history_held in Hh. destruct Hh as [[W T] K].
  rewrite Forall_forall in K. destruct (K f Hf) as [sh Hs]. destruct (K g Hg) as [sh' Hs'].
  apply (w_id s W) in Hs. apply (w_id s W) in Hs'.
  rewrite !code_eq in Hc by lia. apply (w_inj s W); auto.
  assert (sortnum (srt f) = sortnum (srt g)) by nia. lia.
Qed.

(** ** C03 Constructors mean what they say *)
Theorem C03_meaning : forall ok cv s H c r s' ts,
  history ok cv s H -> allowed H c -> run c s = (r, s') -> Forall2 (Reads s) (operands_of c) ts ->
  exists t, Reads s' r t /\ forall b, eval b t = eval b (promise c s ts).
Proof.
  intros ok cv s H c r s' ts Hh Ha Hr Hts. apply history_held in Hh.
  assert (Hd : Forall2 (Den s) (operands_of c) ts).
  { clear -Hts Hh. destruct Hh as [Hw _]. induction Hts; constructor; auto. apply Reads_Den; auto. }
  destruct (run_spec _ _ _ _ _ _ Hh Ha Hd Hr) as (W & E & t & D & He). exists t. split; auto. apply Reads_Den; auto.
Qed.

(** ** C04 Negation is an involution *)
Lemma negation_involutive t u v s f : wf s -> Den s f t -> is_neg_of t u -> is_neg_of u v -> v = t.
Proof.
  intros [W T] D Hu Hv. destruct t; simpl in Hu; subst; simpl in Hv; auto.
  - destruct l as [n p]; subst; simpl in Hv. rewrite negb_involutive in Hv. auto.
  - apply Den_not_inv in D. destruct D as (g & Hn & Dg). apply (w_ok s W) in Hn as Hok. destruct Hok as (_ & Hnt & _).
    pose proof (Den_sort _ _ _ Dg) as Hs. unfold notable in Hnt. rewrite Hs in Hnt.
    match goal with |- _ = TNot ?x => destruct x end; try discriminate; simpl in Hv; auto.
Qed.

Theorem C04_involution : forall ok cv s H f g s1 h s2,
  history ok cv s H -> In f H -> Not f s = (g, s1) -> Not g s1 = (h, s2) ->
  h = f /\ g <> f /\ fid g = negId (fid f) /\ s2 = s1.
Proof.
  intros ok cv s H f g s1 h s2 Hh Hi H1 H2. apply history_held in Hh. destruct (held_in _ _ _ Hh Hi) as [t Dt]. destruct Hh as [Hw K].
  destruct (Not_spec _ _ _ _ _ Hw Dt H1) as ((W1 & E1 & _) & _ & (u & Du & Hu) & Hid).
  destruct (Not_spec _ _ _ _ _ W1 Du H2) as ((W2 & E2 & _) & _ & (v & Dv & Hv) & Hid2).
  assert (v = t) by exact (negation_involutive t u v s f Hw Dt Hu Hv). subst v.
  assert (Dt2 : Den s2 f t) by exact (ext_Den _ _ (ext_trans _ _ _ E1 E2) _ _ Dt).
  assert (h = f) by exact (Den_inj s2 W2 _ _ _ Dv Dt2). split; auto. split.
  - intros ->. symmetry in Hid. apply negId_neq in Hid. auto.
  - split; auto. subst h.
    unfold Not in H2.
    destruct (feqb_spec g ffalse); [inversion H2; auto|]. destruct (feqb_spec g ftrue); [inversion H2; auto|].
    pose proof (Den_sort _ _ _ Du) as Hs. assert (Df1 : Den s1 f t) by (eapply ext_Den; eauto).
    destruct W1 as [Wn1 T1].
    assert (Hnodes : t = TNot u -> nots s1 f = Some g).
    { intros ->. apply Den_not_inv in Df1. destruct Df1 as (g0 & Hn & Dg). apply node_nots in Hn; auto.
      assert (g0 = g) by exact (Den_inj s1 (conj Wn1 T1) _ _ _ Dg Du). congruence. }
    destruct u; try (rewrite Hs in H2); simpl in *; try (inversion H2; auto; fail).
    + exfalso. apply n. exact (Den_inj s1 (conj Wn1 T1) _ _ _ Du (Den_false s1)).
    + exfalso. apply n0. exact (Den_inj s1 (conj Wn1 T1) _ _ _ Du (Den_true s1)).
    + (* literal *) destruct l as [n1 p]. simpl in Hv. subst t. apply Den_litt_inv in Du. apply node_lit in Du; auto. simpl in Du. rewrite Du in H2.
      apply Den_litt_inv in Df1. apply node_lit in Df1; auto.
      unfold Lit, Var in H2. destruct p; simpl in *.
      * assert (Hp : posLit s1 n1 = Some g) by (apply (c_pos s1 T1); auto). rewrite Hp in H2.
        assert (Hng : negLit s1 n1 = Some f) by (apply (c_neg s1 T1); auto). rewrite Hng in H2. inversion H2; auto.
      * assert (Hp : posLit s1 n1 = Some f) by (apply (c_pos s1 T1); auto). rewrite Hp in H2. inversion H2; auto.
    + (* conjunction: not the negation of anything already stored as its own negation *)
      assert (Hnode : nots s1 f = Some g) by (apply Hnodes; auto).
      assert (Hc : notC s1 g = Some f) by (apply (c_not s1 T1); auto). rewrite Hc in H2. inversion H2; auto.
    + assert (Hnode : nots s1 f = Some g) by (apply Hnodes; auto).
      assert (Hc : notC s1 g = Some f) by (apply (c_not s1 T1); auto). rewrite Hc in H2. inversion H2; auto.
    + assert (Hnode : nots s1 f = Some g) by (apply Hnodes; auto).
      assert (Hc : notC s1 g = Some f) by (apply (c_not s1 T1); auto). rewrite Hc in H2. inversion H2; auto.
    + assert (Hnode : nots s1 f = Some g) by (apply Hnodes; auto).
      assert (Hc : notC s1 g = Some f) by (apply (c_not s1 T1); auto). rewrite Hc in H2. inversion H2; auto.
    + assert (Hnode : nots s1 f = Some g) by (apply Hnodes; auto).
      assert (Hc : notC s1 g = Some f) by (apply (c_not s1 T1); auto).
      destruct cc; rewrite Hc in H2; inversion H2; auto.
Qed.

(** the library's negation of a tree, as the factory returns it *)
Theorem C04_negation : forall ok cv s H f g s1 t, history ok cv s H -> In f H -> Not f s = (g, s1) ->
  Reads s f t -> exists u, Reads s1 g u /\ negation t u.
Proof.
  intros ok cv s H f g s1 t Hh Hi H1 Hr. apply history_held in Hh. destruct Hh as [Hw K]. apply Reads_Den in Hr; auto.
  destruct (Not_spec _ _ _ _ _ Hw Hr H1) as ((W1 & E1 & _) & _ & (u & Du & Hu) & Hid).
  exists u. split; [apply Reads_Den; auto|exact Hu].
Qed.

(** ** C05 And and Or return condensed formulas *)
(** In every history: at least two operands, none a constant, none of the same operator. *)
Theorem C05_flat : forall ok cv s H f ts, history ok cv s H -> In f H ->
  (Reads s f (TAnd ts) -> (2 <= length ts)%nat /\ forall t, In t ts -> t <> TTrue /\ t <> TFalse /\ forall l, t <> TAnd l) /\
  (Reads s f (TOr ts) -> (2 <= length ts)%nat /\ forall t, In t ts -> t <> TTrue /\ t <> TFalse /\ forall l, t <> TOr l).
Proof.
  intros ok cv s H f ts Hh Hi. apply history_held in Hh. destruct Hh as [Hw _]. pose proof Hw as [W T].
  split; intros Hr; apply Reads_Den in Hr; auto.
  - apply Den_and_inv in Hr. destruct Hr as (l & Hn & Hd). destruct (w_ok s W _ _ Hn) as (_ & Hlen & Hin).
    split; [rewrite <- (Forall2_length _ _ _ Hd); auto|]. pose proof (inners_A _ _ _ Hd Hin) as Hx. rewrite forallb_forall in Hx.
    intros t Ht. apply Hx in Ht. destruct t; try discriminate; repeat split; intros; discriminate.
  - apply Den_or_inv in Hr. destruct Hr as (l & Hn & Hd). destruct (w_ok s W _ _ Hn) as (_ & Hlen & Hin).
    split; [rewrite <- (Forall2_length _ _ _ Hd); auto|]. pose proof (inners_O _ _ _ Hd Hin) as Hx. rewrite forallb_forall in Hx.
    intros t Ht. apply Hx in Ht. destruct t; try discriminate; repeat split; intros; discriminate.
Qed.

Lemma condensed_same s s' : (forall f, node s' f = node s f \/ (forall l, node s' f <> Some (ShAnd l) /\ node s' f <> Some (ShOr l))) ->
  conserve s' = conserve s -> condensed s -> condensed s'.
Proof.
  intros Hn Hc Hcd f l Hf. unfold nocomp. rewrite Hc. apply (Hcd f l).
  destruct (Hn f) as [E|E]; [rewrite E in Hf; auto|]. destruct (E l) as [E1 E2]. destruct Hf; contradiction.
Qed.

Lemma nary_same s s' : ands s' = ands s -> ors s' = ors s -> conserve s' = conserve s -> condensed s -> condensed s'.
Proof.
  intros Ha Ho Hc Hcd f l Hf. unfold nocomp. rewrite Hc. apply (Hcd f l).
  destruct Hf as [Hf|Hf]; pose proof (node_sort _ _ _ Hf) as Hs; [left|right]; unfold node in *; rewrite Hs in *; simpl in *; rewrite <- ?Ha, <- ?Ho; auto.
Qed.

Ltac crush_nary := repeat match goal with
  | H : (match ?x with _ => _ end) = (_, _) |- _ => let E := fresh in destruct x eqn:E
  | H : (if ?x then _ else _) = (_, _) |- _ => let E := fresh in destruct x eqn:E
  | H : (let (_, _) := ?x in _) = (_, _) |- _ => let E := fresh in destruct x eqn:E
  end.

Lemma Var_nary n s r s' : Var n s = (r, s') -> ands s' = ands s /\ ors s' = ors s /\ conserve s' = conserve s.
Proof. unfold Var, nextPosId. intros H. crush_nary; inversion H; subst; auto. Qed.
Lemma Lit_nary n p s r s' : Lit n p s = (r, s') -> ands s' = ands s /\ ors s' = ors s /\ conserve s' = conserve s.
Proof.
  unfold Lit. intros H. destruct (Var n s) as [v s1] eqn:Ev. apply Var_nary in Ev. destruct Ev as (E1 & E2 & E3).
  destruct p; [inversion H; subst; auto|]. destruct (negLit s1 n); [inversion H; subst; auto|].
  destruct (nid s1 <? negId (fid v)); inversion H; subst; auto.
Qed.
Lemma Not_nary f s r s' : Not f s = (r, s') -> ands s' = ands s /\ ors s' = ors s /\ conserve s' = conserve s.
Proof.
  unfold Not. intros H. destruct (feqb f ffalse); [inversion H; subst; auto|]. destruct (feqb f ftrue); [inversion H; subst; auto|].
  destruct (srt f); try (destruct (notC s f); [inversion H; subst; auto|]; destruct (nid s <? negId (fid f)); inversion H; subst; auto; fail).
  - destruct (literals s f) as [[n p]|]; eapply Lit_nary; eauto.
Qed.
Lemma Impl_nary a b s r s' : Implication a b s = (r, s') -> ands s' = ands s /\ ors s' = ors s /\ conserve s' = conserve s.
Proof. unfold Implication, nextPosId. intros H. crush_nary; try (eapply Not_nary; eassumption); inversion H; subst; auto. Qed.
Lemma Equiv_nary a b s r s' : Equivalence a b s = (r, s') -> ands s' = ands s /\ ors s' = ors s /\ conserve s' = conserve s.
Proof. unfold Equivalence, nextPosId. intros H. crush_nary; try (eapply Not_nary; eassumption); inversion H; subst; auto. Qed.
Lemma CC_nary c rhs l s r s' : constructCC c rhs l s = (r, s') -> ands s' = ands s /\ ors s' = ors s /\ conserve s' = conserve s.
Proof. unfold constructCC, nextPosId. cbv zeta. intros H. crush_nary; inversion H; subst; auto. Qed.
Lemma PBC_nary c rhs l cs s r s' : PBC c rhs l cs s = (r, s') -> ands s' = ands s /\ ors s' = ors s /\ conserve s' = conserve s.
Proof. unfold PBC, constructPBC, nextPosId. cbv zeta. intros H. crush_nary; try (eapply CC_nary; eassumption); inversion H; subst; auto. Qed.

Lemma run_condensed c s H r s' : condensing c -> held s H -> allowed H c -> run c s = (r, s') -> condensed s -> condensed s'.
Proof.
  intros Hc Hh Ha Hr Hcd. destruct c; simpl in *; try tauto.
  - apply Var_nary in Hr. destruct Hr as (? & ? & ?). eapply nary_same; eauto.
  - apply Lit_nary in Hr. destruct Hr as (? & ? & ?). eapply nary_same; eauto.
  - unfold NewAuxVar in Hr. destruct (Var _ s) as [v s1] eqn:Ev. inversion Hr; subst. apply Var_nary in Ev.
    destruct Ev as (? & ? & ?). eapply nary_same; eauto.
  - apply Not_nary in Hr. destruct Hr as (? & ? & ?). eapply nary_same; eauto.
  - apply Impl_nary in Hr. destruct Hr as (? & ? & ?). eapply nary_same; eauto.
  - apply Equiv_nary in Hr. destruct Hr as (? & ? & ?). eapply nary_same; eauto.
  - destruct (held_incl _ _ _ Hh Ha) as [ts Hts]. destruct (And_spec _ _ _ _ _ (proj1 Hh) Hts Hr) as (_ & _ & _ & Hx). auto.
  - destruct (held_incl _ _ _ Hh Ha) as [ts Hts]. destruct (Or_spec _ _ _ _ _ (proj1 Hh) Hts Hr) as (_ & _ & _ & Hx). auto.
  - apply CC_nary in Hr. destruct Hr as (? & ? & ?). eapply nary_same; eauto.
  - apply CC_nary in Hr. destruct Hr as (? & ? & ?). eapply nary_same; eauto.
  - apply CC_nary in Hr. destruct Hr as (? & ? & ?). eapply nary_same; eauto.
  - apply PBC_nary in Hr. destruct Hr as (? & ? & ?). eapply nary_same; eauto.
Qed.

Lemma condensed_new cv : condensed (newFactory cv).
Proof.
  intros f l [Hf|Hf]; pose proof (node_sort _ _ _ Hf) as Hs; unfold node in Hf; rewrite Hs in Hf; discriminate.
Qed.

Lemma history_condensed cv s H : history condensing cv s H -> condensed s /\ conserve s = cv.
Proof.
  intros Hh. unfold history in Hh. remember (newFactory cv, [ffalse; ftrue]) as w0. remember (s, H) as w.
  revert s H Heqw. induction Hh as [w|w1 w2 w3 St IH Hs]; intros s H ->.
  - injection Heqw0 as -> ->. split; [apply condensed_new|auto].
  - destruct w2 as [s2 H2]. destruct (IH Heqw0 s2 H2 eq_refl) as [IH1 IH2].
    assert (Hh2 : held s2 H2) by (eapply history_held; unfold history; rewrite <- Heqw0; eauto).
    destruct (step_held _ _ _ _ _ Hs Hh2) as (_ & E & _).
    split; [|rewrite (e_cons _ _ E); auto].
    inversion Hs as [c s0 H0 r s0' Hok Hal Hrun|f g s0 H0 Hi Hop|f p g s0 H0 Hi Hop Hp|t p u s0 H0]; subst; auto.
    eapply run_condensed; eauto.
Qed.

Lemma neg_ids s f g t u : wf s -> Den s f t -> Den s g u -> is_neg_of t u -> fid g = negId (fid f).
Proof.
  intros Hw Df Dg Hu. destruct (Not f s) as [r s1] eqn:E.
  destruct (Not_spec _ _ _ _ _ Hw Df E) as ((W1 & E1 & _) & _ & (v & Dv & Hv) & Hid).
  assert (v = u). { destruct t; simpl in *; try congruence. destruct l. congruence. }
  subst v. assert (r = g) by exact (Den_inj s1 W1 _ _ _ Dv (ext_Den _ _ E1 _ _ Dg)). congruence.
Qed.

Lemma condensed_trees s l ts : wf s -> Forall2 (Den s) l ts -> NoDup (map fid l) -> nocomp s l ->
  NoDup ts /\ (conserve s = false -> forall t u, In t ts -> In u ts -> ~ negation t u).
Proof.
  intros Hw Hd Hnd Hnc. split.
  - clear Hnc. induction Hd; [constructor|]. simpl in Hnd. inversion Hnd; subst. constructor; auto.
    intros Hi. apply (Forall2_in_r _ _ _ _ Hd) in Hi. destruct Hi as (z & Hz & Dz).
    assert (z = x) by exact (Den_inj s Hw _ _ _ Dz H). subst z. apply H2. apply in_map; auto.
  - intros Hc t u Ht Hu Hn. destruct (Forall2_in_r _ _ _ _ Hd Ht) as (f & Hf & Df). destruct (Forall2_in_r _ _ _ _ Hd Hu) as (g & Hg & Dg).
    apply (Hnc Hc g f Hg Hf). eapply neg_ids; eauto.
Qed.

(** With the condensing constructors only: no operand is repeated, and unless the factory was
    created with conserveVars, no operand is the negation of another. *)
Theorem C05_condensed : forall cv s H f ts, history condensing cv s H -> In f H ->
  Reads s f (TAnd ts) \/ Reads s f (TOr ts) ->
  NoDup ts /\ (cv = false -> forall t u, In t ts -> In u ts -> ~ negation t u).
Proof.
  intros cv s H f ts Hh Hi Hr. destruct (history_condensed _ _ _ Hh) as [Hcd Hcv]. apply history_held in Hh. destruct Hh as [Hw _].
  rewrite <- Hcv. rewrite !Reads_Den in Hr by auto. destruct Hr as [Hr|Hr].
  - apply Den_and_inv in Hr. destruct Hr as (l & Hn & Hd). destruct (Hcd f l (or_introl Hn)). eapply condensed_trees; eauto.
  - apply Den_or_inv in Hr. destruct Hr as (l & Hn & Hd). destruct (Hcd f l (or_intror Hn)). eapply condensed_trees; eauto.
Qed.

(** ** C07 Accessors *)
(** Each accessor succeeds exactly on the formulas of its sort. *)
Theorem C07_sorts : forall ok cv s H f, history ok cv s H -> In f H ->
  (LiteralNamePhase f s <> None <-> srt f = SLit) /\
  (NotOperand f s <> None <-> srt f = SNot) /\
  (NaryOperands f s <> None <-> srt f = SAnd \/ srt f = SOr) /\
  (BinaryLeftRight f s <> None <-> srt f = SImpl \/ srt f = SEquiv) /\
  (PBCOps f s <> None <-> srt f = SCC \/ srt f = SPBC).
Proof.
  intros ok cv s H f Hh Hi. apply history_held in Hh. destruct (held_in _ _ _ Hh Hi) as [t Dt]. destruct Hh as [[W T] _].
  apply Den_known in Dt. destruct Dt as [sh Hn]. pose proof (node_sort _ _ _ Hn) as Hs.
  unfold LiteralNamePhase, NaryOperands, BinaryLeftRight, PBCOps, NotOperand.
  assert (Hnot : nots s f <> None -> srt f = SNot).
  { destruct (nots s f) eqn:E; [|congruence]. intros _. apply (t_not s T _ _ E). }
  unfold node in Hn. rewrite Hs in *. destruct sh; simpl in *;
  (split; [|split; [|split; [|split]]]); split; intros Hx; try congruence; try (destruct Hx; congruence); auto;
  try (destruct (literals s f); simpl in *; congruence); try (destruct (nots s f); simpl in *; congruence);
  try (destruct (ands s f); simpl in *; congruence); try (destruct (ors s f); simpl in *; congruence);
  try (destruct (impls s f); simpl in *; congruence); try (destruct (equivs s f); simpl in *; congruence);
  try (destruct (ccs s f); simpl in *; congruence); try (destruct (pbcs s f); simpl in *; congruence).
Qed.

(** Rebuilding a formula from what the accessors return gives the identical formula and
    changes nothing. *)
Theorem C07_rebuild : forall ok cv s H f, history ok cv s H -> In f H ->
  (forall n p, LiteralNamePhase f s = Some (n, p) -> Lit n p s = (f, s)) /\
  (forall g, NotOperand f s = Some g -> Not g s = (f, s)) /\
  (forall l, NaryOperands f s = Some l -> (srt f = SAnd /\ And l s = (f, s)) \/ (srt f = SOr /\ Or l s = (f, s))) /\
  (forall a b, BinaryLeftRight f s = Some (a, b) ->
     (srt f = SImpl /\ Implication a b s = (f, s)) \/ (srt f = SEquiv /\ Equivalence a b s = (f, s))) /\
  (forall p, PBCOps f s = Some p ->
     (srt f = SCC /\ CC (p_cmp p) (Z.to_N (p_rhs p)) (p_lits p) s = (f, s)) \/
     (srt f = SPBC /\ PBC (p_cmp p) (p_rhs p) (p_lits p) (p_coeffs p) s = (f, s))).
Proof.
  intros ok cv s H f Hh Hi. apply history_held in Hh. destruct Hh as [Hw _]. pose proof Hw as [W T].
  assert (FA : forall l, node s f = Some (ShAnd l) -> findAnd (hashOperands l) l s = Some f).
  { intros l Hn. destruct (findAnd (hashOperands l) l s) as [g|] eqn:E.
    - apply findAnd_some in E; auto. f_equal. eapply (w_uniq s W); eauto.
    - exfalso. eapply findAnd_none; eauto. }
  assert (FO : forall l, node s f = Some (ShOr l) -> findOr (hashOperands l) l s = Some f).
  { intros l Hn. destruct (findOr (hashOperands l) l s) as [g|] eqn:E.
    - apply findOr_some in E; auto. f_equal. eapply (w_uniq s W); eauto.
    - exfalso. eapply findOr_none; eauto. }
  assert (FC : forall l, node s f = Some (ShCC l) -> findCC (hashPbc l) l s = Some f).
  { intros l Hn. destruct (findCC (hashPbc l) l s) as [g|] eqn:E.
    - apply findCC_some in E; auto. f_equal. eapply (w_uniq s W); eauto.
    - exfalso. eapply findCC_none; eauto. }
  assert (FP : forall l, node s f = Some (ShPBC l) -> findPBC (hashPbc l) l s = Some f).
  { intros l Hn. destruct (findPBC (hashPbc l) l s) as [g|] eqn:E.
    - apply findPBC_some in E; auto. f_equal. eapply (w_uniq s W); eauto.
    - exfalso. eapply findPBC_none; eauto. }
  split; [|split; [|split; [|split]]].
  - intros n p Hl. apply LiteralNamePhase_node in Hl; auto. pose proof (w_ok s W _ _ Hl) as Hok. simpl in Hok.
    unfold Lit, Var. pose proof Hl as Hl'. apply node_lit in Hl'; auto. simpl in Hl'.
    destruct p.
    + apply (c_pos s T) in Hl'. rewrite Hl'. auto.
    + destruct Hok as (_ & _ & Hv). destruct (Hv eq_refl) as (v & Hnv & _). apply node_lit in Hnv; auto. apply (c_pos s T) in Hnv. rewrite Hnv.
      apply (c_neg s T) in Hl'. rewrite Hl'. auto.
  - intros g Hg. unfold NotOperand in Hg. apply node_nots in Hg as Hn; auto. destruct (w_ok s W _ _ Hn) as (_ & Hnt & _).
    apply (c_not s T) in Hg. unfold Not. unfold notable in Hnt.
    destruct (feqb_spec g ffalse) as [->|]; [discriminate|]. destruct (feqb_spec g ftrue) as [->|]; [discriminate|].
    rewrite Hg. destruct (srt g); auto; discriminate.
  - intros l Hl. unfold NaryOperands in Hl. destruct (srt f) eqn:Es; try discriminate.
    + left. split; auto. apply node_ands in Hl; auto. unfold And. rewrite (FA l Hl). auto.
    + right. split; auto. apply node_ors in Hl; auto. unfold Or. rewrite (FO l Hl). auto.
  - intros a b Hl. unfold BinaryLeftRight in Hl. destruct (srt f) eqn:Es; try discriminate.
    + left. split; auto. apply node_impls in Hl as Hn; auto. destruct (w_ok s W _ _ Hn) as (_ & Htr).
      apply (c_impl s T) in Hl. unfold implTriv in Htr. unfold Implication.
      apply orb_false_iff in Htr. destruct Htr as [Htr E4]. apply orb_false_iff in Htr. destruct Htr as [Htr E3].
      apply orb_false_iff in Htr. destruct Htr as [E1 E2]. rewrite E1, E2, E3, E4, Hl. auto.
    + right. split; auto. apply node_equivs in Hl as Hn; auto. destruct (w_ok s W _ _ Hn) as (_ & Htr).
      apply (c_equiv s T) in Hl. unfold equivTriv in Htr. unfold Equivalence.
      apply orb_false_iff in Htr. destruct Htr as [Htr E6]. apply orb_false_iff in Htr. destruct Htr as [Htr E5].
      apply orb_false_iff in Htr. destruct Htr as [Htr E4]. apply orb_false_iff in Htr. destruct Htr as [Htr E3].
      apply orb_false_iff in Htr. destruct Htr as [E1 E2]. rewrite E1, E2, E3, E4, E5, E6, Hl. auto.
  - intros p Hp. destruct (PBCOps_node _ _ _ Hw Hp) as [Hn|Hn]; [left|right]; (split; [apply (node_sort _ _ _ Hn)|]).
    + destruct (w_ok s W _ _ Hn) as (_ & (Hne & Hr) & Hc & _). unfold CC. rewrite Z2N.id by auto. unfold constructCC.
      pose proof (FC p Hn) as HF. destruct p as [ls cs rhs c]; simpl in *. subst cs. destruct ls; [congruence|].
      cbv zeta. rewrite HF. auto.
    + destruct (w_ok s W _ _ Hn) as (_ & (Hne & Hr) & _). unfold PBC. rewrite Hr. unfold constructPBC.
      pose proof (FP p Hn) as HF. destruct p as [ls cs rhs c]; simpl in *. destruct ls; [congruence|].
      cbv zeta. rewrite HF. auto.
Qed.

(** Operands returns the operands of the sort-specific accessors. *)
Theorem C07_operands : forall ok cv s H f t, history ok cv s H -> In f H -> Reads s f t ->
  exists ts, Forall2 (Reads s) (Operands f s) ts /\
    ts = match t with TNot u => [u] | TAnd us | TOr us => us | TImpl a b | TEquiv a b => [a; b] | _ => [] end.
Proof.
  intros ok cv s H f t Hh Hi Hr. apply history_held in Hh. destruct Hh as [Hw _]. pose proof Hw as [W T]. eexists. split; [|reflexivity].
  apply Reads_Den in Hr; auto. pose proof (Den_sort _ _ _ Hr) as Hs. unfold Operands. rewrite Hs.
  assert (HR : forall l us, Forall2 (Den s) l us -> Forall2 (Reads s) l us).
  { induction 1; constructor; auto. apply Reads_Den; auto. }
  destruct t; try (constructor; fail).
  - apply Den_not_inv in Hr. destruct Hr as (g & Hn & Dg). apply node_nots in Hn; auto. rewrite Hn. apply HR. repeat constructor; auto.
  - apply Den_and_inv in Hr. destruct Hr as (l & Hn & Dg). apply node_ands in Hn; auto. unfold getops. rewrite Hn. auto.
  - apply Den_or_inv in Hr. destruct Hr as (l & Hn & Dg). apply node_ors in Hn; auto. unfold getops. rewrite Hn. auto.
  - apply Den_impl_inv in Hr. destruct Hr as (a & b & Hn & Da & Db). apply node_impls in Hn; auto. unfold getpair. rewrite Hn. apply HR. constructor; auto.
  - apply Den_equiv_inv in Hr. destruct Hr as (a & b & Hn & Da & Db). apply node_equivs in Hn; auto. unfold getpair. rewrite Hn. apply HR. constructor; auto.
  - destruct cc; constructor.
Qed.

(** ** C06 Commutative variants *)
From Coq Require Import Permutation.
(** What holds: reordered operands give an equivalent formula.  Missing: that it is the
    identical formula, which is false ([C06_identity_refuted]). *)
Theorem C06_commutative_partial : forall ok cv s H ops ops' r s1 r' s2,
  history ok cv s H -> incl ops H -> Permutation ops ops' ->
  (And ops s = (r, s1) -> And ops' s1 = (r', s2) ->
     exists t t', Reads s2 r t /\ Reads s2 r' t' /\ forall b, eval b t = eval b t') /\
  (Or ops s = (r, s1) -> Or ops' s1 = (r', s2) ->
     exists t t', Reads s2 r t /\ Reads s2 r' t' /\ forall b, eval b t = eval b t').
Proof.
  intros ok cv s H ops ops' r s1 r' s2 Hh Hi HP. apply history_held in Hh.
  destruct (held_incl _ _ _ Hh Hi) as [ts Hts]. destruct Hh as [Hw _].
  assert (HP' : exists ts', Forall2 (Den s) ops' ts' /\ Permutation ts ts').
  { clear -HP Hts. revert ts Hts. induction HP; intros ts Hts.
    - inversion Hts; subst. exists []. split; constructor.
    - inversion Hts; subst. destruct (IHHP _ H3) as (ts' & H5 & H6). exists (y :: ts'). split; constructor; auto.
    - inversion Hts as [|? ? ? ? H1 H2]; subst. inversion H2; subst. eexists. split; [constructor; [|constructor]; eauto|apply perm_swap].
    - destruct (IHHP1 _ Hts) as (t1 & H1 & H2). destruct (IHHP2 _ H1) as (t2 & H3 & H4). exists t2. split; auto. eapply Permutation_trans; eauto. }
  destruct HP' as (ts' & Hts' & HPt).
  assert (HPb : forall b, forallb (eval b) ts = forallb (eval b) ts' /\ existsb (eval b) ts = existsb (eval b) ts').
  { intros b. clear -HPt. induction HPt; simpl; auto.
    - destruct IHHPt as [-> ->]. auto.
    - split; [rewrite !andb_assoc, (andb_comm (eval b y)); auto|rewrite !orb_assoc, (orb_comm (eval b y)); auto].
    - destruct IHHPt1 as [-> ->]. auto. }
  split; intros H1 H2.
  - destruct (And_spec _ _ _ _ _ Hw Hts H1) as ((W1 & E1 & _) & _ & (t & D & He & _) & _).
    destruct (And_spec _ _ _ _ _ W1 (ext_Dens _ _ _ _ E1 Hts') H2) as ((W2 & E2 & _) & _ & (t' & D' & He' & _) & _).
    exists t, t'. split; [apply Reads_Den; auto; eapply ext_Den; eauto|]. split; [apply Reads_Den; auto|].
    intros b. rewrite He, He'. simpl. apply HPb.
  - destruct (Or_spec _ _ _ _ _ Hw Hts H1) as ((W1 & E1 & _) & _ & (t & D & He & _) & _).
    destruct (Or_spec _ _ _ _ _ W1 (ext_Dens _ _ _ _ E1 Hts') H2) as ((W2 & E2 & _) & _ & (t' & D' & He' & _) & _).
    exists t, t'. split; [apply Reads_Den; auto; eapply ext_Den; eauto|]. split; [apply Reads_Den; auto|].
    intros b. rewrite He, He'. simpl. apply HPb.
Qed.

(** *** Executable histories, for examples and counterexamples *)
Definition inb (f : formula) (H : list formula) : bool := existsb (feqb f) H.
Definition isLitb (f : formula) : bool := fsort_eqb (srt f) SLit.
Definition allowedb (H : list formula) (c : call) : bool :=
  match c with
  | CVar _ | CLit _ _ | CAux _ => true
  | CNot f => inb f H
  | CImpl a b | CEquiv a b => inb a H && inb b H
  | CAnd l | COr l => forallb (fun f => inb f H) l
  | CMinterm l | CClause l => forallb (fun f => inb f H) l && forallb isLitb l
  | CCC _ _ l | CAMO l | CEXO l => forallb (fun f => inb f H) l && forallb (fun f => isLitb f && isPos f) l
  | CPBC _ _ l cs => forallb (fun f => inb f H) l && forallb isLitb l && Nat.eqb (length cs) (length l)
  end.
Lemma inb_in f H : inb f H = true -> In f H.
Proof. unfold inb. intros Hx. apply existsb_exists in Hx. destruct Hx as (x & Hi & E). destruct (feqb_spec f x); congruence. Qed.
Lemma inb_incl l H : forallb (fun f => inb f H) l = true -> incl l H.
Proof. rewrite forallb_forall. intros Hx x Hi. apply inb_in. auto. Qed.
Lemma isLitb_ok l : forallb isLitb l = true -> Forall isLit l.
Proof. rewrite forallb_forall, Forall_forall. intros Hx x Hi. apply Hx in Hi. unfold isLitb in Hi. destruct (fsort_eqb_spec (srt x) SLit); [auto|discriminate]. Qed.
Lemma isVarb_ok l : forallb (fun f => isLitb f && isPos f) l = true -> Forall isVar l.
Proof.
  rewrite forallb_forall, Forall_forall. intros Hx x Hi. apply Hx in Hi. apply andb_true_iff in Hi. destruct Hi as [H1 H2].
  unfold isLitb in H1. destruct (fsort_eqb_spec (srt x) SLit); [split; auto|discriminate].
Qed.
Lemma allowedb_ok H c : allowedb H c = true -> allowed H c.
Proof.
  destruct c; simpl; auto using inb_in, inb_incl; intros Hx; rewrite ?andb_true_iff in Hx; intuition auto using inb_in, inb_incl, isLitb_ok, isVarb_ok.
  apply Nat.eqb_eq; auto.
Qed.

(** run a list of calls; each call may mention earlier results *)
Fixpoint exec (cs : list (list formula -> call)) (s : state) (H : list formula) : option (state * list formula) :=
  match cs with
  | [] => Some (s, H)
  | c :: r => if allowedb H (c H) then let (f, s') := run (c H) s in exec r s' (f :: H) else None
  end.
Lemma steps_trans ok a b c : steps ok a b -> steps ok b c -> steps ok a c.
Proof. intros H1 H2. induction H2 as [|w1 w2 w3 _ IH St]; auto. exact (steps_more _ _ _ _ (IH H1) St). Qed.
Lemma exec_steps (ok : call -> Prop) cs : (forall c, ok c) -> forall s H s' H', exec cs s H = Some (s', H') -> steps ok (s, H) (s', H').
Proof.
  intros Hok. induction cs as [|c cs IH]; simpl; intros s H s' H' He.
  - inversion He; subst. apply steps_refl.
  - destruct (allowedb H (c H)) eqn:Ea; [|discriminate]. destruct (run (c H) s) as [f s1] eqn:Er.
    eapply steps_trans; [eapply steps_more; [apply steps_refl|eapply step_call; eauto using allowedb_ok]|]. auto.
Qed.
Definition hist_of (cv : bool) cs := exec cs (newFactory cv) [ffalse; ftrue].
Lemma exec_history cs cv s H : hist_of cv cs = Some (s, H) -> history anycall cv s H.
Proof. apply exec_steps. intros; exact I. Qed.

Definition nthf (n : nat) (H : list formula) : formula := nth n H ffalse.
(** two variables a, b: H = [b; a; false; true] *)
Definition hAB : list (list formula -> call) := [fun _ => CVar "a"; fun _ => CVar "b"]%string.

(** As documented for CachingFactory, A & B and B & A should be one formula.  They are not. *)
Theorem C06_identity_refuted : exists s H a b r1 s1 r2 s2,
  history anycall false s H /\ In a H /\ In b H /\
  And [a; b] s = (r1, s1) /\ And [b; a] s1 = (r2, s2) /\ r1 <> r2.
Proof.
  destruct (hist_of false hAB) as [[s H]|] eqn:E; [|discriminate].
  pose proof (exec_history _ _ _ _ E) as Hh. exists s, H, (F SLit 3), (F SLit 5).
  destruct (And [F SLit 3; F SLit 5] s) as [r1 s1] eqn:E1. destruct (And [F SLit 5; F SLit 3] s1) as [r2 s2] eqn:E2.
  exists r1, s1, r2, s2. split; auto.
  assert (HH : H = [F SLit 5; F SLit 3; ffalse; ftrue]) by (vm_compute in E; inversion E; reflexivity).
  split; [rewrite HH; simpl; auto|]. split; [rewrite HH; simpl; auto|]. split; auto. split; auto.
  assert (Hr1 : r1 = F SAnd 7). { unfold hist_of, exec in E. vm_compute in E. inversion E; subst s. vm_compute in E1. inversion E1; auto. }
  assert (Hr2 : r2 = F SAnd 9).
  { vm_compute in E. inversion E; subst s. vm_compute in E1. inversion E1; subst s1. vm_compute in E2. inversion E2; auto. }
  subst; discriminate.
Qed.

(** After Minterm(a, a), And(a, a) returns the conjunction with the repeated operand: the
    restriction of [C05_condensed] to condensing constructors is necessary. *)
Theorem C05_after_minterm_refuted : exists s H a r s1, history anycall false s H /\ In a H /\ And [a; a] s = (r, s1) /\
  exists t, Reads s1 r (TAnd [t; t]).
Proof.
  destruct (hist_of false [fun _ => CVar "a"; fun H => CMinterm [nthf 0 H; nthf 0 H]]%string) as [[s H]|] eqn:E; [|discriminate].
  pose proof (exec_history _ _ _ _ E) as Hh. exists s, H, (F SLit 3).
  destruct (And [F SLit 3; F SLit 3] s) as [r1 s1] eqn:E1. exists r1, s1.
  vm_compute in E. inversion E; subst s H. clear E. split; auto. split; [simpl; auto|]. split; auto.
  vm_compute in E1. inversion E1; subst r1 s1. exists (TLit ("a"%string, true)).
  eapply R_and; [reflexivity|reflexivity|]. repeat constructor.
Qed.

(** ** Ids beyond 28 bits: finding, not a property *)
Fixpoint ticks (n : nat) : string := match n with O => EmptyString | S n => String "x"%char (ticks n) end.
Lemma ticks_inj n m : ticks n = ticks m -> n = m.
Proof. revert m. induction n; destruct m; simpl; intros H; try discriminate; auto. inversion H; auto. Qed.

Lemma many_vars : forall n : nat, exists s H, history anycall false s H /\
  nid s = 2 * N.of_nat n + (if Nat.eqb n 0 then 2 else 1) /\
  (forall m, names s (ticks m) <-> (m < n)%nat) /\ (forall m, (m < n)%nat -> In (F SLit (2 * N.of_nat m + 3)) H).
Proof.
  induction n as [|n (s & H & Hh & Hid & Hn & Hi)].
  - exists (newFactory false), [ffalse; ftrue]. split; [apply steps_refl|]. split; [reflexivity|]. split; [|intros; lia].
    intros m. unfold names; simpl. split; [congruence|lia].
  - destruct (Var (ticks n) s) as [v s'] eqn:E.
    exists s', (v :: H). split; [eapply steps_more; [exact Hh|eapply (step_call _ (CVar (ticks n))); [exact I|exact I|exact E]]|].
    pose proof (proj1 (history_held _ _ _ _ Hh)) as Hw.
    destruct (Var_spec _ _ _ _ Hw E) as (_ & _ & Hnm & _).
    unfold Var in E. destruct (posLit s (ticks n)) eqn:Ep.
    { exfalso. assert (n < n)%nat by (apply Hn; red; congruence). lia. }
    unfold nextPosId in E. inversion E; subst v s'; clear E.
    assert (Hev : (if N.even (nid s) then nid s + 1 else nid s + 2) = 2 * N.of_nat (S n) + 1).
    { rewrite Hid. destruct (Nat.eqb_spec n 0) as [->|Hne].
      - reflexivity.
      - replace (N.even (2 * N.of_nat n + 1)) with false; [lia|]. symmetry. rewrite N.even_add, N.even_mul. reflexivity. }
    rewrite Hev in Hnm |- *. split; [cbn [Nat.eqb nid set_literals set_posLit set_nid]; lia|]. split.
    + intros m. rewrite Hnm, Hn. split; [intros [Hm|Hm]; [lia|apply ticks_inj in Hm; lia]|].
      intros Hm. destruct (Nat.eq_dec m n) as [->|]; [right; auto|left; lia].
    + intros m Hm. destruct (Nat.eq_dec m n) as [->|]; [left; f_equal; lia|right; apply Hi; lia].
Qed.

(** Nothing stops a factory from handing out more ids than fit into 28 bits; then two
    different variables get the same Go value. *)
Theorem C02_id_overflow_refuted : exists s H f g, history anycall false s H /\ In f H /\ In g H /\ f <> g /\ code f = code g.
Proof.
  destruct (many_vars (N.to_nat (2 ^ 27 + 1))) as (s & H & Hh & _ & _ & Hi).
  exists s, H, (F SLit 3), (F SLit (2 ^ 28 + 3)). split; auto.
  split; [apply (Hi O); lia|]. split.
  - specialize (Hi (N.to_nat (2 ^ 27))). rewrite N2Nat.id in Hi. apply Hi. lia.
  - split; [intros E; inversion E|reflexivity].
Qed.

(** ** The hypotheses are met by concrete histories *)
(** A history of eight calls on a new factory; the client holds, newest first,
    PBC(2a - 3~b >= 1), a1 <=> a2 ..., and their operands. *)
Definition hEx : list (list formula -> call) :=
  [fun _ => CVar "a"; fun _ => CLit "b" false; fun H => CAnd [nthf 1 H; nthf 0 H];
   fun H => CNot (nthf 0 H); fun H => CEquiv (nthf 1 H) (nthf 3 H); fun H => COr [nthf 0 H; nthf 1 H; nthf 3 H];
   fun H => CPBC GE 1 [nthf 5 H; nthf 4 H] [2; -3]%Z; fun H => CImpl (nthf 0 H) (nthf 1 H)]%string.
Definition tEx : tree :=
  let a := TLit ("a", true)%string in let b := TLit ("b", false)%string in
  TImpl (TPBC false GE 1 [("a", true); ("b", false)]%string [2; -3]%Z)
        (TOr [TEquiv (TAnd [a; b]) a; TNot (TAnd [a; b]); b]).
(** an executable reader *)
Fixpoint sequence {A} (l : list (option A)) : option (list A) :=
  match l with [] => Some [] | Some x :: r => option_map (cons x) (sequence r) | None :: _ => None end.
Fixpoint readf (n : nat) (s : state) (f : formula) : option tree :=
  match n with O => None | S n =>
    match srt f with
    | SFalse => if feqb f ffalse then Some TFalse else None
    | STrue => if feqb f ftrue then Some TTrue else None
    | SLit => option_map TLit (LiteralNamePhase f s)
    | SNot => match NotOperand f s with Some g => option_map TNot (readf n s g) | None => None end
    | SAnd => match NaryOperands f s with Some l => option_map TAnd (sequence (map (readf n s) l)) | None => None end
    | SOr => match NaryOperands f s with Some l => option_map TOr (sequence (map (readf n s) l)) | None => None end
    | SImpl => match BinaryLeftRight f s with
               | Some (a, b) => match readf n s a, readf n s b with Some ta, Some tb => Some (TImpl ta tb) | _, _ => None end
               | None => None end
    | SEquiv => match BinaryLeftRight f s with
               | Some (a, b) => match readf n s a, readf n s b with Some ta, Some tb => Some (TEquiv ta tb) | _, _ => None end
               | None => None end
    | SCC | SPBC => match PBCOps f s with
               | Some p => option_map (fun ls => TPBC (fsort_eqb (srt f) SCC) (p_cmp p) (p_rhs p) ls (p_coeffs p))
                             (sequence (map (fun l => LiteralNamePhase l s) (p_lits p)))
               | None => None end
    end
  end.
Lemma sequence_ok {A B} (g : A -> option B) (R : A -> B -> Prop) l : (forall x y, g x = Some y -> R x y) ->
  forall r, sequence (map g l) = Some r -> Forall2 R l r.
Proof.
  intros Hg. induction l; simpl; intros r Hr; [inversion Hr; constructor|].
  destruct (g a) eqn:E; [|discriminate]. destruct (sequence (map g l)); [|discriminate]. inversion Hr; subst. constructor; auto.
Qed.
Lemma readf_ok n s : forall f t, readf n s f = Some t -> Reads s f t.
Proof.
  induction n as [|n IH]; simpl; intros f t H; [discriminate|].
  destruct (srt f) eqn:Es.
  - destruct (feqb_spec f ffalse); inversion H; subst. constructor.
  - destruct (feqb_spec f ftrue); inversion H; subst. constructor.
  - destruct (LiteralNamePhase f s) eqn:E; inversion H; subst. constructor; auto.
  - destruct (NotOperand f s) eqn:E; [|discriminate]. destruct (readf n s f0) eqn:E2; inversion H; subst. eapply R_not; eauto.
  - destruct (NaryOperands f s) eqn:E; [|discriminate]. destruct (sequence _) eqn:E2; inversion H; subst. eapply R_and; eauto. eapply sequence_ok; eauto.
  - destruct (NaryOperands f s) eqn:E; [|discriminate]. destruct (sequence _) eqn:E2; inversion H; subst. eapply R_or; eauto. eapply sequence_ok; eauto.
  - destruct (BinaryLeftRight f s) as [[a b]|] eqn:E; [|discriminate]. destruct (readf n s a) eqn:E2, (readf n s b) eqn:E3; inversion H; subst. eapply R_impl; eauto.
  - destruct (BinaryLeftRight f s) as [[a b]|] eqn:E; [|discriminate]. destruct (readf n s a) eqn:E2, (readf n s b) eqn:E3; inversion H; subst. eapply R_equiv; eauto.
  - destruct (PBCOps f s) as [p|] eqn:E; [|discriminate]. destruct (sequence _) eqn:E2; inversion H; subst.
    replace true with (fsort_eqb (srt f) SCC) by (rewrite Es; auto). apply R_pbc; [exact E|]. eapply sequence_ok; [|exact E2]; auto.
  - destruct (PBCOps f s) as [p|] eqn:E; [|discriminate]. destruct (sequence _) eqn:E2; inversion H; subst.
    replace false with (fsort_eqb (srt f) SCC) by (rewrite Es; auto). apply R_pbc; [exact E|]. eapply sequence_ok; [|exact E2]; auto.
Qed.
(** final state and held formulas of an executable history *)
Definition world (cv : bool) cs : state * list formula := match hist_of cv cs with Some w => w | None => (newFactory cv, []) end.
Lemma world_history cv cs : snd (world cv cs) <> [] -> history anycall cv (fst (world cv cs)) (snd (world cv cs)).
Proof.
  unfold world. destruct (hist_of cv cs) as [[s H]|] eqn:E; simpl; [|congruence]. intros _. eapply exec_history; eauto.
Qed.

Example factory_example : exists s H f, history anycall false s H /\ In f H /\ srt f = SImpl /\ Reads s f tEx /\
  allowed H (CAnd [f; nthf 3 H]).
Proof.
  exists (fst (world false hEx)), (snd (world false hEx)), (hd ffalse (snd (world false hEx))).
  split; [apply world_history; vm_compute; discriminate|].
  split; [apply inb_in; vm_compute; reflexivity|]. split; [vm_compute; reflexivity|].
  split; [apply (readf_ok 5); vm_compute; reflexivity|]. apply allowedb_ok. vm_compute. reflexivity.
Qed.
(** the restriction of C05 to condensing constructors is met by a history with nested operators *)
Lemma exec_steps_c cs : forall s H s' H', exec cs s H = Some (s', H') -> Forall (fun c => forall H, condensing (c H)) cs -> steps condensing (s, H) (s', H').
Proof.
  induction cs as [|c cs IH]; simpl; intros s H s' H' He Hf.
  - inversion He; subst. apply steps_refl.
  - destruct (allowedb H (c H)) eqn:Ea; [|discriminate]. destruct (run (c H) s) as [f s1] eqn:Er. inversion Hf; subst.
    eapply steps_trans; [eapply steps_more; [apply steps_refl|eapply step_call; eauto using allowedb_ok]|]. auto.
Qed.
Lemma world_condensing cv cs : snd (world cv cs) <> [] -> Forall (fun c => forall H, condensing (c H)) cs ->
  history condensing cv (fst (world cv cs)) (snd (world cv cs)).
Proof.
  unfold world. destruct (hist_of cv cs) as [[s H]|] eqn:E; simpl; [|congruence]. intros _ HF. eapply exec_steps_c; eauto.
Qed.
Example condensing_example : exists s H f ts, history condensing false s H /\ In f H /\ Reads s f (TOr ts) /\ length ts = 3%nat.
Proof.
  set (w := world false (firstn 6 hEx)).
  exists (fst w), (snd w), (hd ffalse (snd w)). eexists.
  split; [apply world_condensing; [vm_compute; discriminate|repeat constructor]|].
  split; [apply inb_in; vm_compute; reflexivity|]. split; [apply (readf_ok 5); vm_compute; reflexivity|reflexivity].
Qed.

Print Assumptions C01_immutable.
Print Assumptions C02_identity.
Print Assumptions C02_encoding.
Print Assumptions C03_meaning.
Print Assumptions C04_involution.
Print Assumptions C05_condensed.
Print Assumptions C06_identity_refuted.
Print Assumptions C07_rebuild.
Print Assumptions C02_id_overflow_refuted.
