(** * Histories of a client that uses the whole modelled part of the library on one factory

    Unlike in [FactoryApi.v] the caches hold what the library's own operations wrote there. *)
From Coq Require Import String Ascii List Bool ZArith NArith Lia.
From Verif Require Import Spec Factory FactoryProofs FactoryProofs2 FactoryProofs3 FactoryApi FactoryProps Assign EncSpec NormalForm NfBase NfAssign NfSubst AssignProps NfEnc NfNnf NfCnf NfFun DnnfSpec DnnfCount Dnnf DnnfFun NfTseitin NfPg NfAig Simplify SimpBase SimpProofs SubsTree SubsProofs.
Import ListNotations.
Local Open Scope N_scope.

(** The operations that work on formulas, with their configurations. *)
Inductive op :=
| ONNF (cf : encConfig) (f : formula)
| OFactorizedCNF (cf : encConfig) (f : formula)
| OFactorizedCNFWithHandler (cf : encConfig) (f : formula) (h : fhandler)
| OFactorizedDNF (cf : encConfig) (f : formula)
| OTseitin (cf : encConfig) (bnd : Z) (f : formula) (x : auxState)
| OPG (cf : encConfig) (bnd : Z) (f : formula)
| OCNF (cf : encConfig) (nf : cnfConfig) (f : formula)
| OAIG (cf : encConfig) (nf : cnfConfig) (f : formula)
| OIsNNF (f : formula) | OIsCNF (f : formula) | OIsDNF (f : formula) | OIsAIG (f : formula)
| OVariables (f : formula) | OLiterals (f : formula) | OSubNodes (f : formula)
| ONumberOfAtoms (f : formula) | ONumberOfNodes (f : formula) | ODepth (f : formula)
| ORestrict (ls : list formula) (f : formula)
| OSubstitute (sb : substitution) (f : formula)
| OEvaluatesTo (e : bool) (m : mapping) (f : formula)
| ODistribute (f : formula)
| OFactorOut (less : rating) (f : formula)
| OMinimizeNegations (len : formula -> N) (cf : encConfig) (f : formula)
| OSubsumption (cnf : bool) (f : formula) (hd : shandler N) (h : N)
| OModelCount (f : formula) (orig : list formula).

(** What an operation hands to the client: formulas and an auxiliary state. *)
Definition opRun (o : op) (n : nat) : M (list formula * list auxState) :=
  match o with
  | ONNF cf f => g <- NNF n cf f ;; ret ([g], [])
  | OFactorizedCNF cf f => g <- factorizedCNF n cf f ;; ret ([g], [])
  | OFactorizedCNFWithHandler cf f h =>
      r <- factorizedCNFWithHandler factorizationHandler n cf f h ;;
      ret (match fst r with Some g => [g] | None => [] end, [])
  | OFactorizedDNF cf f => g <- factorizedDNF n cf f ;; ret ([g], [])
  | OTseitin cf bnd f x => r <- tseitinCNF n cf bnd f x ;; ret ([fst r], [snd r])
  | OPG cf bnd f => r <- pgCNF n cf bnd f newAuxState ;; ret ([fst r], [])
  | OCNF cf nf f => g <- CNF n cf nf f ;; ret ([g], [])
  | OAIG cf nf f => g <- AIG n cf nf f ;; ret ([g], [])
  | OIsNNF f => _ <- isNNF n f ;; ret ([], [])
  | OIsCNF f => _ <- isCNF f ;; ret ([], [])
  | OIsDNF f => _ <- isDNF f ;; ret ([], [])
  | OIsAIG f => _ <- isAIG n f ;; ret ([], [])
  | OVariables f => l <- variables n f ;; ret (l, [])
  | OLiterals f => l <- literalsOf n f ;; ret (l, [])
  | OSubNodes f => l <- subNodes n f ;; ret (l, [])
  | ONumberOfAtoms f => _ <- numberOfAtoms n f ;; ret ([], [])
  | ONumberOfNodes f => _ <- numberOfNodes n f ;; ret ([], [])
  | ODepth f => _ <- depth n f ;; ret ([], [])
  | ORestrict ls f =>
      match newAssignment ls with
      | Some a => g <- restrict n a f ;; ret ([g], [])
      | None => ret ([], [])
      end
  | OSubstitute sb f => r <- substitute n sb f ;; ret (match r with Some g => [g] | None => [] end, [])
  | OEvaluatesTo e m f => _ <- (if e then evaluatesToTrue else evaluatesToFalse) n m f ;; ret ([], [])
  | ODistribute f => g <- distributeS n f ;; ret ([g], [])
  | OFactorOut less f => g <- factorOut less n f ;; ret ([g], [])
  | OMinimizeNegations len cf f => g <- minimizeNegations len n cf f ;; ret ([g], [])
  | OSubsumption cnf f hd h =>
      r <- subsumption hd cnf n f h ;; ret (match fst r with SubOk g => [g] | _ => [] end, [])
  | OModelCount f orig => _ <- modelCount n f orig ;; ret ([], [])
  end.

(** the encoders handle the constraints of [f] *)
Definition encodableF (cf : encConfig) (s : state) (f : formula) : Prop := forall t, Reads s f t -> encodable cf t.

(** Operands are held by the client; auxiliary states come from an earlier Tseitin
    transformation or are new; a mapping lists no variable twice. *)
Definition legal (s : state) (H : list formula) (X : list auxState) (o : op) : Prop :=
  match o with
  | ONNF cf f | OFactorizedCNF cf f | OFactorizedCNFWithHandler cf f _ | OFactorizedDNF cf f
  | OPG cf _ f | OCNF cf _ f | OAIG cf _ f | OMinimizeNegations _ cf f => In f H /\ encodableF cf s f
  | OTseitin cf _ f x => In f H /\ encodableF cf s f /\ (x = newAuxState \/ In x X)
  | OIsNNF f | OIsCNF f | OIsDNF f | OIsAIG f | OVariables f | OLiterals f | OSubNodes f
  | ONumberOfAtoms f | ONumberOfNodes f | ODepth f | ODistribute f | OFactorOut _ f | OSubsumption _ f _ _ => In f H
  | ORestrict ls f => In f H /\ incl ls H /\ Forall isLit ls
  | OSubstitute sb f => In f H /\ forall v g, sb v = Some g -> In g H
  | OEvaluatesTo _ m f => In f H /\ incl (map fst m) H /\ Forall isVar (map fst m) /\ NoDup (map fst m)
  | OModelCount f orig => In f H /\ incl orig H /\ Forall isVar orig /\ forall t, Reads s f t -> is_nnf t = true
  end.

(** The client does not create variables with the reserved prefix. *)
Definition userCall (c : call) : Prop :=
  match c with CVar n | CLit n _ => reserved n = false | _ => True end.

Inductive lstep : state * list formula * list auxState -> state * list formula * list auxState -> Prop :=
| l_call c s H X r s' : userCall c -> allowed H c -> run c s = (r, s') -> lstep (s, H, X) (s', r :: H, X)
| l_operand f g s H X : In f H -> In g (Operands f s) -> lstep (s, H, X) (s, g :: H, X)
| l_pbcop f p g s H X : In f H -> PBCOps f s = Some p -> In g (p_lits p) -> lstep (s, H, X) (s, g :: H, X)
| l_op o s H X gs xs s' : legal s H X o -> returns (opRun o) s (gs, xs) s' -> lstep (s, H, X) (s', gs ++ H, xs ++ X).
Inductive lsteps : state * list formula * list auxState -> state * list formula * list auxState -> Prop :=
| lsteps_refl w : lsteps w w
| lsteps_more w1 w2 w3 : lsteps w1 w2 -> lstep w2 w3 -> lsteps w1 w3.
(** [library cv s H X]: such a client of a new factory holds the formulas [H] and the
    auxiliary states [X] of the factory in state [s]. *)
Definition library (cv : bool) (s : state) (H : list formula) (X : list auxState) : Prop :=
  lsteps (newFactory cv, [ffalse; ftrue], []) (s, H, X).

(** ** The invariant *)
Record linv (s : state) (V : asg -> Prop) (H : list formula) (X : list auxState) : Prop := {
  i_winv : winv s V; i_known : Forall (known s) H; i_aux : Forall (xinv s V) X }.

Lemma winv_held s V H X : linv s V H X -> held s H.
Proof. intros [I K _]. split; auto. apply I. Qed.

Lemma new_winv cv : winv (newFactory cv) (fun _ => True).
Proof.
  constructor.
  - apply held_new.
  - intros f [Hf|Hf]; elim Hf; reflexivity.
  - intros x Hx. unfold names in Hx. simpl in Hx. congruence.
  - auto.
  - intros b. exists b. auto.
  - constructor; intros; discriminate.
Qed.
Lemma call_winv c s V H X r s' : linv s V H X -> userCall c -> allowed H c -> run c s = (r, s') ->
  exists V', winv s' V' /\ wext s V s' V'.
Proof.
  intros L Hu Ha Hr. pose proof (winv_held _ _ _ _ L) as Hh. pose proof Hh as [Hw _]. destruct L as [I K _].
  assert (G : forall s', good s s' -> cnfk s' -> samenames s s' -> exists V', winv s' V' /\ wext s V s' V').
  { intros s0 G0 C0 N0. exists V. apply (winv_good s V s0 I G0 C0). auto. }
  pose proof (v_cnfk _ _ I) as HK.
  assert (G3 : forall s', good s s' -> same3 s s' -> samenames s s' -> exists V', winv s' V' /\ wext s V s' V').
  { intros s0 G0 C0 N0. apply G; auto. eapply same3_cnfk; eauto. }
  assert (GN : forall s' n, reserved n = false -> good s s' -> same3 s s' -> (forall m, names s' m <-> names s m \/ m = n) -> exists V', winv s' V' /\ wext s V s' V').
  { intros s0 n Hn G0 C0 N0. exists V. apply (winv_good s V s0 I G0); [eapply same3_cnfk; eauto|]. intros x Hx. apply N0 in Hx. destruct Hx as [Hx| ->]; auto.
    right. intros Hf. apply (nonreserved_aux n Hn). eapply fresh_aux; eauto. }
  destruct c; simpl in Hu, Ha, Hr.
  - destruct (Var_spec _ _ _ _ Hw Hr) as (G0 & Hn & Hnames & _). eapply GN; eauto. eapply Var_same3; eauto.
  - destruct (Lit_spec _ _ _ _ _ Hw Hr) as (G0 & Hn & Hnames). eapply GN; eauto. eapply Lit_same3; eauto.
  - destruct (winv_aux s V k r s' (fun _ => false) I Hr) as (I' & X' & _); auto. eexists. split; [exact I'|exact X'].
  - destruct (held_in s H f Hh Ha) as [t Ht]. destruct (Not_spec _ _ _ _ _ Hw Ht Hr) as (G0 & N0 & _). apply G3; auto. eapply Not_same3; eauto.
  - destruct Ha as [H1 H2]. destruct (held_in s H _ Hh H1) as [t Ht], (held_in s H _ Hh H2) as [u Hu'].
    destruct (Implication_spec _ _ _ _ _ _ _ Hw Ht Hu' Hr) as (G0 & N0 & _). apply G3; auto. eapply Implication_same3; eauto.
  - destruct Ha as [H1 H2]. destruct (held_in s H _ Hh H1) as [t Ht], (held_in s H _ Hh H2) as [u Hu'].
    destruct (Equivalence_spec _ _ _ _ _ _ _ Hw Ht Hu' Hr) as (G0 & N0 & _). apply G3; auto. eapply Equivalence_same3; eauto.
  - destruct (held_incl s H _ Hh Ha) as [ts Hts]. destruct (And_spec _ _ _ _ _ Hw Hts Hr) as (G0 & N0 & _). apply G; auto. eapply And_cnfk; eauto.
  - destruct (held_incl s H _ Hh Ha) as [ts Hts]. destruct (Or_spec _ _ _ _ _ Hw Hts Hr) as (G0 & N0 & _). apply G; auto. eapply Or_cnfk; eauto.
  - destruct Ha as [Ha Hl]. destruct (held_incl s H _ Hh Ha) as [ts Hts]. destruct (Minterm_spec _ _ _ _ _ Hw Hts Hl Hr) as (G0 & N0 & _). apply G; auto. eapply Minterm_cnfk; eauto.
  - destruct Ha as [Ha Hl]. destruct (held_incl s H _ Hh Ha) as [ts Hts]. destruct (Clause_spec _ _ _ _ _ Hw Hts Hl Hr) as (G0 & N0 & _). apply G; auto. eapply Clause_cnfk; eauto.
  - destruct Ha as [Hi Hv]. destruct (held_vars s H vars Hh Hi Hv) as (ns & Hn & Hp).
    destruct (constructCC_spec s c (Z.of_N rhs) vars ns r s' Hw ltac:(lia) Hn Hp Hr) as (G0 & N0 & _). apply G3; auto. eapply constructCC_same3; exact Hr.
  - destruct Ha as [Hi Hv]. destruct (held_vars s H vars Hh Hi Hv) as (ns & Hn & Hp).
    destruct (constructCC_spec s LE 1%Z vars ns r s' Hw ltac:(lia) Hn Hp Hr) as (G0 & N0 & _). apply G3; auto. eapply constructCC_same3; exact Hr.
  - destruct Ha as [Hi Hv]. destruct (held_vars s H vars Hh Hi Hv) as (ns & Hn & Hp).
    destruct (constructCC_spec s EQ 1%Z vars ns r s' Hw ltac:(lia) Hn Hp Hr) as (G0 & N0 & _). apply G3; auto. eapply constructCC_same3; exact Hr.
  - destruct Ha as (Hi & Hv & Hlen). destruct (held_lits s H ls Hh Hi Hv) as (ns & Hn).
    destruct (PBC_spec s c rhs ls cs ns r s' Hw Hn Hlen Hr) as (G0 & N0 & _). apply G3; auto. eapply PBC_same3; eauto.
Qed.

Lemma wp_known {A} (m : nat -> M A) s V (Q : A -> state -> (asg -> Prop) -> Prop) (k : A -> list formula * list auxState) : wp m s V Q ->
  (forall a s' V', winv s' V' -> wext s V s' V' -> Q a s' V' -> Forall (known s') (fst (k a)) /\ Forall (xinv s' V') (snd (k a))) ->
  wp (fun n => a <- m n ;; ret (k a)) s V (fun r s' V' => Forall (known s') (fst r) /\ Forall (xinv s' V') (snd r)).
Proof. intros H HQ. eapply wp_bind; [exact H|]. intros a s1 V1 I1 X1 Ha. apply wp_ret; auto. Qed.
Lemma Dens_known s l ts : Forall2 (Den s) l ts -> Forall (known s) l.
Proof. induction 1; constructor; auto. eapply Den_known; eauto. Qed.
Lemma litDens_known s l ns : Forall2 (litDen s) l ns -> Forall (known s) l.
Proof. induction 1; constructor; auto. eexists. exact H. Qed.

Lemma substIs_of s H sb : held s H -> (forall v g, sb v = Some g -> In g H) -> exists sg, substIs s sb sg.
Proof.
  intros Hh Hs. pose proof Hh as [Hw _].
  destruct (held_incl s H H Hh (incl_refl _)) as [ts Hts].
  set (den := fun g => match find (fun p => feqb g (fst p)) (combine H ts) with Some p => snd p | None => TTrue end).
  assert (Hden : forall g, In g H -> Den s g (den g)).
  { intros g Hg. unfold den. clear -Hts Hg. induction Hts; [destruct Hg|]. simpl. destruct (feqb_spec g x) as [->|Hne]; auto.
    destruct Hg as [E|Hg]; [congruence|auto]. }
  exists (fun x => match posLit s x with Some v => option_map den (sb v) | None => None end).
  intros v x Hv. assert (E : posLit s x = Some v).
  { pose proof (lit_name s v (x, true) Hw Hv) as Hn. unfold names in Hn. simpl in Hn. destruct (posLit s x) as [w|] eqn:E; [|congruence]. f_equal.
    pose proof Hw as [W T]. apply (w_uniq s W w v (ShLit x true)); auto. apply (c_pos s T) in E. apply node_lit; auto. }
  rewrite E. destruct (sb v) as [g|] eqn:Eg; auto. exists (den g). split; auto. apply Hden. eauto.
Qed.

Lemma mapIs_of s (m : mapping) ns : wf s -> Forall2 (litDen s) (map fst m) ns -> forallb snd ns = true -> NoDup (map fst m) ->
  mapIs s m (combine (map fst ns) (map snd m)).
Proof.
  intros Hw Hn Hp Hnd. pose proof Hw as [W _]. revert ns Hn Hp. induction m as [|[v e] m IH]; simpl; intros ns Hn Hp; inversion Hn; subst; simpl in *.
  - constructor; constructor.
  - inversion Hnd; subst. apply andb_true_iff in Hp. destruct Hp as [Hp1 Hp2]. destruct y as [x p]; simpl in *; subst p.
    destruct (IH H4 l' H3 Hp2) as [A B]. constructor; simpl; [constructor; auto|]. constructor; auto.
    intros Hx. apply H2. clear -H3 Hx W H1 Hp2.
    assert (G : forall l ns (es : list bool), Forall2 (litDen s) l ns -> forallb snd ns = true -> In x (map fst (combine (map fst ns) es)) -> In v l).
    { clear -W H1. induction l as [|w l IH]; intros ns es HF Hp Hi; inversion HF; subst; simpl in Hi; [destruct Hi|]. simpl in Hp. apply andb_true_iff in Hp. destruct Hp as [Hp1 Hp2].
      destruct es as [|e es]; simpl in Hi; [destruct Hi|]. destruct Hi as [E|Hi]; [|right; eapply IH; eauto]. left. destruct y as [y p]; simpl in *; subst.
      apply (w_uniq s W w v (ShLit x true)); auto. }
    eapply G; eauto.
Qed.
Lemma opRun_ok o s V H X : linv s V H X -> legal s H X o ->
  wp (opRun o) s V (fun r s' V' => Forall (known s') (fst r) /\ Forall (xinv s' V') (snd r)).
Proof.
  intros L Hl. pose proof (winv_held _ _ _ _ L) as Hh. pose proof Hh as [Hw _]. pose proof L as [I K HX].
  assert (D : forall f, In f H -> exists t, Den s f t) by (intros; eapply held_in; eauto).
  assert (DE : forall cf f, In f H /\ encodableF cf s f -> exists t, Den s f t /\ encodable cf t).
  { intros cf f [Hf He]. destruct (D f Hf) as [t Ht]. exists t. split; auto. apply He, Reads_Den; auto. }
  assert (K1 : forall s' g u, Den s' g u -> Forall (known s') [g]) by (intros; constructor; auto; eapply Den_known; eauto).
  destruct o; simpl in Hl; unfold opRun.
  - destruct (DE _ _ Hl) as (t & Dt & Et). eapply (wp_known (fun n => NNF n cf f) s V _ (fun g => ([g], []))); [apply (NNF_ok cf t s V f I Dt Et)|].
    intros g s' V' _ _ (u & Du & _). simpl. split; eauto.
  - destruct (DE _ _ Hl) as (t & Dt & Et). eapply (wp_known (fun n => factorizedCNF n cf f) s V _ (fun g => ([g], []))); [apply (factorizedCNF_ok cf t s V f I Dt Et)|].
    intros g s' V' _ _ (u & Du & _). simpl. split; eauto.
  - destruct (DE _ _ Hl) as (t & Dt & Et). eapply (wp_known (fun n => factorizedCNFWithHandler factorizationHandler n cf f h) s V _ (fun r => (match fst r with Some g => [g] | None => [] end, []))); [apply (factorizedCNFWithHandler_ok factorizationHandler cf t s V f h I Dt Et)|].
    intros [[g|] h'] s' V' _ _ HP; simpl in *; split; auto. destruct HP as (u & Du & _). eauto.
  - destruct (DE _ _ Hl) as (t & Dt & Et). eapply (wp_known (fun n => factorizedDNF n cf f) s V _ (fun g => ([g], []))); [apply (factorizedDNF_ok cf t s V f I Dt Et)|].
    intros g s' V' _ _ (u & Du & _). simpl. split; eauto.
  - destruct Hl as (H1 & H2 & H3). destruct (DE _ _ (conj H1 H2)) as (t & Dt & Et).
    assert (Hx : xinv s V x). { destruct H3 as [-> |H3]; [apply xinv_new|]. rewrite Forall_forall in HX. auto. }
    eapply (wp_known (fun n => tseitinCNF n cf bnd f x) s V _ (fun r => ([fst r], [snd r]))); [apply (tseitinCNF_ok cf bnd t s V f x I Hx Dt Et)|].
    intros [g x'] s' V' _ _ [(u & Du & _) HP]. simpl in *. split; eauto.
  - destruct (DE _ _ Hl) as (t & Dt & Et). eapply (wp_known (fun n => pgCNF n cf bnd f newAuxState) s V _ (fun r => ([fst r], []))); [apply (pgCNF_ok cf bnd t s V f newAuxState I (pinv_new s V) Dt Et)|].
    intros [g x'] s' V' _ _ (u & Du & _). simpl in *. split; eauto.
  - destruct (DE _ _ Hl) as (t & Dt & Et). eapply (wp_known (fun n => CNF n cf nf f) s V _ (fun g => ([g], []))); [apply (CNF_ok cf nf t s V f I Dt Et)|].
    intros g s' V' _ _ (u & Du & _). simpl. split; eauto.
  - destruct (DE _ _ Hl) as (t & Dt & Et). eapply (wp_known (fun n => AIG n cf nf f) s V _ (fun g => ([g], []))); [apply (AIG_ok cf nf t Et s V f I Dt)|].
    intros g s' V' _ _ (u & Du & _). simpl. split; eauto.
  - destruct (D f Hl) as (t & Dt). eapply (wp_known (fun n => isNNF n f) s V _ (fun _ => ([], []))); [apply (isNNF_ok t s V f I Dt)|]. simpl. auto.
  - destruct (D f Hl) as (t & Dt). eapply (wp_known (fun n => isCNF f) s V _ (fun _ => ([], []))); [apply (isCNF_ok t s V f I Dt)|]. simpl. auto.
  - destruct (D f Hl) as (t & Dt). eapply (wp_known (fun n => isDNF f) s V _ (fun _ => ([], []))); [apply (isDNF_ok t s V f I Dt)|]. simpl. auto.
  - destruct (D f Hl) as (t & Dt). eapply (wp_known (fun n => isAIG n f) s V _ (fun _ => ([], []))); [apply (isAIG_ok t s V f I Dt)|]. simpl. auto.
  - destruct (D f Hl) as (t & Dt). eapply (wp_known (fun n => variables n f) s V _ (fun l => (l, []))); [apply (atomSet_ok false t s V f I Dt)|].
    intros l s' V' _ _ (ns & Hn & _). simpl. split; auto. clear -Hn. induction Hn; constructor; auto. eexists; exact H.
  - destruct (D f Hl) as (t & Dt). eapply (wp_known (fun n => literalsOf n f) s V _ (fun l => (l, []))); [apply (atomSet_ok true t s V f I Dt)|].
    intros l s' V' _ _ (ns & Hn & _). simpl. split; auto. eapply litDens_known; eauto.
  - destruct (D f Hl) as (t & Dt). eapply (wp_known (fun n => subNodes n f) s V _ (fun l => (l, []))); [apply (subNodes_ok t s V f I Dt)|].
    intros l s' V' _ _ (ns & Hn & _). simpl. split; auto. eapply Dens_known; eauto.
  - destruct (D f Hl) as (t & Dt). eapply (wp_known (fun n => numberOfAtoms n f) s V _ (fun _ => ([], []))); [apply (numberOfAtoms_ok t s V f I Dt)|]. simpl. auto.
  - destruct (D f Hl) as (t & Dt). eapply (wp_known (fun n => numberOfNodes n f) s V _ (fun _ => ([], []))); [apply (numberOfNodes_ok t s V f I Dt)|]. simpl. auto.
  - destruct (D f Hl) as (t & Dt). eapply (wp_known (fun n => depth n f) s V _ (fun _ => ([], []))); [apply (depth_ok t s V f I Dt)|]. simpl. auto.
  - destruct Hl as (Hf & Hi & Hls). destruct (D f Hf) as (t & Dt). destruct (held_lits s H ls Hh Hi Hls) as [ns Hn].
    destruct (newAssignment ls) as [a|] eqn:Ea; [|apply wp_ret; simpl; auto].
    eapply (wp_known (fun n => restrict n a f) s V _ (fun g => ([g], []))); [apply rp_wp; [exact I|apply (restrict_ok a ns t s f Hw (ex_intro _ ls (conj Ea Hn)) Dt)]|].
    intros g s' V' _ _ (_ & u & Du & _). simpl. split; eauto.
  - destruct Hl as (Hf & Hs). destruct (D f Hf) as (t & Dt). destruct (substIs_of s H sb Hh Hs) as [sg Hsg].
    eapply (wp_known (fun n => substitute n sb f) s V _ (fun r => (match r with Some g => [g] | None => [] end, []))); [apply rp_wp; [exact I|apply (substitute_ok sb sg t s f Hw Hsg Dt)]|].
    intros r s' V' _ _ (_ & HP). simpl. split; [|constructor]. unfold substPost in HP. destruct (substitutable sg t); [|rewrite HP; constructor]. destruct HP as (g & u & -> & Du & _). exact (K1 _ _ _ Du).
  - destruct Hl as (Hf & Hi & Hv & Hnd). destruct (D f Hf) as (t & Dt). destruct (held_vars s H _ Hh Hi Hv) as (ns & Hn & Hp).
    assert (Hm : mapIs s m (combine (map fst ns) (map snd m))).
    { apply mapIs_of; auto. }
    pose proof (testConst_ok e _ (tsize t) t (le_n _) m s f true Hw Hm Dt) as HT.
    eapply (wp_known (fun n => (if e then evaluatesToTrue else evaluatesToFalse) n m f) s V (fun _ _ _ => True) (fun _ => ([], []))); [|simpl; auto].
    destruct e; unfold evaluatesToTrue, evaluatesToFalse; (eapply wp_bind; [apply rp_wp; [exact I|exact HT]|]); intros g s1 V1 I1 X1 _; apply wp_ret; auto.
  - destruct (D f Hl) as (t & Dt). eapply (wp_known (fun n => distributeS n f) s V _ (fun g => ([g], []))); [apply (distribute_ok t s V f I Dt)|].
    intros g s' V' _ _ (u & Du & _). simpl. split; eauto.
  - destruct (D f Hl) as (t & Dt). eapply (wp_known (fun n => factorOut less n f) s V _ (fun g => ([g], []))); [apply (factorOut_ok less t s V f I Dt)|].
    intros g s' V' _ _ (u & Du & _). simpl. split; eauto.
  - destruct (DE _ _ Hl) as (t & Dt & Et). eapply (wp_known (fun n => minimizeNegations len n cf f) s V _ (fun g => ([g], []))); [apply (minimizeNegations_ok len cf t s V f I Dt Et)|].
    intros g s' V' _ _ ((u & Du & _) & _). simpl. split; eauto.
  - destruct (D f Hl) as (t & Dt). eapply (wp_known (fun n => subsumption hd cnf n f h) s V _ (fun r => (match fst r with SubOk g => [g] | _ => [] end, []))); [apply (subsumption_ok hd (fun _ => false) cnf t s V f h I Dt)|].
    intros [[| |g] h'] s' V' _ _ [HP _]; simpl in *; split; auto. destruct HP as (_ & u & Du & _). eauto.
  - destruct Hl as (Hf & Hi & Hv & Hn). destruct (D f Hf) as (t & Dt). destruct (held_vars s H orig Hh Hi Hv) as (ns & Hns & Hp).
    assert (HO : Forall2 (fun v x => litDen s v (x, true)) orig (map fst ns)).
    { clear -Hns Hp. revert Hp. induction Hns as [|v [x p] l ns Hv HF IH]; cbn; intros Hp; constructor; apply andb_true_iff in Hp as [H1 H2]; cbn in *; subst; auto. }
    eapply (wp_known (fun n => modelCount n f orig) s V _ (fun _ => ([], []))); [apply (modelCount_ok t orig (map fst ns) s V f); auto; apply Hn, Reads_Den; auto|]. simpl. auto.
Qed.

Lemma returns_fun {A} (m : nat -> M A) s a s' a2 s2 : returns m s a s' -> returns m s a2 s2 -> a = a2 /\ s' = s2.
Proof.
  intros [n H] [n2 H2]. specialize (H (max n n2) (Nat.le_max_l _ _)). rewrite (H2 (max n n2) (Nat.le_max_r _ _)) in H. inversion H; auto.
Qed.
Lemma linv_ext s V H X s' V' : wext s V s' V' -> winv s' V' -> linv s V H X -> linv s' V' H X.
Proof.
  intros X' I' [I K HX]. constructor; auto.
  - eapply Forall_impl; [|exact K]. intros f [sh Hs]. exists sh. apply X'; auto.
  - eapply Forall_impl; [|exact HX]. intros x. apply xinv_ext; auto.
Qed.
Lemma step_linv s V H X s' H' X' : linv s V H X -> lstep (s, H, X) (s', H', X') -> exists V', linv s' V' H' X' /\ wext s V s' V'.
Proof.
  intros L Hs. pose proof (winv_held _ _ _ _ L) as Hh. pose proof Hh as [Hw _]. inversion Hs; subst; clear Hs.
  - destruct (call_winv c s V H X' r s' L) as (V' & I' & X2); auto. exists V'. split; auto.
    pose proof (linv_ext _ _ _ _ _ _ X2 I' L) as [A B C]. constructor; auto. constructor; auto.
    destruct (held_incl s H _ Hh (allowed_incl _ _ H8)) as [ts Hts]. destruct (run_spec c s H r s' ts Hh) as (_ & _ & t & Dt & _); auto. eapply Den_known; eauto.
  - exists V. split; [|apply wext_refl]. destruct L as [A B C]. constructor; auto. constructor; auto.
    destruct (step_held anycall s' H s' (g :: H)) as ((_ & Hg) & _); [eapply step_operand; eauto|auto|]. inversion Hg; auto.
  - exists V. split; [|apply wext_refl]. destruct L as [A B C]. constructor; auto. constructor; auto.
    destruct (step_held anycall s' H s' (g :: H)) as ((_ & Hg) & _); [eapply step_pbcop; eauto|auto|]. inversion Hg; auto.
  - destruct (opRun_ok o s V H X L) as (n0 & r & s2 & V' & Hn & I' & X2 & HQ1 & HQ2); auto.
    match goal with HR : returns (opRun o) s _ _ |- _ => destruct (returns_fun (opRun o) s _ _ _ _ HR (ex_intro _ n0 Hn)) as [E1 E2] end. subst r s2. exists V'. split; auto.
    pose proof (linv_ext _ _ _ _ _ _ X2 I' L) as [A B C]. constructor; auto; apply Forall_app; auto.
Qed.
Lemma lsteps_inv w w' : lsteps w w' -> forall V, linv (fst (fst w)) V (snd (fst w)) (snd w) ->
  exists V', linv (fst (fst w')) V' (snd (fst w')) (snd w') /\ wext (fst (fst w)) V (fst (fst w')) V'.
Proof.
  induction 1 as [w|w1 w2 w3 Hl IH Hs]; intros V L.
  - exists V. split; auto. apply wext_refl.
  - destruct (IH V L) as (V2 & L2 & X2). destruct w2 as [[s2 H2] A2], w3 as [[s3 H3] A3]. destruct (step_linv _ _ _ _ _ _ _ L2 Hs) as (V3 & L3 & X3).
    exists V3. split; auto. eapply wext_trans; eauto.
Qed.
Lemma library_inv cv s H X : library cv s H X -> exists V, linv s V H X.
Proof.
  intros Hl. destruct (lsteps_inv _ _ Hl (fun _ => True)) as (V & L & _); [|eauto]. simpl. constructor; [apply new_winv|apply held_new|constructor].
Qed.
