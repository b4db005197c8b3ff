(** * Histories of a client of the solver on formulas *)
From Coq Require Import String Ascii List Bool Arith ZArith NArith Lia.
From Verif Require Sat SatSpec SatProps.
From Verif Require Import Spec Factory FactoryProofs FactoryProofs2 FactoryProofs3 FactoryApi FactoryProps Assign AssignProps EncSpec EncApi EncPbc EncProps NormalForm NfBase NfAssign NfEnc NfNnf NfCnf NfFun NfTseitin NfPg NfAig NfApi NfProps SatApi SatApiInv SatApiPg SatApiAdd.
Import ListNotations.
Local Close Scope N_scope.

(** the operation returns [a] with any sufficient recursion depth for formulas *)
Definition sreturns {A} (m : nat -> SM A) (s : state) (w : solver) (a : A) (s' : state) (w' : solver) : Prop := exists n0, forall n, n0 <= n -> m n s w = SRet a s' w'.

(** what can be added: the client holds the formula, it uses no reserved name, its constraints
    are encodable, and at-most constraints list distinct variables in the order of creation *)
Definition addOK (cfg : satConfig) (s : state) (H : list formula) (f : formula) (t : tree) : Prop :=
  In f H /\ Reads s f t /\ plain t /\ encodable (g_enc cfg) t /\ addable cfg s f.
Definition varOK (s : state) (H : list formula) (v : formula) (x : string) : Prop := In v H /\ exists p, Reads s v (TLit (x, p)).

(** [client cfg cv s H X w ts stk hs]: a client of a new factory and of a new solver on it has
    called operations of the factory, of the normal forms and of the solver.  They hold the
    formulas [H] and auxiliary states [X]; the formulas [ts] are on the solver, [stk] are the
    saved states that are valid, with the formulas of each. *)
Inductive client (cfg : satConfig) (cv : bool) : state -> list formula -> list auxState -> solver -> list tree -> list (Sat.saved * list tree) -> Prop :=
| cl_new : client cfg cv (newFactory cv) [ffalse; ftrue] [] newSolver [] []
| cl_lib s H X w ts stk s' H' X' : client cfg cv s H X w ts stk -> lstep (s, H, X) (s', H', X') -> client cfg cv s' H' X' w ts stk
| cl_add s H X w ts stk k fs us s' w' : client cfg cv s H X w ts stk -> Forall2 (addOK cfg s H) fs us ->
    sreturns (fun n => add cfg k n fs) s w tt s' w' -> client cfg cv s' H X w' (us ++ ts) stk
| cl_call s H X w ts stk k o fs us vs xs r m s' w' : client cfg cv s H X w ts stk -> Forall2 (addOK cfg s H) fs us -> Forall2 (varOK s H) vs xs -> SatProps.fair o ->
    sreturns (fun n => call cfg k n o fs vs) s w (r, m) s' w' -> client cfg cv s' (m ++ H) X w' ts stk
| cl_save s H X w ts stk x s' w' : client cfg cv s H X w ts stk -> sreturns (fun _ => saveState) s w x s' w' -> client cfg cv s' H X w' ts ((x, ts) :: stk)
| cl_load s H X w ts above x ts' stk k b s' w' : client cfg cv s H X w ts (above ++ (x, ts') :: stk) -> sreturns (fun _ => loadState k x) s w b s' w' ->
    client cfg cv s' H X w' ts' ((x, ts') :: stk).

(** ** The invariant *)
Definition G (ts : list tree) (b : asg) : Prop := forall t, In t ts -> eval b t = true.
Definition said (ns : list string) (cs : list SatSpec.constr) (ts : list tree) : Prop := forall t, In t ts -> says ns cs t true.
Definition level (s : state) (V : asg -> Prop) (ns : list string) (cs : list SatSpec.constr) (ts : list tree) : Prop :=
  (exists defs, content s V ns cs (G ts) defs) /\ said ns cs ts /\ Forall plain ts.
Inductive stkok (s : state) (V : asg -> Prop) : list string -> list (Sat.saved * (nat * list SatSpec.constr)) -> list (Sat.saved * list tree) -> Prop :=
| sk_nil ns : stkok s V ns [] []
| sk_vis ns x nv cs ts r v : nv <= length ns -> level s V (firstn nv ns) cs ts -> stkok s V (firstn nv ns) r v -> stkok s V ns ((x, (nv, cs)) :: r) ((x, ts) :: v)
| sk_hid ns x nv cs ts r v : nv <= length ns -> level s V (firstn nv ns) cs ts -> stkok s V (firstn nv ns) r v -> stkok s V ns ((x, (nv, cs)) :: r) v.

Lemma level_wext s V s' V' ns cs ts : wext s V s' V' -> level s V ns cs ts -> level s' V' ns cs ts.
Proof. intros X [[defs C] H]. split; auto. exists defs. eapply content_wext; eauto. Qed.
Lemma stkok_wext s V s' V' ns r v : wext s V s' V' -> stkok s V ns r v -> stkok s' V' ns r v.
Proof. intros X. induction 1; [constructor|eapply sk_vis|eapply sk_hid]; eauto using level_wext. Qed.
Lemma stkok_app s V ns l r v : stkok s V ns r v -> stkok s V (ns ++ l) r v.
Proof.
  intros H. destruct H as [ns|ns x nv cs ts r v L C S|ns x nv cs ts r v L C S]; [constructor|eapply sk_vis|eapply sk_hid]; try (rewrite app_length; lia); rewrite firstn_app, (proj2 (Nat.sub_0_le nv (length ns)) L), firstn_O, app_nil_r; eauto.
Qed.
Lemma stkok_grows s V ns cs defs V' ns' cs' defs' s' r v : grows V ns cs defs V' ns' cs' defs' -> wext s V s' V' -> stkok s V ns r v -> stkok s' V' ns' r v.
Proof. intros Gr X H. destruct (gr_ns _ _ _ _ _ _ _ _ Gr) as [l ->]. apply stkok_app. eapply stkok_wext; eauto. Qed.
Lemma firstn_le_len {A} n (l : list A) : length (firstn n l) <= length l. Proof. rewrite firstn_length. lia. Qed.
Lemma stkok_find s V : forall ns r v, stkok s V ns r v -> forall above x ts rest, v = above ++ (x, ts) :: rest ->
  exists aboveC nv cs restC, r = aboveC ++ (x, (nv, cs)) :: restC /\ nv <= length ns /\ level s V (firstn nv ns) cs ts /\ stkok s V (firstn nv ns) restC rest.
Proof.
  induction 1 as [ns|ns x nv cs ts r v L C S IH|ns x nv cs ts r v L C S IH]; intros above y us rest E.
  - destruct above; discriminate.
  - destruct above as [|e above]; simpl in E; inversion E; subst; [exists [], nv, cs, r; auto|].
    destruct (IH above y us rest eq_refl) as (ac & m & ds & rc & E1 & L1 & C1 & S1). exists ((x, (nv, cs)) :: ac), m, ds, rc. rewrite E1. split; auto.
    rewrite firstn_length in L1. assert (m <= nv) by lia. rewrite firstn_firstn, (Nat.min_l m nv) in C1, S1; auto. split; [lia|]. auto.
  - destruct (IH above y us rest E) as (ac & m & ds & rc & E1 & L1 & C1 & S1). exists ((x, (nv, cs)) :: ac), m, ds, rc. rewrite E1. split; auto.
    rewrite firstn_length in L1. assert (m <= nv) by lia. rewrite firstn_firstn, (Nat.min_l m nv) in C1, S1; auto. split; [lia|]. auto.
Qed.

Record cinv (cfg : satConfig) (s : state) (V : asg -> Prop) (H : list formula) (X : list auxState) (w : solver) (cs : list SatSpec.constr) (defs : list (nat * tree))
  (ts : list tree) (stkC : list (Sat.saved * (nat * list SatSpec.constr))) (hs : list Sat.saved) (stk : list (Sat.saved * list tree)) : Prop := {
  ci_linv : linv s V H X;
  ci_sinv : sinv cfg (G ts) stkC hs s V w cs defs [];
  ci_said : said (vnames w) cs ts;
  ci_plain : Forall plain ts;
  ci_stk : stkok s V (vnames w) stkC stk;
  ci_in : incl (map fst stkC) hs }.

(** changing what is meant *)
Lemma sinv_G cfg (G1 G2 : asg -> Prop) stk hs s V w cs defs O : (forall b, G2 b -> G1 b) -> sinv cfg G1 stk hs s V w cs defs O -> sinv cfg G2 stk hs s V w cs defs O.
Proof. intros H [A B C D]. constructor; auto. destruct C as [C1 C2 C3 C4 C5 C6]. constructor; auto. Qed.

Lemma adds_ok cfg k ts stkC hs s V w cs defs H X stk fs us : cinv cfg s V H X w cs defs ts stkC hs stk -> Forall2 (addOK cfg s H) fs us ->
  awp cfg (G (us ++ ts)) stkC hs (fun n => add cfg k n fs) s V w cs defs [] [] (fun _ s' V' w' cs' defs' => said (vnames w') cs' us).
Proof.
  intros [L S Sd P St In] F. assert (Hw : wf s) by apply L.
  apply (add_ok cfg k (G (us ++ ts)) stkC hs fs us s V w cs defs).
  - eapply sinv_G; [|exact S]. intros b HG t It. apply HG. apply in_or_app; auto.
  - eapply Forall2_impl; [|exact F]. intros f t (_ & R & _). apply Reads_Den; auto.
  - apply Forall_forall. intros t It. destruct (Forall2_in_r _ _ _ _ F It) as (f & _ & _ & _ & _ & E & _). auto.
  - apply Forall_forall. intros f If. destruct (Forall2_in_l _ _ _ _ F If) as (t & _ & _ & _ & _ & _ & A). auto.
  - intros t It b _ HG. apply HG. apply in_or_app; auto.
Qed.
Lemma adds_plain cfg s H fs us : Forall2 (addOK cfg s H) fs us -> Forall plain us.
Proof. intros F. apply Forall_forall. intros t It. destruct (Forall2_in_r _ _ _ _ F It) as (f & _ & _ & _ & P & _). auto. Qed.
Lemma said_grow V ns cs defs V' ns' cs' defs' ts : grows V ns cs defs V' ns' cs' defs' -> said ns cs ts -> said ns' cs' ts.
Proof. intros Gr H t It. eapply says_grow; eauto. Qed.
Lemma said_app ns cs us ts : said ns cs us -> said ns cs ts -> said ns cs (us ++ ts).
Proof. intros A B t It. apply in_app_or in It. destruct It; auto. Qed.

(** ** Assignments and solver assignments *)
Lemma index_nth (ns : list string) i x : NoDup ns -> nth_error ns i = Some x -> indexOf x ns = Some i.
Proof.
  revert i. induction ns as [|y r IH]; intros [|i] N E; simpl in *; try discriminate; inversion N; subst.
  - inversion E; subst. rewrite String.eqb_refl. auto.
  - destruct (String.eqb_spec y x) as [-> |]; [exfalso; eapply H1, nth_error_In; eauto|]. rewrite (IH i); auto.
Qed.
Definition readBack (ns : list string) (a : nat -> bool) (b : asg) : asg := fun x => match indexOf x ns with Some i => a i | None => b x end.
Lemma view_readBack ns a b i : NoDup ns -> i < length ns -> view ns (readBack ns a b) i = a i.
Proof. intros N L. unfold view, readBack. destruct (nth_error ns i) as [x|] eqn:E; [|apply nth_error_None in E; lia]. rewrite (nth_error_nth _ _ EmptyString E), (index_nth _ _ _ N E). auto. Qed.
Lemma holds_agree n a a' c : (forall i, i < n -> a i = a' i) -> inrange n (clits c) -> SatSpec.holds a c -> SatSpec.holds a' c.
Proof.
  intros A R. assert (E : forall l, In l (clits c) -> SatSpec.lit_true a' l = SatSpec.lit_true a l) by (intros l Il; unfold SatSpec.lit_true; rewrite (A (fst l)); auto).
  destruct c as [ls|ls z]; simpl in *; [intros (l & Il & T); exists l; rewrite E; auto|]. rewrite (filter_ext_in _ _ _ E). auto.
Qed.
Lemma mods_readBack ns cs a b : NoDup ns -> bounded (length ns) cs -> SatSpec.models cs a -> mods cs ns (readBack ns a b).
Proof. intros N B M c Ic. apply (holds_agree (length ns) a); auto. intros i L. rewrite view_readBack; auto. Qed.

(** every assignment that satisfies the formulas extends to one of the solver *)
Lemma complete s V w cs defs cfg ts stkC hs b : sinv cfg (G ts) stkC hs s V w cs defs [] -> Forall plain ts -> G ts b ->
  exists b', (forall x, reserved x = false -> b' x = b x) /\ mods cs (vnames w) b'.
Proof.
  intros [I R C D] P Hb. destruct (v_total _ _ I b) as (b1 & Hb1 & A1).
  set (b2 := fun x => match find (fun d => String.eqb (pgName (fst d)) x) defs with Some (p, t) => eval b1 t | None => b1 x end).
  assert (A2 : forall x, ~ freshN s x -> b2 x = b1 x).
  { intros x Hx. unfold b2. destruct (find _ defs) as [[p t]|] eqn:E; auto. apply find_some in E. destruct E as [_ E]. apply String.eqb_eq in E. simpl in E. exfalso. apply Hx. right. eauto. }
  assert (A3 : forall x, reserved x = false -> b2 x = b x).
  { intros x Hx. pose proof (nonreserved_aux x Hx) as Na. rewrite A2, A1; auto. intros F. apply Na. eapply fresh_aux; eauto. }
  exists b2. split; auto. apply (ct_compl _ _ _ _ _ _ C).
  - eapply (v_supp _ _ I); eauto.
  - intros p t Ip. destruct (ct_defs _ _ _ _ _ _ C p t Ip) as [_ Ho]. rewrite (eval_agree t b2 b1) by (intros x Hx; apply A2; auto).
    unfold b2. destruct (find _ defs) as [[q u]|] eqn:E.
    + apply find_some in E. destruct E as [Iq E]. apply String.eqb_eq in E. simpl in E. apply pgName_inj in E. subst q. rewrite (ct_fun _ _ _ _ _ _ C _ _ _ Ip Iq). auto.
    + exfalso. apply (find_none _ _ E) in Ip. simpl in Ip. rewrite String.eqb_refl in Ip. discriminate.
  - intros t It. rewrite (eval_agree t b2 b); [apply Hb; auto|]. rewrite Forall_forall in P. intros x Hx. apply A3. apply (P t It x Hx).
Qed.

(** ** Parts of a call *)
Lemma split_adds cfg s H fs us : wf s -> Forall2 (addOK cfg s H) fs us ->
  exists ups, Forall2 (addOK cfg s H) (filter (fun f => negb (isLitF f)) fs) ups /\
    forall nps, Forall2 (litDen s) (sortF (filter isLitF fs)) nps -> forall b, G us b <-> (forall np, In np nps -> eval_lit b np = true) /\ G ups b.
Proof.
  intros Hw F. assert (E : exists ups, Forall2 (addOK cfg s H) (filter (fun f => negb (isLitF f)) fs) ups /\ (forall t, In t ups <-> In t us /\ exists f, In f fs /\ isLitF f = false /\ Den s f t)).
  { induction F as [|f t fs us A F IH]; simpl; [exists []; split; [constructor|intros t; simpl; tauto]|]. destruct IH as (ups & F' & E). destruct A as (A1 & A2 & A3). pose proof (proj1 (Reads_Den s Hw t f) A2) as D.
    destruct (isLitF f) eqn:Ef; simpl.
    - exists ups. split; auto. intros u. rewrite E. split; [intros (Iu & g & Ig & Eg & Dg); split; auto; exists g; auto|].
      intros ([->|Iu] & g & [<-|Ig] & Eg & Dg); try congruence; [|eauto]. 
      destruct (Forall2_in_l _ _ _ _ F Ig) as (u' & Iu' & _ & R' & _). apply Reads_Den in R'; auto. rewrite <- (Den_fun _ _ _ _ Dg R') in Iu'. eauto.
    - exists (t :: ups). split; [constructor; auto; split; auto|]. intros u. simpl. rewrite E. split.
      + intros [<-|(Iu & g & Ig & Eg & Dg)]; [split; auto; exists f; auto|split; auto; exists g; auto].
      + intros ([->|Iu] & g & [<-|Ig] & Eg & Dg); auto; [rewrite (Den_fun _ _ _ _ D Dg); auto|right; eauto]. }
  destruct E as (ups & F' & E). exists ups. split; auto. intros nps Hn b. split.
  - intros HG. split.
    + intros np Inp. destruct (Forall2_in_r _ _ _ _ Hn Inp) as (f & If & Df). apply (proj1 (sortF_in _ _)) in If. apply filter_In in If. destruct If as [If _].
      destruct (Forall2_in_l _ _ _ _ F If) as (t & It & _ & R & _). apply Reads_Den in R; auto. specialize (HG t It). rewrite (Den_fun _ _ _ _ R (litDen_Den _ _ _ Df)) in HG. exact HG.
    + intros t It. apply HG. apply E; auto.
  - intros [H1 H2] t It. destruct (Forall2_in_r _ _ _ _ F It) as (f & If & _ & R & _). apply Reads_Den in R; auto. destruct (isLitF f) eqn:Ef.
    + assert (Es : srt f = SLit) by (unfold isLitF in Ef; destruct (srt f); congruence).
      destruct (Den_lit_inv s f t R Es) as (n & p & -> & Dl). assert (If' : In f (sortF (filter isLitF fs))) by (apply sortF_in, filter_In; auto).
      destruct (Forall2_in_l _ _ _ _ Hn If') as (np & Inp & Dn). specialize (H1 np Inp). rewrite (NfFun.litDen_fun _ _ _ _ Dl Dn). exact H1.
    + apply H2, E. split; auto. exists f. auto.
Qed.

(** the answer of the core *)
Lemma answer cfg k ts stkC hs s V w cs defs o ps nps r c : sinv cfg (G ts) stkC hs s V w cs defs [] -> said (vnames w) cs ts -> Forall plain ts ->
  Forall2 (litFor (vnames w)) ps nps -> (forall np, In np nps -> reserved (fst np) = false) -> SatProps.fair o -> Sat.solveWith o (g_min cfg) k ps (core w) = Sat.Ret r c ->
  match r with
  | Some true => length (Sat.model c) = length (vnames w) /\ forall b0, let b := readBack (vnames w) (fun v => nth v (Sat.model c) false) b0 in G ts b /\ forall np, In np nps -> eval_lit b np = true
  | Some false => forall b, G ts b -> (forall np, In np nps -> eval_lit b np = true) -> False
  | None => True
  end.
Proof.
  intros S Sd P L Hr F E. pose proof S as [I R C D]. assert (Rg : forall l, In l ps -> fst l < length (vnames w)) by (eapply litsFor_range; eauto).
  destruct r as [[|]|]; auto.
  - destruct (SatProps.C37_satisfiable _ _ _ _ _ _ _ _ _ _ _ R Rg F E) as (Hl & M & A). split; auto. intros b0 b.
    assert (N : NoDup (vnames w)) by apply C. assert (M' : mods cs (vnames w) b) by (apply mods_readBack; auto; apply C). split; [intros t It; apply (Sd t It b M')|].
    intros np Inp. destruct (Forall2_in_r _ _ _ _ L Inp) as (l & Il & Ll). rewrite <- (litFor_true _ _ _ b Ll). specialize (A l Il). rewrite <- A.
    unfold SatSpec.lit_true. unfold b. rewrite view_readBack; auto.
  - destruct (SatProps.C37_unsatisfiable _ _ _ _ _ _ _ _ _ _ _ R Rg F E) as (U & _). intros b Hb Hn.
    destruct (complete s V w cs defs cfg ts stkC hs b S P Hb) as (b' & Ab & Mb). apply (U _ Mb). intros l Il. destruct (Forall2_in_l _ _ _ _ L Il) as (np & Inp & Ll).
    rewrite (litFor_true _ _ _ b' Ll). rewrite <- (Hn np Inp). unfold eval_lit. rewrite (Ab (fst np)); auto.
Qed.

(** the literals of a model *)
Definition modelOf (s : state) (ns : list string) (md : list bool) (xs : list string) (m : list formula) : Prop :=
  exists nps, Forall2 (Den s) m (map TLit nps) /\ forall x q, In (x, q) nps <-> In x xs /\ exists i, indexOf x ns = Some i /\ nth_error md i = Some q.
Lemma computeModel_ok vs : forall xs s V H X w, linv s V H X -> Forall2 (varOK s H) vs xs -> length (Sat.model (core w)) = length (vnames w) ->
  exists m s', computeModel vs s w = SRet m s' w /\ linv s' V (m ++ H) X /\ wext s V s' V /\ modelOf s' (vnames w) (Sat.model (core w)) xs m.
Proof.
  assert (Go : forall vs xs s V H X w, linv s V H X -> Forall2 (varOK s H) vs xs -> length (Sat.model (core w)) = length (vnames w) ->
    exists ms s', mapS (fun v => np <~ namePhase v ;; i <~ getW (fun w => indexOf (fst np) (vnames w)) ;;
      match i with None => sret [] | Some i => m <~ getW (fun w => nth_error (Sat.model (core w)) i) ;;
                match m with Some b => l <~ liftF (up (Lit (fst np) b)) ;; sret [l] | None => spanic end end) vs s w = SRet ms s' w /\
      linv s' V (concat ms ++ H) X /\ wext s V s' V /\ modelOf s' (vnames w) (Sat.model (core w)) xs (concat ms)).
  { clear vs. induction vs as [|v vs IH]; intros xs s V H X w L F Hl; inversion F as [|a x b xs' Hv Fv]; subst.
    - exists [], s. split; auto. simpl. split; auto. split; [apply wext_refl|]. exists []. split; [constructor|]. simpl. intros x q. tauto.
    - destruct Hv as (Iv & p & Rv). assert (Hw : wf s) by apply L. pose proof (i_winv _ _ _ _ L) as I. apply Reads_Den in Rv; auto. assert (Dl : litDen s v (x, p)) by (apply Den_litt_inv; auto).
      assert (El : literals s v = Some (x, p)) by (apply (node_lit s v x p); auto; apply Hw).
      cbn [mapS]. unfold namePhase at 1. unfold sbind at 1. unfold sbind at 1. unfold liftF at 1. unfold get at 1. rewrite El. cbn [fst].
      unfold sbind at 1. unfold getW at 1. destruct (indexOf x (vnames w)) as [i|] eqn:Ei.
      + unfold sbind at 1. unfold getW at 1. pose proof (indexOf_some x (vnames w) i Ei) as Ni. assert (Li : i < length (Sat.model (core w))) by (rewrite Hl; apply nth_error_Some; congruence).
        destruct (nth_error (Sat.model (core w)) i) as [q|] eqn:Eq; [|apply nth_error_None in Eq; lia].
        unfold sbind at 1. unfold liftF at 1. unfold up at 1. destruct (Lit x q s) as [l s1] eqn:E1. unfold sret at 1.
        destruct (Lit_spec s x q l s1 Hw E1) as (Gd & Dn & Nm).
        destruct (winv_good s V s1 I Gd) as [I1 X1]; [eapply same3_cnfk; [eapply Lit_same3; eauto|apply I]|intros y Hy; apply Nm in Hy; destruct Hy as [Hy| ->]; [auto|right; apply (lit_notfresh s V v (x, p)); auto]|].
        assert (L1 : linv s1 V (l :: H) X). { pose proof (linv_ext _ _ _ _ _ _ X1 I1 L) as [B1 B2 B3]. constructor; auto. constructor; auto. exists (ShLit x q). auto. }
        assert (F1 : Forall2 (varOK s1 (l :: H)) vs xs').
        { eapply Forall2_impl; [|exact Fv]. intros u y (Iu & q' & Ru). split; [right; auto|]. exists q'. apply Reads_Den; [apply I1|]. apply Reads_Den in Ru; auto. eapply wext_Den; eauto. }
        destruct (IH xs' s1 V (l :: H) X w L1 F1 Hl) as (ms & s2 & E2 & L2 & X2 & nps & D2 & M2). unfold sbind at 1. rewrite E2.
        exists ([l] :: ms), s2. split; [reflexivity|]. assert (D1 : Den s1 l (TLit (x, q))) by (apply litDen_Den; exact Dn). split; [|split; [eapply wext_trans; eauto|]].
        * destruct L2 as [B1 B2 B3]. constructor; auto. simpl. apply Forall_app in B2. destruct B2 as [B2 B2']. inversion B2'; subst. constructor; auto. apply Forall_app; auto.
        * exists ((x, q) :: nps). split; [simpl; constructor; auto; eapply wext_Den; eauto|]. intros y q'. simpl. rewrite M2. split.
          -- intros [Eq'|(Iy & j & Ej & Eqj)]; [inversion Eq'; subst; split; auto; exists i; auto|split; auto; exists j; auto].
          -- intros ([->|Iy] & j & Ej & Eqj); [left; rewrite Ei in Ej; inversion Ej; subst; congruence|right; split; auto; exists j; auto].
      + unfold sret at 1. unfold sbind at 1. destruct (IH xs' s V H X w L Fv Hl) as (ms & s2 & E2 & L2 & X2 & nps & D2 & M2). rewrite E2.
        exists ([] :: ms), s2. split; [reflexivity|]. simpl. split; auto. split; auto. exists nps. split; auto. intros y q'. rewrite M2. split.
        * intros (Iy & j & Ej & Eqj). split; [right; auto|exists j; auto].
        * intros ([->|Iy] & j & Ej & Eqj); [congruence|]. split; [auto|exists j; auto]. }
  intros xs s V H X w L F Hl. destruct (Go vs xs s V H X w L F Hl) as (ms & s' & E & L' & X' & M). exists (concat ms), s'. split; auto.
  unfold computeModel. unfold sbind at 1. rewrite E. reflexivity.
Qed.

(** ** Saving and loading *)
Lemma load_ok cfg k s V w cs aboveC x nv cs' restC hs ts : winv s V -> SatProps.reach (g_min cfg) false (core w) (length (vnames w)) cs (aboveC ++ (x, (nv, cs')) :: restC) hs ->
  In x hs -> nv <= length (vnames w) -> level s V (firstn nv (vnames w)) cs' ts ->
  match loadState k x s w with
  | SRet b s' w' => b = true /\ s' = s /\ vnames w' = firstn nv (vnames w) /\ exists defs', sinv cfg (G ts) ((x, (nv, cs')) :: restC) hs s V w' cs' defs' []
  | SPanic => False
  | SStuck => True
  end.
Proof.
  intros I R Ix Ln [[defs' C] [Sd P]]. unfold loadState. unfold sbind at 1. unfold liftC at 1.
  destruct (SatProps.C37_no_panic _ _ _ _ _ _ _ R) as (_ & _ & _ & _ & NP). specialize (NP k x Ix).
  destruct (Sat.loadState k x (core w)) as [b c| |] eqn:E; auto.
  destruct (SatProps.C38_load _ _ _ _ _ _ _ _ _ _ _ _ _ _ R E) as (-> & R' & _).
  assert (En : Sat.nvars c = nv) by (apply (SatProps.sv_nv _ _ _ _ _ _ _ (SatProps.reach_SI _ _ _ _ _ _ _ R'))).
  unfold sbind, putW, sret. cbn [core vnames pgCache]. rewrite En. split; auto. split; auto. split; auto. exists defs'. constructor; cbn [core vnames pgCache]; auto.
  - rewrite firstn_length, Nat.min_l; auto.
  - intros f p pos neg H. discriminate.
Qed.

(** ** Calls *)
(** the answer and the model of a call about the formulas [ts], for variables named [xs] *)
Definition callSpec (s : state) (ts : list tree) (xs : list string) (r : option bool) (m : list formula) : Prop :=
  match r with
  | Some true => exists nps, Forall2 (Reads s) m (map TLit nps) /\ (forall x q, In (x, q) nps -> In x xs) /\
      (exists b, G ts b /\ forall np, In np nps -> eval_lit b np = true) /\
      ((forall t x, In t ts -> occurs x t -> In x xs) -> forall b, (forall np, In np nps -> eval_lit b np = true) -> G ts b)
  | Some false => m = [] /\ ~ exists b, G ts b
  | None => m = []
  end.

Lemma solve_sinv cfg (Gx : asg -> Prop) stkC hs s V w cs defs o k ps r c : sinv cfg Gx stkC hs s V w cs defs [] -> inrange (length (vnames w)) ps -> SatProps.fair o ->
  Sat.solveWith o (g_min cfg) k ps (core w) = Sat.Ret r c -> sinv cfg Gx stkC hs s V (Slv c (vnames w) (pgCache w)) cs defs [].
Proof. intros [I R C D] Hr [F1 F2] E. constructor; cbn [core vnames pgCache]; auto. eapply SatProps.reach_solve; eauto. Qed.

(** solving and reading the model *)
Definition solveAndRead (cfg : satConfig) (k : nat) (o : Sat.oracle) (ps : list (nat * bool)) (vars : list formula) : SM (option bool * list formula) :=
  r <~ liftC (Sat.solveWith o (g_min cfg) k ps) ;; m <~ match r with Some true => computeModel vars | _ => sret [] end ;; sret (r, m).
Lemma solveAndRead_ok cfg k o ps nps vs xs ts stkC hs s V w cs defs H X : linv s V H X -> sinv cfg (G ts) stkC hs s V w cs defs [] -> said (vnames w) cs ts -> Forall plain ts ->
  Forall2 (litFor (vnames w)) ps nps -> (forall np, In np nps -> reserved (fst np) = false) -> SatProps.fair o -> Forall2 (varOK s H) vs xs ->
  forall ts', (forall b, G ts' b <-> (forall np, In np nps -> eval_lit b np = true) /\ G ts b) -> Forall plain ts' ->
  match solveAndRead cfg k o ps vs s w with
  | SRet (r, m) s' w' => linv s' V (m ++ H) X /\ wext s V s' V /\ vnames w' = vnames w /\ sinv cfg (G ts) stkC hs s' V w' cs defs [] /\ callSpec s' ts' xs r m
  | SPanic => False
  | SStuck => True
  end.
Proof.
  intros L S Sd P Lf Hr F Fv ts' Hts P'. unfold solveAndRead. unfold sbind at 1. unfold liftC at 1.
  assert (Rg : inrange (length (vnames w)) ps) by (eapply litsFor_range; eauto).
  destruct (SatProps.C37_no_panic _ _ _ _ _ _ _ (si_reach _ _ _ _ _ _ _ _ _ _ S)) as (_ & _ & _ & NP & _). specialize (NP o k ps Rg F).
  destruct (Sat.solveWith o (g_min cfg) k ps (core w)) as [r c| |] eqn:E; auto.
  pose proof (answer cfg k ts stkC hs s V w cs defs o ps nps r c S Sd P Lf Hr F E) as A. pose proof (solve_sinv cfg (G ts) stkC hs s V w cs defs o k ps r c S Rg F E) as S1.
  destruct r as [[|]|].
  - destruct A as [Hl A]. unfold sbind at 1. destruct (computeModel_ok vs xs s V H X (Slv c (vnames w) (pgCache w)) L Fv Hl) as (m & s' & Em & L' & X' & mps & Dm & Mm).
    rewrite Em. unfold sret. cbn [core vnames] in *. split; auto. split; auto. split; auto. split; [eapply sinv_wext; [exact X'|apply L'|exact S1]|].
    set (a := fun v => nth v (Sat.model c) false) in *. assert (N : NoDup (vnames w)) by (apply (ct_nodup _ _ _ _ _ _ (si_content _ _ _ _ _ _ _ _ _ _ S))).
    assert (Av : forall b0 np, In np mps -> eval_lit (readBack (vnames w) a b0) np = true).
    { intros b0 [x q] Ix. apply Mm in Ix. destruct Ix as (_ & i & Ei & Eq). unfold eval_lit, readBack. simpl. rewrite Ei. unfold a. rewrite (nth_error_nth _ _ false Eq). destruct q; auto. }
    assert (Gb : forall b0, G ts' (readBack (vnames w) a b0)). { intros b0. apply Hts. destruct (A b0) as [A1 A2]. split; auto. }
    exists mps. split; [|split; [|split]].
    + eapply Forall2_impl; [|exact Dm]. intros f t D. apply Reads_Den; auto. apply L'.
    + intros x q Ix. apply Mm in Ix. tauto.
    + exists (readBack (vnames w) a (fun _ => false)). auto.
    + intros Hc b Hb t It. rewrite <- (Gb b t It). apply eval_agree. intros x Hx. unfold readBack. destruct (indexOf x (vnames w)) as [i|] eqn:Ei; auto.
      assert (Li : i < length (Sat.model c)). { rewrite Hl. apply nth_error_Some. rewrite (indexOf_some _ _ _ Ei). discriminate. }
      destruct (nth_error (Sat.model c) i) as [q|] eqn:Eq; [|apply nth_error_None in Eq; lia]. assert (Im : In (x, q) mps) by (apply Mm; split; [eapply Hc; eauto|eauto]).
      specialize (Hb _ Im). unfold eval_lit in Hb. simpl in Hb. unfold a. rewrite (nth_error_nth _ _ false Eq). destruct q, (b x); auto; discriminate.
  - unfold sbind at 1. unfold sret. split; auto. split; [apply wext_refl|]. split; auto. split; auto. split; auto. intros [b Hb]. apply Hts in Hb. destruct Hb as [H1 H2]. eapply A; eauto.
  - unfold sbind at 1. unfold sret. split; auto. split; [apply wext_refl|]. split; auto. split; auto. reflexivity.
Qed.

Lemma call_ok cfg k o fs us vs xs s V H X w cs defs ts stkC hs stk : cinv cfg s V H X w cs defs ts stkC hs stk -> Forall2 (addOK cfg s H) fs us -> Forall2 (varOK s H) vs xs -> SatProps.fair o ->
  exists n0 r, (forall n, n0 <= n -> call cfg k n o fs vs s w = r) /\
  match r with
  | SRet (a, m) s' w' => exists V' cs' defs' stkC' hs', wext s V s' V' /\ cinv cfg s' V' (m ++ H) X w' cs' defs' ts stkC' hs' stk /\ incl hs hs' /\ callSpec s' (us ++ ts) xs a m
  | SPanic => False
  | SStuck => True
  end.
Proof.
  intros CI F Fv Fo. pose proof CI as [L S Sd P St Ih]. pose proof (i_winv _ _ _ _ L) as I. assert (Hw : wf s) by apply I.
  destruct (split_adds cfg s H fs us Hw F) as (ups & Fu & Hsp).
  assert (Hl : forall l, In l (filter isLitF fs) -> exists np, litDen s l np).
  { intros l Il. apply filter_In in Il. destruct Il as [Il El]. destruct (Forall2_in_l _ _ _ _ F Il) as (t & _ & _ & R & _). apply Reads_Den in R; auto.
    assert (Es : srt l = SLit) by (unfold isLitF in El; destruct (srt l); congruence). destruct (Den_lit_inv s l t R Es) as (n & p & -> & Dl). eauto. }
  destruct (clauseVector_ok cfg (G ts) stkC hs (filter isLitF fs) s V w cs defs [] S Hl) as (n1 & r1 & E1 & H1).
  destruct r1 as [ps s1 w1| |]; [|contradiction|exists n1, SStuck; split; auto; intros n Hn; unfold call; unfold sbind at 1; rewrite (E1 n Hn); auto].
  destruct H1 as (V1 & cs1 & defs1 & X1 & S1 & Gr1 & _ & -> & -> & -> & -> & Ec1 & nps & Lf & Dn).
  assert (Sd1 : said (vnames w1) cs ts) by (eapply said_grow; eauto). assert (St1 : stkok s V (vnames w1) stkC stk) by (eapply stkok_grows; eauto).
  specialize (Hsp nps Dn). assert (Pu : Forall plain us) by (eapply adds_plain; eauto).
  assert (Pups : Forall plain ups) by (eapply adds_plain; eauto).
  assert (Pn : forall np, In np nps -> reserved (fst np) = false).
  { intros np Inp. destruct (Forall2_in_r _ _ _ _ Dn Inp) as (f & If & Df). apply (proj1 (sortF_in _ _)) in If. apply filter_In in If. destruct If as [If _].
    destruct (Forall2_in_l _ _ _ _ F If) as (t & _ & _ & R & Pt & _). apply Reads_Den in R; auto. rewrite (Den_fun _ _ _ _ R (litDen_Den _ _ _ Df)) in Pt. apply (Pt (fst np)). simpl. auto. }
  assert (Gsp : forall b, G (us ++ ts) b <-> (forall np, In np nps -> eval_lit b np = true) /\ G (ups ++ ts) b).
  { intros b. unfold G. assert (Ga : forall l1 l2, (forall t, In t (l1 ++ l2) -> eval b t = true) <-> G l1 b /\ G l2 b).
    { intros l1 l2. unfold G. split; [intros Hx; split; intros t It; apply Hx, in_or_app; auto|intros [Ha Hb] t It; apply in_app_or in It; destruct It; auto]. }
    rewrite !Ga. specialize (Hsp b). fold (G us b). tauto. }
  assert (Pall : Forall plain (us ++ ts)) by (apply Forall_app; auto).
  (* without formulas *)
  destruct (filter (fun f => negb (isLitF f)) fs) as [|f0 fr] eqn:Ef.
  - inversion Fu; subst ups.
    pose proof (solveAndRead_ok cfg k o ps nps vs xs ts stkC hs s V w1 cs defs H X L S1 Sd1 P Lf Pn Fo Fv (us ++ ts) Gsp Pall) as SR.
    exists n1. exists (solveAndRead cfg k o ps vs s w1). split.
    + intros n Hn. unfold call. unfold sbind at 1. rewrite (E1 n Hn). rewrite Ef. unfold sbind at 1. unfold sret at 1. unfold solveAndRead, sbind, sret, liftC.
      destruct (Sat.solveWith o (g_min cfg) k ps (core w1)) as [[[]|] c| |]; auto.
    + destruct (solveAndRead cfg k o ps vs s w1) as [[a m] s' w'| |]; auto. destruct SR as (L' & X' & En & S' & Sp).
      exists V, cs, defs, stkC, hs. split; auto. split; [|split; [apply incl_refl|exact Sp]]. constructor; auto; rewrite En; auto. eapply stkok_wext; eauto.
  - (* with formulas: save, add, solve, load *)
    destruct (SatProps.C38_save _ _ _ _ _ _ _ (si_reach _ _ _ _ _ _ _ _ _ _ S1)) as (x & c2 & Es & Nx & R2).
    set (w2 := Slv c2 (vnames w1) (pgCache w1)). set (nv := length (vnames w1)) in *.
    assert (S2 : sinv cfg (G ts) ((x, (nv, cs)) :: stkC) (x :: hs) s V w2 cs defs []). { destruct S1 as [A B C D]. constructor; auto. }
    assert (CI2 : cinv cfg s V H X w2 cs defs ts ((x, (nv, cs)) :: stkC) (x :: hs) stk).
    { constructor; auto.
      - cbn [vnames w2]. eapply sk_hid with (ts := ts); auto; rewrite firstn_all2; auto. split; [exists defs; apply S1|auto].
      - intros y [<-|Iy]; [left; auto|right; apply Ih; auto]. }
    rewrite <- Ef in Fu. destruct (adds_ok cfg k ts ((x, (nv, cs)) :: stkC) (x :: hs) s V w2 cs defs H X stk _ ups CI2 Fu) as (n2 & r2 & E2 & H2).
    assert (Ecall : forall n, n1 <= n -> call cfg k n o fs vs s w = sbind (add cfg k n (filter (fun f => negb (isLitF f)) fs)) (fun _ =>
        sbind (solveAndRead cfg k o ps vs) (fun rm => sbind (loadState k x) (fun b => if b then sret rm else spanic))) s w2).
    { intros n Hn. unfold call. unfold sbind at 1. rewrite (E1 n Hn). rewrite Ef. unfold sbind at 1. unfold sbind at 1. unfold saveState at 1. unfold liftC at 1. rewrite Es. fold w2.
      unfold solveAndRead, sbind, sret, liftC. destruct (add cfg k n (f0 :: fr) s w2) as [u s3 w3| |]; auto. destruct (Sat.solveWith o (g_min cfg) k ps (core w3)) as [[[]|] c| |]; auto.
      - destruct (computeModel vs s3 (Slv c (vnames w3) (pgCache w3))) as [m s4 w4| |]; auto. destruct (loadState k x s4 w4) as [[] s5 w5| |]; auto.
      - destruct (loadState k x s3 (Slv c (vnames w3) (pgCache w3))) as [[] s5 w5| |]; auto.
      - destruct (loadState k x s3 (Slv c (vnames w3) (pgCache w3))) as [[] s5 w5| |]; auto. }
    destruct r2 as [u s3 w3| |]; [|contradiction|exists (Nat.max n1 n2), SStuck; split; auto; intros n Hn; rewrite Ecall by lia; unfold sbind at 1; rewrite E2; auto; lia].
    destruct H2 as (V3 & cs3 & defs3 & X3 & S3 & Gr3 & _ & Sd3). cbv beta in Sd3.
    assert (L3 : linv s3 V3 H X) by (eapply linv_ext; eauto; apply S3).
    assert (Sd3' : said (vnames w3) cs3 (ups ++ ts)) by (apply said_app; auto; eapply said_grow; eauto).
    assert (Lf3 : Forall2 (litFor (vnames w3)) ps nps). { destruct (gr_ns _ _ _ _ _ _ _ _ Gr3) as [l El]. rewrite El. cbn [vnames w2]. eapply Forall2_impl; [|exact Lf]. intros. apply litFor_app; auto. }
    assert (Fv3 : Forall2 (varOK s3 H) vs xs). { eapply Forall2_impl; [|exact Fv]. intros v y (Iv & q & Rq). split; auto. exists q. apply Reads_Den; [apply L3|]. apply Reads_Den in Rq; auto. eapply wext_Den; eauto. }
    pose proof (solveAndRead_ok cfg k o ps nps vs xs (ups ++ ts) _ _ s3 V3 w3 cs3 defs3 H X L3 S3 Sd3' (proj2 (Forall_app _ _ _) (conj Pups P)) Lf3 Pn Fo Fv3 (us ++ ts) Gsp Pall) as SR.
    exists (Nat.max n1 n2). exists (sbind (solveAndRead cfg k o ps vs) (fun rm => sbind (loadState k x) (fun b => if b then sret rm else spanic)) s3 w3). split.
    { intros n Hn. rewrite Ecall by lia. unfold sbind at 1. rewrite E2 by lia. reflexivity. }
    unfold sbind at 1. destruct (solveAndRead cfg k o ps vs s3 w3) as [[a m] s4 w4| |]; auto. destruct SR as (L4 & X4 & En4 & S4 & Sp).
    unfold sbind at 1. assert (X34 : wext s V s4 V3) by (eapply wext_trans; eauto).
    assert (En : vnames w4 = vnames w1 ++ skipn nv (vnames w4)).
    { rewrite En4. destruct (gr_ns _ _ _ _ _ _ _ _ Gr3) as [l El]. rewrite El. cbn [vnames w2]. unfold nv. rewrite skipn_app, skipn_all, Nat.sub_diag. reflexivity. }
    assert (Fn : firstn nv (vnames w4) = vnames w1). { rewrite En. unfold nv. rewrite firstn_app, firstn_all, Nat.sub_diag, firstn_O, app_nil_r. auto. }
    pose proof (load_ok cfg k s4 V3 w4 cs3 [] x nv cs stkC (x :: hs) ts (i_winv _ _ _ _ L4) (si_reach _ _ _ _ _ _ _ _ _ _ S4)) as LD.
    assert (Lv : level s4 V3 (firstn nv (vnames w4)) cs ts). { rewrite Fn. eapply level_wext; [exact X34|]. split; [exists defs; apply S1|auto]. }
    specialize (LD (or_introl eq_refl)). assert (Ln : nv <= length (vnames w4)) by (rewrite En, app_length; unfold nv; lia). specialize (LD Ln Lv).
    destruct (loadState k x s4 w4) as [b s5 w5| |]; auto. destruct LD as (-> & -> & En5 & defs5 & S5). unfold sret.
    exists V3, cs, defs5, ((x, (nv, cs)) :: stkC), (x :: hs). split; auto. rewrite Fn in En5. split; [|split; [apply incl_tl, incl_refl|exact Sp]]. constructor; auto; rewrite ?En5; auto.
    + eapply sk_hid with (ts := ts); auto; unfold nv; rewrite firstn_all; auto; [rewrite Fn in Lv; auto|eapply stkok_wext; eauto].
    + intros y [<-|Iy]; [left; auto|right; apply Ih; auto].
Qed.

(** every state of a client satisfies the invariant *)
Lemma new_cinv cfg cv : cinv cfg (newFactory cv) (fun _ => True) [ffalse; ftrue] [] newSolver [] [] [] [] [] [].
Proof.
  constructor; simpl; auto.
  - constructor; [apply new_winv|apply held_new|constructor].
  - constructor; simpl; [apply new_winv|apply SatProps.reach_new| |intros f p pos neg H; discriminate].
    constructor; simpl; [constructor|intros [|i] x E; discriminate|intros c []|intros p t []|intros p t u []|intros b _ _ _ c []].
  - intros t [].
  - constructor.
  - apply incl_refl.
Qed.
Lemma sret_eq {A} (m : nat -> SM A) s w n0 r a s' w' : (forall n, n0 <= n -> m n s w = r) -> sreturns m s w a s' w' -> r = SRet a s' w'.
Proof. intros H [n1 H1]. rewrite <- (H (Nat.max n0 n1)), <- (H1 (Nat.max n0 n1)); auto; lia. Qed.
Theorem client_cinv cfg cv s H X w ts stk : client cfg cv s H X w ts stk -> exists V cs defs stkC hs, cinv cfg s V H X w cs defs ts stkC hs stk.
Proof.
  induction 1 as [|s H X w ts stk s' H' X' C IH St|s H X w ts stk k fs us s' w' C IH F R|s H X w ts stk k o fs us vs xs r m s' w' C IH F Fv Fo R|s H X w ts stk x s' w' C IH R|s H X w ts above x ts' stk k b s' w' C IH R].
  - exists (fun _ => True), [], [], [], []. apply new_cinv.
  - destruct IH as (V & cs & defs & stkC & hs & [L S Sd P Sk Ih]). destruct (step_linv _ _ _ _ _ _ _ L St) as (V' & L' & X2). exists V', cs, defs, stkC, hs.
    constructor; auto; [eapply sinv_wext; eauto; apply L'|eapply stkok_wext; eauto].
  - destruct IH as (V & cs & defs & stkC & hs & CI). pose proof CI as [L S Sd P Sk Ih].
    destruct (adds_ok cfg k ts stkC hs s V w cs defs H X stk fs us CI F) as (n0 & r & E & HH). rewrite (sret_eq _ _ _ _ _ _ _ _ E R) in HH.
    destruct HH as (V' & cs' & defs' & X' & S' & Gr & _ & Sd'). exists V', cs', defs', stkC, hs. constructor; auto.
    + eapply linv_ext; eauto. apply S'.
    + apply said_app; auto. eapply said_grow; eauto.
    + apply Forall_app. split; auto. eapply adds_plain; eauto.
    + eapply stkok_grows; eauto.
  - destruct IH as (V & cs & defs & stkC & hs & CI). destruct (call_ok cfg k o fs us vs xs s V H X w cs defs ts stkC hs stk CI F Fv Fo) as (n0 & r0 & E & HH).
    rewrite (sret_eq _ _ _ _ _ _ _ _ E R) in HH. destruct HH as (V' & cs' & defs' & stkC' & hs' & _ & CI' & _). exists V', cs', defs', stkC', hs'. auto.
  - destruct IH as (V & cs & defs & stkC & hs & [L S Sd P Sk Ih]). destruct (SatProps.C38_save _ _ _ _ _ _ _ (si_reach _ _ _ _ _ _ _ _ _ _ S)) as (y & c & E & Ny & R').
    assert (Er : SRet x s' w' = SRet y s (Slv c (vnames w) (pgCache w))). { symmetry. eapply (sret_eq (fun _ => saveState)) with (n0 := 0); [|exact R]. intros n _. unfold saveState, liftC. rewrite E. auto. }
    inversion Er; subst. exists V, cs, defs, ((y, (length (vnames w), cs)) :: stkC), (y :: hs). constructor; auto; cbn [vnames].
    + destruct S as [A B Cc D]. constructor; auto.
    + eapply sk_vis; auto; rewrite firstn_all; auto. split; [exists defs; apply S|auto].
    + intros z [<-|Iz]; [left; auto|right; apply Ih; auto].
  - destruct IH as (V & cs & defs & stkC & hs & [L S Sd P Sk Ih]). destruct (stkok_find s V _ _ _ Sk above x ts' stk eq_refl) as (ac & nv & cs' & rc & -> & Ln & Lv & Sk').
    pose proof (load_ok cfg k s V w cs ac x nv cs' rc hs ts' (i_winv _ _ _ _ L) (si_reach _ _ _ _ _ _ _ _ _ _ S)) as LD.
    assert (Ix : In x hs). { apply Ih. rewrite map_app. apply in_or_app. right. left. auto. } specialize (LD Ix Ln Lv).
    assert (Er : loadState k x s w = SRet b s' w') by (eapply (sret_eq (fun _ => loadState k x)) with (n0 := 0); [|exact R]; auto). rewrite Er in LD.
    destruct LD as (-> & -> & En & defs' & S'). exists V, cs', defs', ((x, (nv, cs')) :: rc), hs. destruct Lv as [Lv1 [Lv2 Lv3]]. constructor; auto; rewrite ?En; auto.
    + eapply sk_vis; rewrite ?firstn_length; try lia; rewrite firstn_firstn, Nat.min_id; auto. split; auto.
    + intros z Iz. apply Ih. rewrite map_app. apply in_or_app. right. auto.
Qed.
