(** * Proofs about adding formulas to a solver *)
From Coq Require Import String Ascii List Bool Arith ZArith NArith Lia.
From Verif Require Sat SatSpec SatProps.
From Verif Require Import Spec Factory FactoryProofs FactoryProofs2 FactoryProofs3 FactoryApi FactoryProps Assign EncSpec EncApi EncPbc EncProps NormalForm NfBase NfAssign NfEnc NfNnf NfCnf NfFun NfTseitin NfPg NfAig SatApi SatApiInv SatApiPg.
Import ListNotations.
Local Close Scope N_scope.

Lemma nice_den s : wf s -> forall t f, Den s f t -> pbfree t = true -> t <> TTrue -> t <> TFalse -> nice t = true.
Proof.
  intros Hw. pose proof Hw as [W T].
  assert (HK : forall g, Den s g TTrue -> g = ftrue) by (intros g H; exact (Den_K s g true Hw H)).
  assert (HF : forall g, Den s g TFalse -> g = ffalse) by (intros g H; exact (Den_K s g false Hw H)).
  assert (Ik : forall k g, inner k g = true -> g <> ftrue /\ g <> ffalse).
  { intros k g H. split; intros ->; unfold inner in H; simpl in H; destruct k; discriminate. }
  induction t using tree_ind'; intros f Hd Hp N1 N2; cbn [pbfree nice] in *; try congruence.
  - apply Den_not_inv in Hd. destruct Hd as (g & Hn & Hg). destruct (w_ok s W _ _ Hn) as (_ & Hng & _).
    apply (IHt g); auto; intros ->; [apply HK in Hg|apply HF in Hg]; subst g; discriminate.
  - apply Den_and_inv in Hd. destruct Hd as (l & Hn & Hl). destruct (w_ok s W _ _ Hn) as (_ & Hlen & Hi). rewrite forallb_forall in *. intros u Iu.
    destruct (Forall2_in_r _ _ _ _ Hl Iu) as (g & Ig & Dg). rewrite Forall_forall in H, Hi. destruct (Ik _ _ (Hi g Ig)) as [K1 K2].
    apply (H u Iu g); auto; intros ->; [apply HK in Dg|apply HF in Dg]; contradiction.
  - apply Den_or_inv in Hd. destruct Hd as (l & Hn & Hl). destruct (w_ok s W _ _ Hn) as (_ & Hlen & Hi). rewrite forallb_forall in *. intros u Iu.
    destruct (Forall2_in_r _ _ _ _ Hl Iu) as (g & Ig & Dg). rewrite Forall_forall in H, Hi. destruct (Ik _ _ (Hi g Ig)) as [K1 K2].
    apply (H u Iu g); auto; intros ->; [apply HK in Dg|apply HF in Dg]; contradiction.
  - apply Den_impl_inv in Hd. destruct Hd as (a & b & Hn & Ha & Hb). destruct (w_ok s W _ _ Hn) as (_ & Hi). apply andb_true_iff in Hp. destruct Hp as [P1 P2].
    apply andb_true_iff. split; [apply (IHt1 a)|apply (IHt2 b)]; auto; intros ->; try (apply HK in Ha; subst a); try (apply HF in Ha; subst a); try (apply HK in Hb; subst b); try (apply HF in Hb; subst b);
      unfold implTriv in Hi; simpl in Hi; rewrite ?orb_true_r in Hi; simpl in Hi; discriminate.
  - apply Den_equiv_inv in Hd. destruct Hd as (a & b & Hn & Ha & Hb). destruct (w_ok s W _ _ Hn) as (_ & Hi). apply andb_true_iff in Hp. destruct Hp as [P1 P2].
    apply andb_true_iff. split; [apply (IHt1 a)|apply (IHt2 b)]; auto; intros ->; try (apply HK in Ha; subst a); try (apply HF in Ha; subst a); try (apply HK in Hb; subst b); try (apply HF in Hb; subst b);
      unfold equivTriv in Hi; simpl in Hi; rewrite ?orb_true_r in Hi; simpl in Hi; discriminate.
Qed.
Lemma nnf_pbfree t : is_nnf t = true -> pbfree t = true.
Proof.
  induction t using tree_ind'; simpl; intros Hn; try discriminate; auto; rewrite forallb_forall in *; rewrite Forall_forall in *; auto.
Qed.

Lemma containsPBC_ok : forall t s V f, winv s V -> Den s f t -> wp (fun n => containsPBC n f) s V (fun b s' V' => s' = s /\ V' = V /\ b = negb (pbfree t)).
Proof.
  assert (Go : forall ts, Forall (fun t => forall s V f, winv s V -> Den s f t -> wp (fun n => containsPBC n f) s V (fun b s' V' => s' = s /\ V' = V /\ b = negb (pbfree t))) ts ->
    forall s V fs, winv s V -> Forall2 (Den s) fs ts ->
    wp (fun n => (fix go l := match l with [] => ret false | op :: r => b <- containsPBC n op ;; if b then ret true else go r end) fs) s V (fun b s' V' => s' = s /\ V' = V /\ b = negb (forallb pbfree ts))).
  { induction 1 as [|t ts Ht _ IH]; intros s V fs I F; inversion F; subst; [apply wp_ret; auto|].
    eapply wp_bind; [apply (Ht s V x); auto|]. cbv beta. intros b s1 V1 I1 X1 (-> & -> & ->). simpl. destruct (pbfree t); simpl; [|apply wp_ret; auto]. apply IH; auto. }
  intros t. induction t using tree_ind'; intros s V f I Hd; pose proof (v_wf _ _ I) as Hw; apply wp_S; cbn [containsPBC]; rewrite (Den_sort _ _ _ Hd).
  - apply wp_ret; auto.
  - apply wp_ret; auto.
  - apply wp_ret; auto.
  - apply wp_get. cbn [pbfree]. apply IHt; auto. apply opNot_den; auto.
  - apply wp_get. cbn [pbfree]. apply Go; auto. apply opNary_and; auto.
  - apply wp_get. cbn [pbfree]. apply Go; auto. apply opNary_or; auto.
  - destruct (opBin_impl s f t1 t2 Hw Hd) as [D1 D2]. apply wp_get. eapply wp_bind; [apply (IHt1 s V); eauto|]. cbv beta. intros b s1 V1 I1 X1 (-> & -> & ->).
    simpl. destruct (pbfree t1); simpl; [apply IHt2; auto|apply wp_ret; auto].
  - destruct (opBin_equiv s f t1 t2 Hw Hd) as [D1 D2]. apply wp_get. eapply wp_bind; [apply (IHt1 s V); eauto|]. cbv beta. intros b s1 V1 I1 X1 (-> & -> & ->).
    simpl. destruct (pbfree t1); simpl; [apply IHt2; auto|apply wp_ret; auto].
  - destruct k; apply wp_ret; auto.
Qed.

Section Add.
Variables (cfg : satConfig) (k : nat) (G : asg -> Prop) (stk : list (Sat.saved * (nat * list SatSpec.constr))) (hs : list Sat.saved).
Notation sinv := (sinv cfg G stk hs).
Notation awp := (awp cfg G stk hs).

Lemma says_imp ns cs t u : (forall b, eval b u = true -> eval b t = true) -> says ns cs u true -> says ns cs t true.
Proof. intros H S b M. apply H, S, M. Qed.

(** a formula without constraints *)
Lemma pgTop_ok h u s V w cs defs : sinv s V w cs defs [] -> Den s h u -> pbfree u = true -> goal G V u true ->
  awp (fun n => b <~ liftF (isCNF h) ;; if b then addClauseSet cfg k n h else l <~ computeTransformation cfg k n h true true ;; addTop k l) s V w cs defs [] []
    (fun _ s' V' w' cs' defs' => says (vnames w') cs' u true).
Proof.
  intros S Hd Hp HG. pose proof (si_winv _ _ _ _ _ _ _ _ _ _ S) as I.
  eapply awp_bindF; [exact S|apply (isCNF_ok u s V h I Hd)|]. cbv beta. intros b s1 V1 X1 S1 _ (-> & -> & ->). destruct (is_cnf u) eqn:Ec.
  - apply addClauseSet_ok; auto.
  - assert (Hn : nice u = true). { eapply nice_den; eauto; [apply I|intros ->; discriminate|intros ->; discriminate]. }
    eapply awp_bind; [apply (computeTransformation_ok cfg k G stk hs u Hn s V w cs defs [] h true true); auto; intros g []|apply incl_refl|].
    cbv beta. intros r s2 V2 w2 cs2 defs2 X2 S2 Gr2 P. apply (addTop_ok cfg k G stk hs u true); auto. eapply goal_sub; [apply X2|auto].
Qed.
Lemma addCNFToSolver_ok nnf f t s V w cs defs : sinv s V w cs defs [] -> Den s f t -> encodable (g_enc cfg) t -> goal G V t true ->
  awp (fun n => addCNFToSolver cfg k n nnf f) s V w cs defs [] [] (fun _ s' V' w' cs' defs' => says (vnames w') cs' t true).
Proof.
  intros S Hd He HG. pose proof (si_winv _ _ _ _ _ _ _ _ _ _ S) as I. unfold addCNFToSolver.
  assert (Fin : forall h u s' V', wext s V s' V' -> sinv s' V' w cs defs [] -> Den s' h u -> is_nnf u = true -> repr V' t u ->
     awp (fun n => b <~ liftF (isCNF h) ;; if b then addClauseSet cfg k n h else l <~ computeTransformation cfg k n h true true ;; addTop k l) s' V' w cs defs [] []
    (fun _ s' V' w' cs' defs' => says (vnames w') cs' t true)).
  { intros h u s' V' X S' D N R. eapply awp_conseq; [apply (pgTop_ok h u); auto; [apply nnf_pbfree; auto|]|].
    - intros b Hb Hg. apply R; auto. apply HG; auto. apply X; auto.
    - cbv beta. intros _ s2 V2 w2 cs2 defs2 _ _ _ H. eapply says_imp; [apply R|exact H]. }
  destruct nnf.
  - eapply awp_bindF; [exact S|apply (NNF_ok (g_enc cfg) t s V f I Hd He)|]. cbv beta. intros g s1 V1 X1 S1 _ (u & D & N & R & _).
    eapply awp_bindF; [exact S1|apply (containsPBC_ok u); [apply S1|auto]|]. cbv beta. intros b s2 V2 _ S2 _ (-> & -> & _).
    cbn [negb andb]. eapply awp_bindF; [exact S1|apply (wp_ret g s1 V1 (fun a s' V' => a = g /\ s' = s1 /\ V' = V1)); [apply S1|auto]|].
    cbv beta. intros h s3 V3 _ S3 _ (-> & -> & ->). eapply Fin; eauto.
  - eapply awp_bindF; [exact S|apply (wp_ret f s V (fun a s' V' => a = f /\ s' = s /\ V' = V)); [apply S|auto]|].
    cbv beta. intros g s1 V1 _ S1 _ (-> & -> & ->).
    eapply awp_bindF; [exact S|apply (containsPBC_ok t); auto|]. cbv beta. intros b s2 V2 _ S2 _ (-> & -> & ->).
    destruct (pbfree t) eqn:Ep; cbn [negb andb].
    + eapply awp_bindF; [exact S|apply (wp_ret f s V (fun a s' V' => a = f /\ s' = s /\ V' = V)); [apply S|auto]|].
      cbv beta. intros h s3 V3 _ S3 _ (-> & -> & ->). apply pgTop_ok; auto.
    + eapply awp_bindF; [exact S|apply (NNF_ok (g_enc cfg) t s V f I Hd He)|]. cbv beta. intros g s3 V3 X3 S3 _ (u & D & N & R & _). eapply Fin; eauto.
Qed.
Lemma addFormulaAsCNF_ok f t s V w cs defs : sinv s V w cs defs [] -> Den s f t -> encodable (g_enc cfg) t -> goal G V t true ->
  awp (fun n => addFormulaAsCNF cfg k n f) s V w cs defs [] [] (fun _ s' V' w' cs' defs' => says (vnames w') cs' t true).
Proof.
  intros S Hd He HG. pose proof (si_winv _ _ _ _ _ _ _ _ _ _ S) as I. unfold addFormulaAsCNF. destruct (g_method cfg).
  - eapply awp_bindF; [exact S|apply (CNF_ok (g_enc cfg) (g_nf cfg) t s V f I Hd He)|]. cbv beta. intros g s1 V1 X1 S1 _ (u & D & N & R1 & R2 & _).
    eapply awp_conseq; [apply (addClauseSet_ok cfg k G stk hs g u); auto|].
    + intros b Hb Hg. apply R2; auto. apply HG; auto. apply X1; auto.
    + cbv beta. intros _ s2 V2 w2 cs2 defs2 _ _ _ H. eapply says_imp; [apply R1|exact H].
  - apply addCNFToSolver_ok; auto.
  - apply addCNFToSolver_ok; auto.
Qed.

(** ** Constraints *)
Lemma litLists_ok (X : string -> Prop) : forall cls s, wf s -> (forall c l, In c cls -> In l c -> exists x, nameOf (fst l) = Some x /\ X x) ->
  exists fs s', mapM (mapM litM) cls s = Some (fs, s') /\ lstep X s s' /\ Forall2 (Forall2 (litDen s')) fs (map (map named) cls).
Proof.
  induction cls as [|c cls IH]; intros s Hw Hc; [exists [], s; split; auto; split; [apply lstep_refl; auto|constructor]|].
  destruct (litsM_ok X c s Hw) as (f & s1 & E1 & L1 & D1); [intros l Hl; apply (Hc c l); auto; left; auto|].
  destruct (IH s1) as (fs & s2 & E2 & L2 & D2); [apply L1|intros; eapply Hc; eauto; right; auto|].
  exists (f :: fs), s2. split; [simpl; unfold bind; rewrite E1, E2; reflexivity|]. split; [eapply lstep_trans; eauto|].
  simpl. constructor; auto. destruct L2 as ((_ & E & _) & _). eapply litDen_ext; eauto.
Qed.
Lemma clauseLists_ok : forall cls s V w cs defs fs, sinv s V w cs defs [] -> Forall2 (Forall2 (litDen s)) fs (map (map named) cls) -> goal G V (TAnd (map clauseTree cls)) true ->
  awp (fun _ => eachS (fun c => ps <~ mapS (literalOf cfg) c ;; addClauseC k ps) fs) s V w cs defs [] []
    (fun _ s' V' w' cs' defs' => says (vnames w') cs' (TAnd (map clauseTree cls)) true).
Proof.
  induction cls as [|c cls IH]; intros s V w cs defs fs S F HG; inversion F as [|x y l r Fx Fl]; subst; cbn [eachS].
  - apply awp_ret; auto. intros b _. reflexivity.
  - assert (HG1 : goal G V (clauseTree c) true) by (intros b Hb Hg; specialize (HG b Hb Hg); simpl in HG; apply andb_true_iff in HG; tauto).
    assert (HG2 : goal G V (TAnd (map clauseTree cls)) true) by (intros b Hb Hg; specialize (HG b Hb Hg); simpl in HG; apply andb_true_iff in HG; tauto).
    assert (Any : forall b, existsb (eval_lit b) (map named c) = eval b (clauseTree c)).
    { intros b. rewrite eval_clauseTree. clear. induction c; simpl; auto. rewrite IHc; auto. }
    eapply awp_bind with (Q := fun _ s' V' w' cs' defs' => s' = s /\ V' = V /\ says (vnames w') cs' (clauseTree c) true); [|apply incl_refl|].
    + eapply awp_bind; [apply (literals_ok cfg G stk hs x (map named c)); auto|apply incl_refl|].
      cbv beta. intros ps s1 V1 w1 cs1 defs1 X1 S1 Gr1 (-> & -> & -> & -> & Ec & L).
      eapply awp_conseq with (Q := fun _ s' V' w' cs' defs' => s' = s /\ V' = V /\ vnames w' = vnames w1 /\ pgCache w' = pgCache w1 /\ defs' = defs /\ cs' = SatSpec.SomeOf ps :: cs).
      * apply awp_addClause; auto; [eapply litsFor_range; eauto|]. intros b Hb _ Hg. apply (litsFor_any _ _ _ b L). rewrite Any. auto.
      * cbv beta. intros _ s2 V2 w2 cs2 defs2 X2 S2 Gr2 (-> & -> & En & _ & -> & ->). 
        split; auto. split; auto.
        intros b M. rewrite <- Any. apply (litsFor_any _ _ _ b L). rewrite <- En. exact (M _ (or_introl eq_refl)).
    + cbv beta. intros _ s1 V1 w1 cs1 defs1 X1 S1 Gr1 (-> & -> & P1).
      eapply awp_conseq; [apply (IH s V w1 cs1 defs1 l); auto|]. cbv beta. intros _ s2 V2 w2 cs2 defs2 X2 S2 Gr2 P2 b M. simpl. apply andb_true_iff. split; [apply P1; eapply gr_mods; eauto|apply P2; auto].
Qed.
Lemma encodeOnSolver_ok f kk c rhs ls co s V w cs defs : sinv s V w cs defs [] -> Den s f (TPBC kk c rhs ls co) -> encodable (g_enc cfg) (TPBC kk c rhs ls co) -> goal G V (TPBC kk c rhs ls co) true ->
  awp (fun _ => encodeOnSolver cfg k f) s V w cs defs [] [] (fun _ s' V' w' cs' defs' => says (vnames w') cs' (TPBC kk c rhs ls co) true).
Proof.
  intros S Hd He HG. pose proof (si_winv _ _ _ _ _ _ _ _ _ _ S) as I. pose proof (v_wf _ _ I) as Hw.
  destruct (pbcOut_encodes (g_enc cfg) s f kk c rhs ls co Hw Hd He) as (P & Henc & HP).
  destruct (pbcOut (g_enc cfg) f (opPbc f s) s) as [cls n'] eqn:Eout.
  destruct (litLists_ok (isName cls) cls s Hw (encode_names _ _ _ _ Henc)) as (fs & s1 & E1 & L1 & D1).
  destruct (encode_winv0 s V cls n' _ P s1 I Henc HP (Den_names s f _ Hw Hd) eq_refl L1) as (V' & I' & X' & E' & R).
  assert (S' : sinv (setEncCtr n' s1) V' w cs defs []) by (eapply sinv_wext; eauto).
  assert (D' : Forall2 (Forall2 (litDen (setEncCtr n' s1))) fs (map (map named) cls)).
  { eapply Forall2_impl; [|exact D1]. intros a b F. eapply litDen_ext; eauto. }
  assert (HG' : goal G V' (TAnd (map clauseTree cls)) true). { intros b Hb Hg. apply R; auto. apply HG; auto. apply X'; auto. }
  destruct (clauseLists_ok cls _ _ w cs defs fs S' D' HG') as (n0 & r & En & H). exists n0, r. split.
  - intros n Hn. rewrite <- (En n Hn). unfold encodeOnSolver. unfold sbind at 1, liftF at 1, get at 1. unfold sbind at 1, liftF at 1, get at 1.
    change (match srt f with SCC => encodeCC (f_cc (g_enc cfg)) (p_cmp (opPbc f s)) (p_rhs (opPbc f s)) (map (elitOf s) (p_lits (opPbc f s))) (encCtr s)
      | _ => encodePBC (f_ord (g_enc cfg)) (f_pbc (g_enc cfg)) (f_cc (g_enc cfg)) (p_cmp (opPbc f s)) (p_rhs (opPbc f s)) (map (elitOf s) (p_lits (opPbc f s))) (p_coeffs (opPbc f s)) (encCtr s) end)
      with (pbcOut (g_enc cfg) f (opPbc f s) s). rewrite Eout. cbn [fst snd]. unfold sbind at 1, liftF at 1. rewrite E1. reflexivity.
  - destruct r as [a s' w'| |]; auto. destruct H as (V2 & cs2 & defs2 & X2 & S2 & Gr2 & Kp & HQ). exists V2, cs2, defs2.
    split; [eapply wext_trans; eauto|]. split; auto. split; [|split; auto].
    + eapply gr_trans; [|exact Gr2]. constructor; try apply incl_refl; try apply S; try apply X'. exists []. rewrite app_nil_r; auto.
    + eapply says_imp; [apply R|exact HQ].
Qed.

(** ** Cardinality constraints as at-most constraints of the solver *)
(** the variables of a constraint are distinct and stored in the order in which they were created *)
Definition ordered (s : state) (f : formula) : Prop := sortF (p_lits (opPbc f s)) = p_lits (opPbc f s) /\ NoDup (p_lits (opPbc f s)).
Definition addable (s : state) (f : formula) : Prop := g_atMost cfg = true -> srt f = SCC -> g_min cfg <> Sat.MinBasic /\ ordered s f.

Lemma constraintVector_ok f c rhs ls co s V w cs defs : sinv s V w cs defs [] -> Den s f (TPBC true c rhs ls co) -> ordered s f ->
  awp (fun _ => constraintVector cfg f (opPbc f s)) s V w cs defs [] [] (fun ps s' V' w' cs' defs' => s' = s /\ V' = V /\ cs' = cs /\ defs' = defs /\ pgCache w' = pgCache w /\
    Forall2 (litFor (vnames w')) ps ls /\ NoDup ps).
Proof.
  intros S Hd [Ho Hn]. pose proof (si_winv _ _ _ _ _ _ _ _ _ _ S) as I. pose proof (v_wf _ _ I) as Hw.
  destruct (opPbc_den s f true c rhs ls co Hw Hd) as (Hl & _). unfold constraintVector. rewrite Ho.
  eapply awp_bindF; [exact S|apply (wp_conseq (fun _ => put (fun s0 => if opsEquals (p_lits (opPbc f s)) (p_lits (opPbc f s)) then s0 else _)) s V (fun _ s' V' => s' = s /\ V' = V))|].
  - exists 0, tt, s, V. split; [|split; auto; split; [apply wext_refl|auto]]. intros n _. unfold put. destruct (opsEquals_spec (p_lits (opPbc f s)) (p_lits (opPbc f s))); [reflexivity|congruence].
  - intros a s' V' _ _ H. exact H.
  - cbv beta. intros _ s' V' _ S' _ (-> & ->). unfold generateClauseVector. rewrite Ho.
    eapply awp_conseq; [apply (literals_ok cfg G stk hs (p_lits (opPbc f s)) ls); auto|]. cbv beta. intros ps s2 V2 w2 cs2 defs2 _ _ _ (-> & -> & -> & -> & Ec & L).
    repeat (split; auto). clear - Hn Hl L Hw. revert ps L. induction Hl as [|g np gs nps Hg Hl IH]; intros ps L; inversion L as [|p q ps' r Lp Lps]; subst; constructor.
    + intros Ip. destruct (Forall2_in_l _ _ _ _ Lps Ip) as (np' & Inp & Lp'). assert (np' = np) as ->.
      { destruct Lp as [A1 A2], Lp' as [B1 B2]. destruct np, np'. simpl in *. rewrite A1 in B1. inversion B1; subst. rewrite A2 in B2. f_equal. destruct b, b0; auto; discriminate. }
      destruct (Forall2_in_r _ _ _ _ Hl Inp) as (g' & Ig & Dg). inversion Hn; subst. assert (g' = g) as -> by (apply (Den_inj s Hw (TLit np)); apply litDen_Den; auto). contradiction.
    + inversion Hn; subst. apply IH; auto.
Qed.
Lemma wsum_count b ls : wsum b ls (map (fun _ => 1%Z) ls) = Z.of_nat (length (filter (eval_lit b) ls)).
Proof. induction ls as [|l ls IH]; simpl; auto. rewrite IH. destruct (eval_lit b l); simpl length; lia. Qed.
Lemma filter_for b ns ps ls : Forall2 (litFor ns) ps ls -> length (filter (SatSpec.lit_true (view ns b)) ps) = length (filter (eval_lit b) ls).
Proof. induction 1 as [|p l ps ls H _ IH]; simpl; auto. rewrite (litFor_true _ _ _ b H). destruct (eval_lit b l); simpl; auto. Qed.
Lemma atMost_ok ps ls z s V w cs defs : sinv s V w cs defs [] -> Forall2 (litFor (vnames w)) ps ls -> NoDup ps -> forallb snd ls = true -> g_min cfg <> Sat.MinBasic ->
  (forall b, V b -> G b -> (Z.of_nat (length (filter (eval_lit b) ls)) <= z)%Z) ->
  awp (fun _ => addAtMostC k ps z) s V w cs defs [] [] (fun _ s' V' w' cs' defs' => s' = s /\ V' = V /\ vnames w' = vnames w /\ defs' = defs /\
    forall b, mods cs' (vnames w') b -> (Z.of_nat (length (filter (eval_lit b) ls)) <= z)%Z).
Proof.
  intros S L Hn Hp Hm HG. eapply awp_conseq; [apply awp_addAtMost; auto|].
  - eapply litsFor_range; eauto.
  - intros l Il. destruct (Forall2_in_l _ _ _ _ L Il) as (np & Inp & _ & E). rewrite E. rewrite forallb_forall in Hp. rewrite (Hp np Inp). auto.
  - intros b Hb _ Hg. simpl. rewrite (filter_for b _ _ _ L). auto.
  - cbv beta. intros _ s' V' w' cs' defs' _ _ _ (-> & -> & En & _ & -> & ->). repeat (split; auto). intros b M. pose proof (M _ (or_introl eq_refl)) as A. simpl in A. rewrite En, (filter_for b _ _ _ L) in A. auto.
Qed.

Lemma addWithProp_ok f t s V w cs defs : sinv s V w cs defs [] -> Den s f t -> encodable (g_enc cfg) t -> addable s f -> goal G V t true ->
  awp (fun n => addWithProp cfg k n f) s V w cs defs [] [] (fun _ s' V' w' cs' defs' => says (vnames w') cs' t true).
Proof.
  intros S Hd He Ha HG. pose proof (si_winv _ _ _ _ _ _ _ _ _ _ S) as I. pose proof (v_wf _ _ I) as Hw.
  assert (Dflt : awp (fun n => addFormulaAsCNF cfg k n f) s V w cs defs [] [] (fun _ s' V' w' cs' defs' => says (vnames w') cs' t true)) by (apply addFormulaAsCNF_ok; auto).
  unfold addWithProp. pose proof (Den_sort _ _ _ Hd) as Es. rewrite Es. destruct t; auto. destruct cc; cbv iota; [|apply encodeOnSolver_ok; auto].
  destruct (g_atMost cfg) eqn:Em; [|apply encodeOnSolver_ok; auto].
  destruct (Ha Em) as [Hm Ho]; [rewrite Es; auto|]. destruct (opPbc_den s f true c rhs ls cs0 Hw Hd) as (Hl & Hcs & Hr & Hc & _ & Hne & Hk & _). destruct (Hk eq_refl) as (Ecs & Hpos & Hrhs).
  apply (awp_get cfg G stk hs). cbv beta. rewrite Hc, Hr.
  assert (Ev : forall b, eval b (TPBC true c rhs ls cs0) = match c with EQ => Z.eqb (Z.of_nat (length (filter (eval_lit b) ls))) rhs | LE => Z.leb (Z.of_nat (length (filter (eval_lit b) ls))) rhs
     | LT => Z.ltb (Z.of_nat (length (filter (eval_lit b) ls))) rhs | GE => Z.leb rhs (Z.of_nat (length (filter (eval_lit b) ls))) | GT => Z.ltb rhs (Z.of_nat (length (filter (eval_lit b) ls))) end).
  { intros b. simpl. rewrite Ecs, wsum_count. destruct c; auto. }
  destruct c; auto.
  - destruct (Z.eqb_spec rhs 1) as [-> |Nr]; auto.
    eapply awp_bind; [apply (constraintVector_ok f EQ 1 ls cs0); auto|apply incl_refl|]. cbv beta. intros ps s1 V1 w1 cs1 defs1 X1 S1 Gr1 (-> & -> & -> & -> & Ec1 & L1 & N1).
    eapply awp_bind; [apply (atMost_ok ps ls 1); auto|apply incl_refl|].
    { intros b Hb Hg. specialize (HG b Hb Hg). rewrite Ev in HG. apply Z.eqb_eq in HG. lia. }
    cbv beta. intros _ s2 V2 w2 cs2 defs2 X2 S2 Gr2 (-> & -> & En2 & -> & P2).
    eapply awp_bind; [apply (constraintVector_ok f EQ 1 ls cs0); auto|apply incl_refl|]. cbv beta. intros qs s3 V3 w3 cs3 defs3 X3 S3 Gr3 (-> & -> & -> & -> & Ec3 & L3 & N3).
    assert (Some1 : forall b, existsb (eval_lit b) ls = true <-> (1 <= Z.of_nat (length (filter (eval_lit b) ls)))%Z).
    { intros b. clear. induction ls as [|l ls IH]; simpl; [split; [discriminate|lia]|]. destruct (eval_lit b l); simpl orb; [simpl length; split; [lia|auto]|exact IH]. }
    eapply awp_conseq; [apply awp_addClause; auto; [eapply litsFor_range; eauto|]|].
    + intros b Hb _ Hg. apply (litsFor_any _ _ _ b L3), Some1. specialize (HG b Hb Hg). rewrite Ev in HG. apply Z.eqb_eq in HG. lia.
    + cbv beta. intros _ s4 V4 w4 cs4 defs4 X4 S4 Gr4 (-> & -> & En4 & _ & -> & ->) b M. rewrite Ev. apply Z.eqb_eq.
      assert (A : (1 <= Z.of_nat (length (filter (eval_lit b) ls)))%Z). { apply Some1, (litsFor_any _ _ _ b L3). rewrite <- En4. exact (M _ (or_introl eq_refl)). }
      assert (M2 : mods cs2 (vnames w2) b). { eapply gr_mods; [exact Gr3|]. eapply gr_mods; eauto. } specialize (P2 b M2). lia.
  - eapply awp_bind; [apply (constraintVector_ok f LE rhs ls cs0); auto|apply incl_refl|]. cbv beta. intros ps s1 V1 w1 cs1 defs1 X1 S1 Gr1 (-> & -> & -> & -> & Ec1 & L1 & N1).
    eapply awp_conseq; [apply (atMost_ok ps ls rhs); auto|].
    + intros b Hb Hg. specialize (HG b Hb Hg). rewrite Ev in HG. apply Z.leb_le in HG. lia.
    + cbv beta. intros _ s2 V2 w2 cs2 defs2 X2 S2 Gr2 (-> & -> & En2 & -> & P2) b M. rewrite Ev. apply Z.leb_le, P2, M.
  - destruct (Z.ltb_spec 3 rhs) as [L3|L3]; auto.
    eapply awp_bind; [apply (constraintVector_ok f LT rhs ls cs0); auto|apply incl_refl|]. cbv beta. intros ps s1 V1 w1 cs1 defs1 X1 S1 Gr1 (-> & -> & -> & -> & Ec1 & L1 & N1).
    eapply awp_conseq; [apply (atMost_ok ps ls (rhs - 1)); auto|].
    + intros b Hb Hg. specialize (HG b Hb Hg). rewrite Ev in HG. apply Z.ltb_lt in HG. lia.
    + cbv beta. intros _ s2 V2 w2 cs2 defs2 X2 S2 Gr2 (-> & -> & En2 & -> & P2) b M. rewrite Ev. apply Z.ltb_lt. specialize (P2 b M). lia.
Qed.

Lemma opPbc_ext s s' f kk c rhs ls co : wf s -> wf s' -> ext s s' -> Den s f (TPBC kk c rhs ls co) -> opPbc f s' = opPbc f s.
Proof.
  intros [W T] [W' T'] X H. pose proof (Den_sort _ _ _ H) as Hs. apply Den_pbc_inv in H. destruct H as (p & Hn & _).
  assert (Hn' : node s' f = Some (if kk then ShCC p else ShPBC p)) by (apply X; auto).
  unfold opPbc, PBCOps. rewrite Hs. destruct kk; [apply node_ccs in Hn; apply node_ccs in Hn'|apply node_pbcs in Hn; apply node_pbcs in Hn']; auto; rewrite Hn, Hn'; auto.
Qed.
Lemma addable_ext s s' f t : wf s -> wf s' -> ext s s' -> Den s f t -> addable s f -> addable s' f.
Proof.
  intros W W' X D H E1 E2. destruct (H E1 E2) as [H1 H2]. split; auto. unfold ordered in *. rewrite (Den_sort _ _ _ D) in E2. destruct t; try discriminate. rewrite (opPbc_ext s s' f _ _ _ _ _ W W' X D). auto.
Qed.
Lemma add_ok : forall fs ts s V w cs defs, sinv s V w cs defs [] -> Forall2 (Den s) fs ts -> Forall (encodable (g_enc cfg)) ts -> Forall (addable s) fs -> (forall t, In t ts -> goal G V t true) ->
  awp (fun n => add cfg k n fs) s V w cs defs [] [] (fun _ s' V' w' cs' defs' => forall t, In t ts -> says (vnames w') cs' t true).
Proof.
  unfold add. induction fs as [|f fs IH]; intros ts s V w cs defs S F Fe Fa HG; inversion F as [|x t l r Df Dl]; subst; cbn [eachS]; [apply awp_ret; auto; intros t []|].
  inversion Fe; subst. inversion Fa; subst. eapply awp_bind; [apply (addWithProp_ok f t); auto; apply HG; left; auto|apply incl_refl|].
  cbv beta. intros _ s1 V1 w1 cs1 defs1 X1 S1 Gr1 P1.
  assert (W : wf s) by apply S. assert (W1 : wf s1) by apply S1.
  eapply awp_conseq; [apply (IH r s1 V1); auto|].
  - eapply ext_Dens; [apply X1|auto].
  - rewrite Forall_forall in *. intros g Ig. destruct (Forall2_in_l _ _ _ _ Dl Ig) as (u & _ & Du). eapply (addable_ext s s1 g u); eauto; apply X1.
  - intros u Iu. eapply goal_sub; [apply X1|apply HG; right; auto].
  - cbv beta. intros _ s2 V2 w2 cs2 defs2 X2 S2 Gr2 P2 u [<-|Iu]; auto. intros b M. apply P1. eapply gr_mods; eauto.
Qed.
End Add.
