(** * Proofs about the translation of formulas to clauses of a solver *)
From Coq Require Import String Ascii List Bool Arith ZArith NArith Lia.
From Verif Require Sat SatSpec SatProps.
From Verif Require Import Spec Factory FactoryProofs FactoryProofs2 FactoryProofs3 FactoryApi FactoryProps Assign NormalForm NfBase NfAssign NfEnc NfNnf NfCnf NfFun NfTseitin NfPg NfAig SatApi SatApiInv.
Import ListNotations.

(** the solver literal [l] stands for the named literal [np] *)
Definition litFor (ns : list string) (l : nat * bool) (np : lit) : Prop := nth_error ns (fst l) = Some (fst np) /\ snd l = negb (snd np).
Lemma litFor_range ns l np : litFor ns l np -> fst l < length ns.
Proof. intros [H _]. apply nth_error_Some. congruence. Qed.
Lemma litFor_true ns l np b : litFor ns l np -> SatSpec.lit_true (view ns b) l = eval_lit b np.
Proof.
  intros [H1 H2]. unfold SatSpec.lit_true, view, eval_lit. rewrite (nth_error_nth _ _ EmptyString H1), H2. destruct (snd np); simpl; auto.
Qed.
Lemma litFor_app ns r l np : litFor ns l np -> litFor (ns ++ r) l np.
Proof. intros [H1 H2]. split; auto. rewrite nth_error_app1; auto. apply nth_error_Some. congruence. Qed.
Lemma litsFor_any ns ls nps b : Forall2 (litFor ns) ls nps -> anyOf ns b ls <-> existsb (eval_lit b) nps = true.
Proof.
  induction 1 as [|l np ls nps H _ IH]; simpl; [rewrite anyOf_nil; split; [contradiction|discriminate]|].
  rewrite anyOf_cons, IH, (litFor_true _ _ _ b H), orb_true_iff. tauto.
Qed.
Lemma litsFor_range ns ls nps : Forall2 (litFor ns) ls nps -> inrange (length ns) ls.
Proof. intros H l I. destruct (Forall2_in_l _ _ _ _ H I) as (np & _ & L). eapply litFor_range; eauto. Qed.

(** what a list of solver literals says about a tree, with polarity *)
Record lok (V : asg -> Prop) (ns : list string) (cs : list SatSpec.constr) (defs : list (nat * tree)) (t : tree) (pol : bool) (ls : list (nat * bool)) : Prop := {
  lo_range : inrange (length ns) ls;
  lo_sound : forall b, mods cs ns b -> anyOf ns b ls -> eval b t = pol;
  lo_compl : forall b, V b -> defsOK defs b -> eval b t = pol -> anyOf ns b ls }.
Lemma lok_grow V ns cs defs V' ns' cs' defs' t pol ls : grows V ns cs defs V' ns' cs' defs' -> lok V ns cs defs t pol ls -> lok V' ns' cs' defs' t pol ls.
Proof.
  intros Gr [A B C]. constructor.
  - eapply inrange_le; [|exact A]. eapply gr_len; eauto.
  - intros b M T. apply B; [eapply gr_mods; eauto|]. eapply (gr_any _ _ _ _ _ _ _ _ b ls Gr A); auto.
  - intros b Hb Hd He. apply (gr_any _ _ _ _ _ _ _ _ b ls Gr A). apply C; auto; [apply Gr; auto|eapply gr_ok; eauto].
Qed.
Definition says (ns : list string) (cs : list SatSpec.constr) (t : tree) (pol : bool) : Prop := forall b, mods cs ns b -> eval b t = pol.
Lemma says_grow V ns cs defs V' ns' cs' defs' t pol : grows V ns cs defs V' ns' cs' defs' -> says ns cs t pol -> says ns' cs' t pol.
Proof. intros Gr H b M. apply H. eapply gr_mods; eauto. Qed.
Definition ctPost (V : asg -> Prop) (ns : list string) (cs : list SatSpec.constr) (defs : list (nat * tree)) (t : tree) (pol top : bool) (r : option (list (nat * bool))) : Prop :=
  match r with Some ls => lok V ns cs defs t pol ls | None => top = true /\ says ns cs t pol end.
Lemma ctPost_grow V ns cs defs V' ns' cs' defs' t pol top r : grows V ns cs defs V' ns' cs' defs' -> ctPost V ns cs defs t pol top r -> ctPost V' ns' cs' defs' t pol top r.
Proof. intros Gr. destruct r; simpl; [apply lok_grow; auto|]. intros [H1 H2]. split; auto. eapply says_grow; eauto. Qed.
Lemma ctPost_lits V ns cs defs t pol r : ctPost V ns cs defs t pol false r -> lok V ns cs defs t pol (lits r).
Proof. destruct r; simpl; auto. intros [H _]; discriminate. Qed.

Section Add.
Variables (cfg : satConfig) (k : nat) (G : asg -> Prop) (stk : list (Sat.saved * (nat * list SatSpec.constr))) (hs : list Sat.saved).
Notation sinv := (sinv cfg G stk hs).
Notation awp := (awp cfg G stk hs).

Lemma solverLiteral_ok x ph s V w cs defs O : sinv s V w cs defs O -> ~ freshN s x ->
  awp (fun _ => solverLiteral cfg x ph) s V w cs defs O O (fun l s' V' w' cs' defs' => s' = s /\ V' = V /\ cs' = cs /\ defs' = defs /\ pgCache w' = pgCache w /\ litFor (vnames w') l (x, ph)).
Proof.
  intros S Hf. unfold solverLiteral. apply (awp_getW cfg G stk hs). destruct (indexOf x (vnames w)) as [i|] eqn:E.
  - apply (awp_bret cfg G stk hs i). apply awp_ret; auto. repeat split; auto. simpl. apply indexOf_some; auto.
  - eapply awp_bind; [apply (awp_newNamed cfg G stk hs (fun _ => x) s V w cs defs O x); auto; apply indexOf_none; auto|apply incl_refl|].
    cbv beta. intros v s' V' w' cs' defs' X S' Gr (-> & -> & -> & -> & -> & Ew & Ec). apply awp_ret; auto. repeat split; auto.
    simpl. rewrite Ew, nth_error_app2, Nat.sub_diag; auto.
Qed.
Lemma lit_notfresh s V l np : winv s V -> litDen s l np -> ~ freshN s (fst np).
Proof. intros I H. apply (v_fresh _ _ I). eapply lit_name; eauto. apply I. Qed.
Lemma literalOf_ok l np s V w cs defs O : sinv s V w cs defs O -> litDen s l np ->
  awp (fun _ => literalOf cfg l) s V w cs defs O O (fun p s' V' w' cs' defs' => s' = s /\ V' = V /\ cs' = cs /\ defs' = defs /\ pgCache w' = pgCache w /\ litFor (vnames w') p np).
Proof.
  intros S Hl. pose proof (si_winv _ _ _ _ _ _ _ _ _ _ S) as I. unfold literalOf, namePhase. apply (awp_get cfg G stk hs).
  assert (E : literals s l = Some np). { destruct np as [x p]. apply (node_lit s l x p); auto. apply I. }
  rewrite E. destruct np as [x p]. simpl. eapply awp_conseq; [apply solverLiteral_ok; auto|].
  - apply (lit_notfresh s V l (x, p)); auto.
  - intros a s' V' w' cs' defs' _ _ _ H. exact H.
Qed.
Lemma literals_ok : forall ls nps s V w cs defs O, sinv s V w cs defs O -> Forall2 (litDen s) ls nps ->
  awp (fun _ => mapS (literalOf cfg) ls) s V w cs defs O O (fun ps s' V' w' cs' defs' => s' = s /\ V' = V /\ cs' = cs /\ defs' = defs /\ pgCache w' = pgCache w /\ Forall2 (litFor (vnames w')) ps nps).
Proof.
  induction ls as [|l ls IH]; intros nps s V w cs defs O S H; inversion H; subst; cbn [mapS].
  - apply awp_ret; auto. auto 8.
  - eapply awp_bind; [apply literalOf_ok; eauto|apply incl_refl|]. cbv beta. intros p s1 V1 w1 cs1 defs1 _ S1 Gr1 (-> & -> & -> & -> & Ec1 & L1).
    eapply awp_bind; [apply IH; eauto|apply incl_refl|]. cbv beta. intros ps s2 V2 w2 cs2 defs2 _ S2 Gr2 (-> & -> & -> & -> & Ec2 & L2).
    apply awp_ret; auto. repeat (split; auto); [congruence|]. constructor; auto. destruct (gr_ns _ _ _ _ _ _ _ _ Gr2) as [r ->]. apply litFor_app; auto.
Qed.

(** sorting *)
Lemma insF_in l ls x : In x (insF l ls) <-> x = l \/ In x ls.
Proof. induction ls as [|y r IH]; simpl; [intuition|]. destruct (N.leb _ _); simpl; [intuition|]. rewrite IH. intuition. Qed.
Lemma sortF_in ls x : In x (sortF ls) <-> In x ls.
Proof. induction ls as [|y r IH]; simpl; [tauto|]. rewrite insF_in, IH. intuition. Qed.
Lemma sortF_den s ls : (forall l, In l ls -> exists np, litDen s l np) -> exists nps, Forall2 (litDen s) (sortF ls) nps.
Proof.
  intros H. assert (H' : forall l, In l (sortF ls) -> exists np, litDen s l np) by (intros l I; apply H, sortF_in; auto).
  induction (sortF ls) as [|l r IH]; [exists []; constructor|]. destruct (H' l) as [np Hn]; [left; auto|]. destruct IH as [nps Hns]; [intros; apply H'; right; auto|]. exists (np :: nps). constructor; auto.
Qed.
Lemma clauseVector_ok ls s V w cs defs O : sinv s V w cs defs O -> (forall l, In l ls -> exists np, litDen s l np) ->
  awp (fun _ => generateClauseVector cfg ls) s V w cs defs O O (fun ps s' V' w' cs' defs' => s' = s /\ V' = V /\ cs' = cs /\ defs' = defs /\ pgCache w' = pgCache w /\
    exists nps, Forall2 (litFor (vnames w')) ps nps /\ Forall2 (litDen s) (sortF ls) nps).
Proof.
  intros S H. unfold generateClauseVector. destruct (sortF_den s ls H) as [nps Hn]. eapply awp_conseq; [apply literals_ok; eauto|].
  cbv beta. intros ps s' V' w' cs' defs' _ _ _ (-> & -> & -> & -> & E & F). repeat (split; auto). exists nps. auto.
Qed.

(** clauses *)
Definition goal (V : asg -> Prop) (t : tree) (pol : bool) : Prop := forall b, V b -> G b -> eval b t = pol.
Lemma goal_sub (V V' : asg -> Prop) t pol : (forall b, V' b -> V b) -> goal V t pol -> goal V' t pol.
Proof. intros H HG b Hb. apply HG; auto. Qed.
Definition clauseT (t : tree) : bool := match t with TFalse => true | _ => is_clause t end.
Lemma clause_lits b t : clauseT t = true -> (eval b t = true <-> exists np, lit_occurs np t /\ eval_lit b np = true).
Proof.
  destruct t; simpl; try discriminate; intros H.
  - split; [discriminate|intros (np & [] & _)].
  - split; [intros E; eauto|intros (np & -> & E); auto].
  - induction ts as [|t ts IH]; simpl in *; [split; [discriminate|intros (np & [] & _)]|]. apply andb_true_iff in H. destruct H as [Ht Hts].
    destruct t as [| |l| | | | | |]; try discriminate. simpl. rewrite orb_true_iff, IH; auto. split.
    + intros [E|(np & I & E)]; eauto.
    + intros (np & [-> |I] & E); eauto.
Qed.
Lemma addClauseF_ok f t s V w cs defs O : sinv s V w cs defs O -> Den s f t -> clauseT t = true -> goal V t true ->
  awp (fun n => addClauseF cfg k n f) s V w cs defs O O (fun _ s' V' w' cs' defs' => says (vnames w') cs' t true).
Proof.
  intros S Hd Hc HG. pose proof (si_winv _ _ _ _ _ _ _ _ _ _ S) as I. unfold addClauseF.
  eapply awp_bindF; [exact S|apply (atomSet_ok true t s V f I Hd)|]. cbv beta. intros ls s1 V1 X1 S1 _ (nps & H1 & H2 & H3).
  eapply awp_bind; [apply clauseVector_ok; eauto|apply incl_refl|].
  { intros l Il. destruct (Forall2_in_l _ _ _ _ H1 Il) as (np & _ & L). eauto. }
  cbv beta. intros ps s2 V2 w2 cs2 defs2 _ S2 Gr2 (-> & -> & -> & -> & Ec & nqs & L1 & L2).
  assert (Any : forall b, existsb (eval_lit b) nqs = true <-> eval b t = true).
  { intros b. rewrite (clause_lits b t Hc), existsb_exists. split; intros (np & Ip & E); exists np; (split; [|exact E]).
    - destruct (Forall2_in_r _ _ _ _ L2 Ip) as (l & Il & Dl). apply (proj1 (sortF_in _ _)) in Il. destruct (Forall2_in_l _ _ _ _ H1 Il) as (np' & Inp & Dl').
      rewrite (litDen_fun _ _ _ _ Dl Dl'). apply H3; auto.
    - apply H3 in Ip. destruct (Forall2_in_r _ _ _ _ H1 Ip) as (l & Il & Dl). apply (proj2 (sortF_in _ _)) in Il. destruct (Forall2_in_l _ _ _ _ L2 Il) as (np' & Inp & Dl').
      rewrite (litDen_fun _ _ _ _ Dl Dl'). auto. }
  eapply awp_conseq; [apply awp_addClause; auto|].
  - eapply litsFor_range; eauto.
  - intros b Hb Hdf Hg. apply (litsFor_any _ _ _ b L1), Any. apply HG; auto. apply X1; auto.
  - cbv beta. intros a s3 V3 w3 cs3 defs3 _ _ _ (-> & -> & En & _ & -> & ->) b M. rewrite En in M. apply Any, (litsFor_any _ _ _ b L1). exact (M _ (or_introl eq_refl)).
Qed.

(** loops *)
Section Loop.
Context {B : Type}.
Variables (h : nat -> formula -> SM B) (P : tree -> B -> (asg -> Prop) -> list string -> list SatSpec.constr -> list (nat * tree) -> Prop) (O : list formula).
Hypothesis Pgrow : forall t r V ns cs defs V' ns' cs' defs', grows V ns cs defs V' ns' cs' defs' -> P t r V ns cs defs -> P t r V' ns' cs' defs'.
Lemma mapS_ok : forall ts fs s0 V0 s V w cs defs, wext s0 V0 s V -> sinv s V w cs defs O -> Forall2 (Den s0) fs ts ->
  (forall f t s V w cs defs, In f fs -> In t ts -> wext s0 V0 s V -> sinv s V w cs defs O -> Den s f t -> awp (fun n => h n f) s V w cs defs O O (fun r s' V' w' cs' defs' => P t r V' (vnames w') cs' defs')) ->
  awp (fun n => mapS (h n) fs) s V w cs defs O O (fun rs s' V' w' cs' defs' => Forall2 (fun t r => P t r V' (vnames w') cs' defs') ts rs).
Proof.
  induction ts as [|t ts IH]; intros fs s0 V0 s V w cs defs X S D H; inversion D; subst; cbn [mapS]; [apply awp_ret; auto|].
  eapply awp_bind; [apply (H x t); auto; [left; auto|left; auto|eapply wext_Den; eauto]|apply incl_refl|]. cbv beta. intros r s1 V1 w1 cs1 defs1 X1 S1 Gr1 P1.
  eapply awp_bind; [apply (IH l s0 V0 s1 V1); auto; [eapply wext_trans; eauto|]|apply incl_refl|].
  { intros f t' s2 V2 w2 cs2 defs2 I1 I2 X2 S2 D2. apply H; auto; right; auto. }
  cbv beta. intros rs s2 V2 w2 cs2 defs2 X2 S2 Gr2 P2. apply awp_ret; auto. constructor; auto. eapply Pgrow; eauto.
Qed.
End Loop.
Section Loop2.
Variables (h : nat -> formula -> SM Datatypes.unit) (P : tree -> (asg -> Prop) -> list string -> list SatSpec.constr -> list (nat * tree) -> Prop) (O : list formula).
Hypothesis Pgrow : forall t V ns cs defs V' ns' cs' defs', grows V ns cs defs V' ns' cs' defs' -> P t V ns cs defs -> P t V' ns' cs' defs'.
Lemma eachS_ok : forall ts fs s0 V0 ns0 cs0 defs0 s V w cs defs, wext s0 V0 s V -> grows V0 ns0 cs0 defs0 V (vnames w) cs defs -> sinv s V w cs defs O -> Forall2 (Den s0) fs ts ->
  (forall f t s V w cs defs, In f fs -> In t ts -> wext s0 V0 s V -> grows V0 ns0 cs0 defs0 V (vnames w) cs defs -> sinv s V w cs defs O -> Den s f t -> awp (fun n => h n f) s V w cs defs O O (fun _ s' V' w' cs' defs' => P t V' (vnames w') cs' defs')) ->
  awp (fun n => eachS (h n) fs) s V w cs defs O O (fun _ s' V' w' cs' defs' => Forall (fun t => P t V' (vnames w') cs' defs') ts).
Proof.
  induction ts as [|t ts IH]; intros fs s0 V0 ns0 cs0 defs0 s V w cs defs X Gr S D H; inversion D; subst; cbn [eachS]; [apply awp_ret; auto|].
  eapply awp_bind; [apply (H x t); auto; [left; auto|left; auto|eapply wext_Den; eauto]|apply incl_refl|]. cbv beta. intros r s1 V1 w1 cs1 defs1 X1 S1 Gr1 P1.
  eapply awp_conseq; [apply (IH l s0 V0 ns0 cs0 defs0 s1 V1); auto; [eapply wext_trans; eauto|eapply gr_trans; eauto|]|].
  { intros f t' s2 V2 w2 cs2 defs2 I1 I2 X2 Gr2 S2 D2. apply H; auto; right; auto. }
  cbv beta. intros rs s2 V2 w2 cs2 defs2 X2 S2 Gr2 P2. constructor; auto. eapply Pgrow; eauto.
Qed.
End Loop2.

Lemma addClauseSet_ok f t s V w cs defs O : sinv s V w cs defs O -> Den s f t -> is_cnf t = true -> goal V t true ->
  awp (fun n => addClauseSet cfg k n f) s V w cs defs O O (fun _ s' V' w' cs' defs' => says (vnames w') cs' t true).
Proof.
  intros S Hd Hc HG. pose proof (si_winv _ _ _ _ _ _ _ _ _ _ S) as I. unfold addClauseSet. rewrite (Den_sort _ _ _ Hd).
  destruct t; try discriminate.
  - apply addClauseF_ok; auto.
  - apply awp_ret; auto. intros b _. reflexivity.
  - apply addClauseF_ok; auto.
  - apply (awp_get cfg G stk hs). eapply awp_conseq.
    + apply (eachS_ok (fun n => addClauseF cfg k n) (fun t V ns cs defs => says ns cs t true) O) with (ts := ts) (s0 := s) (V0 := V) (ns0 := vnames w) (cs0 := cs) (defs0 := defs); auto.
      * intros. eapply says_grow; eauto.
      * apply wext_refl.
      * apply gr_refl. apply S.
      * apply opNary_and; auto. apply I.
      * intros g u s1 V1 w1 cs1 defs1 _ Iu X1 _ S1 D1. simpl in Hc. rewrite forallb_forall in Hc. specialize (Hc u Iu). apply addClauseF_ok; auto; [destruct u; auto|].
        intros b Hb Hg. assert (E : eval b (TAnd ts) = true) by (apply HG; auto; apply X1; auto). simpl in E. rewrite forallb_forall in E. auto.
    + cbv beta. intros _ s1 V1 w1 cs1 defs1 _ _ _ F b M. simpl. apply forallb_forall. intros u Iu. rewrite Forall_forall in F. apply (F u Iu b M).
  - apply addClauseF_ok; auto.
Qed.

(** ** Plaisted-Greenbaum *)
Lemma pgVarName_eq i : pgVarName i = pgName i. Proof. reflexivity. Qed.
Lemma lit_pg ns v b q : nth_error ns v = Some (pgName v) -> SatSpec.lit_true (view ns b) (v, q) = if q then negb (b (pgName v)) else b (pgName v).
Proof. intros E. unfold SatSpec.lit_true, view. simpl. rewrite (nth_error_nth _ _ EmptyString E). auto. Qed.
Lemma pg_range (ns : list string) v x : nth_error ns v = Some x -> v < length ns.
Proof. intros E. apply nth_error_Some. congruence. Qed.
Lemma getPGVar_ok f t pol s V w cs defs O : sinv s V w cs defs O -> Den s f t -> ~ In f O ->
  awp (fun _ => getPGVar cfg f pol) s V w cs defs O (f :: O) (fun r s' V' w' cs' defs' => s' = s /\ V' = V /\
    exists pos neg, In (snd r, t) defs' /\ pgCache w' f = Some (snd r, (if pol then true else pos), (if pol then neg else true)) /\
      flagsOK (vnames w') cs' (snd r) t pos neg /\ fst r = if pol then pos else neg).
Proof.
  intros S Hd Hn. unfold getPGVar. apply (awp_getW cfg G stk hs). pose proof S as [I R C D]. destruct (pgCache w f) as [[[v pos] neg]|] eqn:E.
  - apply (awp_bret cfg G stk hs (v, pos, neg)). destruct (D f v pos neg E) as (t' & Dt & Iv & Fl). assert (t' = t) as -> by (eapply Den_fun; eauto).
    exists 0. eexists. split; [intros n _; reflexivity|]. exists V, cs, defs. cbn [vnames pgCache fst snd]. split; [apply wext_refl|]. split; [|split; [apply gr_refl; apply C|split]].
    + constructor; auto. simpl. intros g p pos' neg' Eg. destruct (feqb_spec g f) as [-> |Nf].
      * inversion Eg; subst. exists t. split; auto. split; auto. intros H. exfalso. apply H. left; auto.
      * destruct (D g p pos' neg' Eg) as (u & Du & Iu & Fu). exists u. split; auto. split; auto. intros H. apply Fu. intros H'. apply H. right; auto.
    + intros g Hg. destruct (feqb_spec g f) as [-> |Nf]; auto. contradiction.
    + split; auto. split; auto. exists pos, neg. split; auto. split; [destruct (feqb_spec f f); congruence|]. split; auto.
  - assert (Px : awp (fun n => v <~ newNamed cfg pgVarName;; sret (v, false, false)) s V w cs defs O O
       (fun e s' V' w' cs' defs' => s' = s /\ V' = V /\ cs' = cs /\ defs' = defs /\ e = (length (vnames w), false, false) /\ vnames w' = vnames w ++ [pgName (length (vnames w))] /\ pgCache w' = pgCache w)).
    { eapply awp_bind; [apply (awp_newNamed cfg G stk hs pgVarName s V w cs defs O (pgName (length (vnames w)))); auto; eapply pg_notin; eauto|apply incl_refl|].
      cbv beta. intros v s' V' w' cs' defs' X S' Gr (-> & -> & -> & -> & -> & Ew & Ec). apply awp_ret; auto 8. }
    eapply awp_bind; [exact Px|apply incl_refl|]. cbv beta. intros e s' V' w' cs' defs' X S' Gr (-> & -> & -> & -> & -> & Ew & Ec). clear Px.
    pose proof S' as [I' R' C' D']. set (v := length (vnames w)) in *.
    assert (Ev : nth_error (vnames w') v = Some (pgName v)). { rewrite Ew, nth_error_app2, Nat.sub_diag; auto. }
    exists 0. eexists. split; [intros n _; reflexivity|]. exists V, cs, ((v, t) :: defs). cbn [vnames pgCache fst snd]. split; [apply wext_refl|].
    assert (Gr' : grows V (vnames w') cs defs V (vnames w') cs ((v, t) :: defs)).
    { constructor; auto; [exists []; rewrite app_nil_r; auto|apply incl_refl|apply incl_tl, incl_refl|apply C']. }
    split; [|split; [exact Gr'|split]].
    + constructor; auto; simpl.
      * destruct C' as [C1 C2 C3 C4 C5 C6]. assert (Nv : forall u, ~ In (v, u) defs). { intros u Iu. destruct (ct_defs _ _ _ _ _ _ C _ _ Iu) as [Eu _]. apply pg_range in Eu. unfold v in Eu. lia. }
        constructor; auto.
        -- intros p u [Eq|Iu]; [inversion Eq; subst|auto]. split; auto. intros x Ho. apply (v_fresh _ _ I). eapply Den_names; eauto. apply I.
        -- intros p u u' [Eq|Iu] [Eq'|Iu']; try (inversion Eq; subst); try (inversion Eq'; subst); auto; try (exfalso; eapply Nv; eauto; fail). eapply C5; eauto.
        -- intros b Hb Hdf. apply C6; auto. intros p u Iu. apply Hdf. right; auto.
      * intros g p pos' neg' Eg. destruct (feqb_spec g f) as [-> |Nf].
        -- inversion Eg; subst. exists t. split; auto. split; [left; auto|]. intros H. exfalso. apply H. left; auto.
        -- destruct (D' g p pos' neg' Eg) as (u & Du & Iu & Fu). exists u. split; auto. split; [right; auto|]. intros H. apply Fu. intros H'. apply H. right; auto.
    + intros g Hg. destruct (feqb_spec g f) as [-> |Nf]; auto. contradiction.
    + split; auto. split; auto. exists false, false. split; [left; auto|]. split; [destruct (feqb_spec f f); congruence|]. split; [|destruct pol; auto].
      intros b _. split; discriminate.
Qed.
Lemma sinv_close s V w cs defs O f t v pos neg : sinv s V w cs defs (f :: O) -> Den s f t -> pgCache w f = Some (v, pos, neg) -> flagsOK (vnames w) cs v t pos neg -> sinv s V w cs defs O.
Proof.
  intros [I R C D] Hd E F. constructor; auto. intros g p pos' neg' Eg. destruct (D g p pos' neg' Eg) as (u & Du & Iu & Fu). exists u. split; auto. split; auto.
  intros Ng. destruct (feqb_spec g f) as [-> |Nf].
  - rewrite E in Eg. inversion Eg; subst. assert (u = t) as -> by (eapply Den_fun; eauto). auto.
  - apply Fu. intros [H|H]; auto.
Qed.
Lemma awp_close {A} (a : A) s V w cs defs O f t v pos neg (Q : A -> state -> (asg -> Prop) -> solver -> list SatSpec.constr -> list (nat * tree) -> Prop) :
  sinv s V w cs defs (f :: O) -> Den s f t -> pgCache w f = Some (v, pos, neg) -> flagsOK (vnames w) cs v t pos neg -> Q a s V w cs defs ->
  awp (fun _ => sret a) s V w cs defs (f :: O) O Q.
Proof.
  intros S Hd E F HQ. exists 0, (SRet a s w). split; auto. exists V, cs, defs. split; [apply wext_refl|]. split; [eapply sinv_close; eauto|]. split; [apply gr_refl; apply S|]. auto.
Qed.
Lemma lok_pg s V w cs defs O t v pol : sinv s V w cs defs O -> In (v, t) defs -> (forall b, mods cs (vnames w) b -> b (pgName v) = pol -> eval b t = pol) ->
  lok V (vnames w) cs defs t pol [(v, negb pol)].
Proof.
  intros S Iv F. destruct (ct_defs _ _ _ _ _ _ (si_content _ _ _ _ _ _ _ _ _ _ S) _ _ Iv) as [Ev _]. constructor.
  - intros l [<-|[]]. simpl. eapply pg_range; eauto.
  - intros b M (l & [<-|[]] & T). rewrite (lit_pg _ _ _ _ Ev) in T. apply F; auto. destruct pol; simpl in T; auto. apply negb_true_iff in T. auto.
  - intros b Hb Hdf E. exists (v, negb pol). split; [left; auto|]. rewrite (lit_pg _ _ _ _ Ev). rewrite (Hdf _ _ Iv), E. destruct pol; auto.
Qed.
Lemma flags_pol ns cs v t pos neg (pol : bool) b : flagsOK ns cs v t pos neg -> (if pol then pos else neg) = true -> mods cs ns b -> b (pgName v) = pol -> eval b t = pol.
Proof. intros F E M H. destruct (F b M) as [F1 F2]. destruct pol; auto. Qed.
Lemma flags_set ns cs v t pos neg (pol : bool) : flagsOK ns cs v t pos neg -> (forall b, mods cs ns b -> b (pgName v) = pol -> eval b t = pol) ->
  flagsOK ns cs v t (if pol then true else pos) (if pol then neg else true).
Proof. intros F H b M. destruct (F b M) as [F1 F2]. destruct pol; split; auto. Qed.

Lemma addTop_ok t pol r s V w cs defs O : sinv s V w cs defs O -> ctPost V (vnames w) cs defs t pol true r -> goal V t pol ->
  awp (fun _ => addTop k r) s V w cs defs O O (fun _ s' V' w' cs' defs' => says (vnames w') cs' t pol).
Proof.
  intros S H HG. destruct r as [ls|]; simpl in *; [|apply awp_ret; tauto]. destruct H as [H1 H2 H3].
  eapply awp_conseq; [apply awp_addClause; auto|].
  cbv beta. intros _ s' V' w' cs' defs' _ _ Gr (-> & -> & En & _ & -> & ->) b M. rewrite En in *. apply H2; [eapply gr_mods; eauto|]. exact (M _ (or_introl eq_refl)).
Qed.

(** no constants and no constraints *)
Fixpoint nice (t : tree) : bool :=
  match t with
  | TLit _ => true
  | TNot t => nice t
  | TAnd ts | TOr ts => forallb nice ts
  | TImpl a b | TEquiv a b => nice a && nice b
  | _ => false
  end.
Definition above (s : state) (O : list formula) (t : tree) : Prop := forall g, In g O -> exists u, Den s g u /\ tsize t < tsize u.
Lemma above_notin s O t f : Den s f t -> above s O t -> ~ In f O.
Proof. intros D H I. destruct (H f I) as (u & Du & L). rewrite (Den_fun _ _ _ _ D Du) in L. lia. Qed.
Lemma above_sub s V s' V' O t u : wext s V s' V' -> above s O t -> tsize u <= tsize t -> above s' O u.
Proof. intros X H L g I. destruct (H g I) as (v & Dv & Lv). exists v. split; [eapply wext_Den; eauto|lia]. Qed.
Lemma above_cons s V s' V' O t u f : wext s V s' V' -> above s O t -> Den s f t -> tsize u < tsize t -> above s' (f :: O) u.
Proof. intros X H D L g [<-|I]; [exists t; split; [eapply wext_Den; eauto|auto]|]. eapply above_sub; eauto. lia. Qed.
Lemma awp_keep {A} (m : nat -> SM A) s V w cs defs O O' Q : awp m s V w cs defs O O' Q ->
  awp m s V w cs defs O O' (fun a s' V' w' cs' defs' => Q a s' V' w' cs' defs' /\ forall g, In g O -> pgCache w' g = pgCache w g).
Proof.
  intros (n0 & r & E & H). exists n0, r. split; auto. destruct r as [a s' w'| |]; auto.
  destruct H as (V' & cs' & defs' & X & S & Gr & Kp & HQ). exists V', cs', defs'. repeat (split; auto).
Qed.

Definition CT (t : tree) : Prop := forall s V w cs defs O f pol top, sinv s V w cs defs O -> Den s f t -> above s O t -> (top = true -> goal V t pol) ->
  awp (fun n => computeTransformation cfg k n f pol top) s V w cs defs O O (fun r s' V' w' cs' defs' => ctPost V' (vnames w') cs' defs' t pol top r).

(** a subformula variable and one of the clauses that define it *)
Lemma pgClause_ok s V w cs defs O v t u pol ls : sinv s V w cs defs O -> In (v, t) defs -> lok V (vnames w) cs defs u pol ls ->
  forall pol', (forall b, eval b t = pol' -> eval b u = pol) ->
  awp (fun _ => addClauseC k ((v, pol') :: ls)) s V w cs defs O O
    (fun _ s' V' w' cs' defs' => s' = s /\ V' = V /\ vnames w' = vnames w /\ pgCache w' = pgCache w /\ defs' = defs /\ forall b, mods cs' (vnames w') b -> b (pgName v) = pol' -> eval b u = pol).
Proof.
  intros S Iv [L1 L2 L3] pol' Hu. destruct (ct_defs _ _ _ _ _ _ (si_content _ _ _ _ _ _ _ _ _ _ S) _ _ Iv) as [Ev _].
  eapply awp_conseq; [apply awp_addClause; auto|].
  - intros l [<-|Il]; [simpl; eapply pg_range; eauto|auto].
  - intros b Hb Hdf Hg. apply anyOf_cons. rewrite (lit_pg _ _ _ _ Ev), (Hdf _ _ Iv). destruct (Bool.bool_dec (eval b t) pol') as [E|E].
    + right. apply L3; auto.
    + left. destruct pol', (eval b t); auto; congruence.
  - cbv beta. intros _ s' V' w' cs' defs' _ _ Gr (-> & -> & En & Ec & -> & ->). repeat (split; auto). intros b M E. rewrite En in *.
    pose proof (M _ (or_introl eq_refl)) as A. change (anyOf (vnames w) b ((v, pol') :: ls)) in A. apply anyOf_cons in A. rewrite (lit_pg _ _ _ _ Ev), E in A.
    destruct A as [A|A]; [destruct pol'; discriminate|]. apply L2; auto. eapply gr_mods; eauto.
Qed.

Definition oneOf (k' : fsort) (pol : bool) : bool := match k' with SAnd => negb pol | _ => pol end.
Lemma nary_one b k' ts pol : dual k' -> oneOf k' pol = true -> (eval b (mk k' ts) = pol <-> exists u, In u ts /\ eval b u = pol).
Proof.
  intros [-> | ->]; simpl; intros H.
  - apply negb_true_iff in H. subst pol. induction ts as [|t ts IH]; simpl; [split; [discriminate|intros (u & [] & _)]|].
    rewrite andb_false_iff, IH. split; [intros [E|(u & I & E)]; eauto|intros (u & [->|I] & E); eauto].
  - subst pol. rewrite existsb_exists. tauto.
Qed.
Lemma nary_all b k' ts pol : dual k' -> oneOf k' pol = false -> (eval b (mk k' ts) = pol <-> forall u, In u ts -> eval b u = pol).
Proof.
  intros [-> | ->]; simpl; intros H.
  - apply negb_false_iff in H. subst pol. rewrite forallb_forall. tauto.
  - subst pol. induction ts as [|t ts IH]; simpl; [split; auto; intros _ u []|].
    rewrite orb_false_iff, IH. split; [intros [E F] u [<-|I]; auto|intros F; auto].
Qed.
Lemma tsize_mk k' u ts : dual k' -> In u ts -> tsize u < tsize (mk k' ts).
Proof. intros [-> | ->] H; apply tsize_in in H; simpl; lia. Qed.

Lemma wlits_any b ns ts rs pol V cs defs : Forall2 (fun t r => ctPost V ns cs defs t pol false r) ts rs ->
  inrange (length ns) (flat_map lits rs) /\
  (mods cs ns b -> anyOf ns b (flat_map lits rs) -> exists u, In u ts /\ eval b u = pol) /\
  (V b -> defsOK defs b -> (exists u, In u ts /\ eval b u = pol) -> anyOf ns b (flat_map lits rs)).
Proof.
  induction 1 as [|t r ts rs H _ IH]; simpl; [split; [intros l []|split; [intros _ A; apply anyOf_nil in A; contradiction|intros _ _ (u & [] & _)]]|].
  apply ctPost_lits in H. destruct H as [L1 L2 L3]. destruct IH as (I1 & I2 & I3). split; [apply inrange_app; auto|]. split.
  - intros M A. apply anyOf_more in A. destruct A as [A|A]; [exists t; split; auto|]. destruct (I2 M A) as (u & Iu & Eu). exists u. auto.
  - intros Hb Hd (u & [->|Iu] & Eu); apply anyOf_more; [left; auto|right]. apply I3; eauto.
Qed.

Lemma ct_nary k' ts : dual k' -> Forall CT ts -> CT (mk k' ts).
Proof.
  intros Hk IH s V w cs defs O f pol top S Hd Ha HG. pose proof (si_winv _ _ _ _ _ _ _ _ _ _ S) as I. pose proof (v_wf _ _ I) as Hw.
  pose proof (opNary_mk k' s f ts Hk Hw Hd) as Hops.
  apply awp_S. cbn [computeTransformation].
  assert (Es : srt f = k') by (rewrite (Den_sort _ _ _ Hd); destruct Hk as [-> | ->]; reflexivity).
  pose (body := fun n => c <~ (if top || oneOf k' pol then sret (false, 0) else getPGVar cfg f pol) ;;
      if fst c then sret (Some [(snd c, negb pol)]) else
      ops <~ liftF (get (opNary f)) ;;
      if oneOf k' pol then ls <~ mapS (fun op => computeTransformation cfg k n op pol false) ops ;; sret (Some (flat_map lits ls))
      else _ <~ eachS (fun op => l <~ computeTransformation cfg k n op pol top ;; if top then addTop k l else addClauseC k (notL (snd c, negb pol) :: lits l)) ops ;;
           sret (if top then None else Some [(snd c, negb pol)])).
  assert (B : awp body s V w cs defs O O (fun r s' V' w' cs' defs' => ctPost V' (vnames w') cs' defs' (mk k' ts) pol top r)).
  2:{ destruct B as (n0 & r & E & H). exists n0, r. split; auto. intros n Hn. rewrite <- (E n Hn). unfold body. rewrite Es. destruct Hk as [-> | ->]; reflexivity. }
  rewrite Forall_forall in IH. unfold body. clear body. destruct (oneOf k' pol) eqn:E1.
  - rewrite orb_true_r. apply (awp_bret cfg G stk hs (false, 0)). cbn [fst snd]. apply (awp_get cfg G stk hs). cbv beta.
    eapply awp_bind; [|apply incl_refl|].
    + apply (mapS_ok (fun n op => computeTransformation cfg k n op pol false) (fun t r V ns cs defs => ctPost V ns cs defs t pol false r) O) with (ts := ts) (s0 := s) (V0 := V); auto.
      * intros. eapply ctPost_grow; eauto.
      * apply wext_refl.
      * intros g u s1 V1 w1 cs1 defs1 _ Iu X1 S1 D1. apply IH; auto; [|discriminate]. eapply above_sub; eauto. pose proof (tsize_mk k' u ts Hk Iu). lia.
    + cbv beta. intros rs s1 V1 w1 cs1 defs1 X1 S1 Gr1 F. apply awp_ret; auto. simpl. constructor.
      * apply (wlits_any (fun _ => true) _ _ _ _ _ _ _ F).
      * intros b M A. apply (nary_one b k' ts pol Hk E1). eapply wlits_any; eauto.
      * intros b Hb Hdf E. apply (nary_one b k' ts pol Hk E1) in E. eapply wlits_any; eauto.
  - rewrite orb_false_r. destruct top.
    + apply (awp_bret cfg G stk hs (false, 0)). cbn [fst snd]. apply (awp_get cfg G stk hs). cbv beta. specialize (HG eq_refl).
      eapply awp_bind; [|apply incl_refl|].
      * apply (eachS_ok (fun n op => l <~ computeTransformation cfg k n op pol true ;; addTop k l) (fun t V ns cs defs => says ns cs t pol) O)
          with (ts := ts) (s0 := s) (V0 := V) (ns0 := vnames w) (cs0 := cs) (defs0 := defs); auto.
        -- intros. eapply says_grow; eauto.
        -- apply wext_refl.
        -- apply gr_refl. apply S.
        -- intros g u s1 V1 w1 cs1 defs1 _ Iu X1 _ S1 D1.
           assert (HGu : goal V1 u pol). { intros b Hb Hg. eapply (nary_all b k' ts pol Hk E1); [apply HG; auto; apply X1; auto|auto]. }
           eapply awp_bind; [apply (IH u Iu s1 V1 w1 cs1 defs1 O g pol true); auto; eapply above_sub; eauto; pose proof (tsize_mk k' u ts Hk Iu); lia|apply incl_refl|].
           cbv beta. intros r s2 V2 w2 cs2 defs2 X2 S2 Gr2 P. apply addTop_ok; auto. eapply goal_sub; [apply X2|auto].
      * cbv beta. intros _ s1 V1 w1 cs1 defs1 X1 S1 Gr1 F. apply awp_ret; auto. simpl. split; auto. intros b M. apply (nary_all b k' ts pol Hk E1). intros u Iu. rewrite Forall_forall in F. apply F; auto.
    + eapply awp_bind; [apply (getPGVar_ok f (mk k' ts) pol s V w cs defs O S Hd); eapply above_notin; eauto|apply incl_tl, incl_refl|].
      cbv beta. intros [was v] s1 V1 w1 cs1 defs1 X1 S1 Gr1 (-> & -> & pos & neg & Iv & Ec & Fl & Ew). cbn [fst snd] in *. subst was. destruct (if pol then pos else neg) eqn:Eq.
      * eapply awp_close; eauto; [apply flags_set; auto; intros b M H; eapply flags_pol; eauto|]. simpl. eapply lok_pg; eauto. intros b M H. eapply flags_pol; eauto.
      * apply (awp_get cfg G stk hs). cbv beta.
        eapply awp_bind; [apply awp_keep|apply incl_refl|].
        -- apply (eachS_ok (fun n op => l <~ computeTransformation cfg k n op pol false ;; addClauseC k (notL (v, negb pol) :: lits l))
             (fun t V ns cs defs => forall b, mods cs ns b -> b (pgName v) = pol -> eval b t = pol) (f :: O))
             with (ts := ts) (s0 := s) (V0 := V) (ns0 := vnames w1) (cs0 := cs1) (defs0 := defs1); auto.
           ++ intros t0 V0 ns cs0 defs0 V' ns' cs' defs' Gr P b M. apply P. eapply gr_mods; eauto.
           ++ apply gr_refl. apply S1.
           ++ intros g u s2 V2 w2 cs2 defs2 _ Iu X2 Gr2 S2 D2.
              eapply awp_bind; [apply (IH u Iu s2 V2 w2 cs2 defs2 (f :: O) g pol false); auto; [eapply above_cons; eauto; apply tsize_mk; auto|discriminate]|apply incl_refl|].
              cbv beta. intros r s3 V3 w3 cs3 defs3 X3 S3 Gr3 P. unfold notL. cbn [fst snd]. rewrite negb_involutive.
              eapply awp_conseq; [apply (pgClause_ok s3 V3 w3 cs3 defs3 (f :: O) v (mk k' ts) u pol (lits r)); auto|].
              ** eapply gr_defs; [exact Gr3|]. eapply gr_defs; [exact Gr2|]. auto.
              ** apply ctPost_lits; auto.
              ** intros b E. eapply (nary_all b k' ts pol Hk E1); eauto.
              ** cbv beta. intros _ s4 V4 w4 cs4 defs4 _ _ _ H. apply H.
        -- cbv beta. intros _ s2 V2 w2 cs2 defs2 X2 S2 Gr2 (F & Kp).
           assert (Al : forall b, mods cs2 (vnames w2) b -> b (pgName v) = pol -> eval b (mk k' ts) = pol).
           { intros b M H. apply (nary_all b k' ts pol Hk E1). intros u Iu. rewrite Forall_forall in F. apply (F u Iu b); auto. }
           eapply awp_close; eauto.
           ++ eapply wext_Den; [exact X2|]. eauto.
           ++ rewrite Kp; [eauto|left; auto].
           ++ apply flags_set; auto. eapply flags_grow; eauto.
           ++ simpl. eapply lok_pg; eauto. eapply gr_defs; eauto.
Qed.

Lemma ct_lit l : CT (TLit l).
Proof.
  intros s V w cs defs O f pol top S Hd Ha HG. pose proof (si_winv _ _ _ _ _ _ _ _ _ _ S) as I.
  apply awp_S. cbn [computeTransformation]. rewrite (Den_sort _ _ _ Hd).
  eapply awp_bind; [apply (literalOf_ok f l); auto; inversion Hd; subst; auto|apply incl_refl|].
  cbv beta. intros p s' V' w' cs' defs' X S' Gr (-> & -> & -> & -> & Ec & L). apply awp_ret; auto. simpl.
  assert (E : forall b, anyOf (vnames w') b [if pol then p else notL p] <-> eval b (TLit l) = pol).
  { intros b. rewrite anyOf_cons, anyOf_nil. simpl. rewrite <- (litFor_true _ _ _ b L). destruct pol; [tauto|].
    unfold SatSpec.lit_true, notL. simpl. destruct (snd p), (view (vnames w') b (fst p)); simpl; intuition congruence. }
  constructor.
  - intros q [<-|[]]. destruct pol; simpl; eapply litFor_range; eauto.
  - intros b _. apply E.
  - intros b _ _. apply E.
Qed.
Lemma ct_not t : CT t -> CT (TNot t).
Proof.
  intros IH s V w cs defs O f pol top S Hd Ha HG. pose proof (si_winv _ _ _ _ _ _ _ _ _ _ S) as I.
  apply awp_S. cbn [computeTransformation]. rewrite (Den_sort _ _ _ Hd). apply (awp_get cfg G stk hs). cbv beta.
  eapply awp_conseq; [apply IH; auto; [apply opNot_den; auto; apply I|apply (above_sub s V s V _ _ _ (wext_refl s V) Ha); simpl; lia|]|].
  - intros Ht b Hb Hg. specialize (HG Ht b Hb Hg). simpl in HG. destruct (eval b t), pol; simpl in *; congruence.
  - cbv beta. intros r s' V' w' cs' defs' _ _ _ P. assert (E : forall b, eval b (TNot t) = pol <-> eval b t = negb pol) by (intros b; simpl; destruct (eval b t), pol; simpl; intuition congruence).
    destruct r as [ls|]; simpl in *.
    + destruct P as [P1 P2 P3]. constructor; auto; intros b; intros; [apply E; auto|apply P3; auto; apply E; auto].
    + destruct P as [P1 P2]. split; auto. intros b M. apply E. apply P2; auto.
Qed.
Lemma clause2_ok pre a pa la b pb lb s V w cs defs O : sinv s V w cs defs O -> inrange (length (vnames w)) pre -> lok V (vnames w) cs defs a pa la -> lok V (vnames w) cs defs b pb lb ->
  (forall c, V c -> defsOK defs c -> G c -> anyOf (vnames w) c pre \/ eval c a = pa \/ eval c b = pb) ->
  awp (fun _ => addClauseC k (pre ++ la ++ lb)) s V w cs defs O O
    (fun _ s' V' w' cs' defs' => s' = s /\ V' = V /\ vnames w' = vnames w /\ defs' = defs /\ forall c, mods cs' (vnames w') c -> anyOf (vnames w') c pre \/ eval c a = pa \/ eval c b = pb).
Proof.
  intros S Hp [L1 L2 L3] [M1 M2 M3] H. eapply awp_conseq; [apply awp_addClause; auto|].
  - apply inrange_app. split; auto. apply inrange_app. auto.
  - intros c Hc Hd Hg. rewrite !anyOf_more. destruct (H c Hc Hd Hg) as [A|[A|A]]; auto.
  - cbv beta. intros _ s' V' w' cs' defs' _ _ Gr (-> & -> & En & _ & -> & ->). repeat (split; auto). intros c M. rewrite En in *.
    pose proof (M _ (or_introl eq_refl)) as A. change (anyOf (vnames w) c (pre ++ la ++ lb)) in A. rewrite !anyOf_more in A.
    assert (M' : mods cs (vnames w) c) by (eapply gr_mods; eauto). destruct A as [A|[A|A]]; auto.
Qed.

Lemma ct_impl t u : CT t -> CT u -> CT (TImpl t u).
Proof.
  intros IHt IHu s V w cs defs O f pol top S Hd Ha HG. pose proof (si_winv _ _ _ _ _ _ _ _ _ _ S) as I. pose proof (v_wf _ _ I) as Hw.
  destruct (opBin_impl s f t u Hw Hd) as [D1 D2]. set (fl := fst (opBin f s)) in *. set (fr := snd (opBin f s)) in *.
  apply awp_S. cbn [computeTransformation]. rewrite (Den_sort _ _ _ Hd). cbv iota. destruct pol.
  - cbn [orb]. apply (awp_bret cfg G stk hs (false, 0)). cbn [fst snd]. apply (awp_get cfg G stk hs). cbv beta. fold fl fr.
    eapply awp_bind; [apply (IHt s V w cs defs O fl false false); auto; [apply (above_sub s V s V _ _ _ (wext_refl s V) Ha); simpl; lia|discriminate]|apply incl_refl|].
    cbv beta. intros l s1 V1 w1 cs1 defs1 X1 S1 Gr1 P1.
    eapply awp_bind; [apply (IHu s1 V1 w1 cs1 defs1 O fr true false); auto; [eapply wext_Den; eauto|eapply above_sub; eauto; simpl; lia|discriminate]|apply incl_refl|].
    cbv beta. intros r s2 V2 w2 cs2 defs2 X2 S2 Gr2 P2. apply awp_ret; auto. simpl.
    apply (ctPost_grow _ _ _ _ _ _ _ _ _ _ _ _ Gr2) in P1. apply ctPost_lits in P1. apply ctPost_lits in P2. destruct P1 as [A1 A2 A3], P2 as [B1 B2 B3]. constructor.
    + apply inrange_app; auto.
    + intros b M A. simpl. apply anyOf_more in A. destruct A as [A|A]; [rewrite (A2 b M A); auto|rewrite (B2 b M A); destruct (eval b t); auto].
    + intros b Hb Hdf E. apply anyOf_more. simpl in E. destruct (eval b t) eqn:Et; [right; apply B3; auto|left; apply A3; auto].
  - assert (El : forall b, eval b (TImpl t u) = false <-> eval b t = true /\ eval b u = false).
    { intros b. simpl. destruct (eval b t), (eval b u); simpl; intuition congruence. }
    cbn [orb]. destruct top.
    + apply (awp_bret cfg G stk hs (false, 0)). cbn [fst snd]. apply (awp_get cfg G stk hs). cbv beta. fold fl fr. specialize (HG eq_refl).
      assert (HGt : goal V t true) by (intros b Hb Hg; apply El, HG; auto). assert (HGu : goal V u false) by (intros b Hb Hg; apply El, HG; auto).
      eapply awp_bind; [apply (IHt s V w cs defs O fl true true); auto; apply (above_sub s V s V _ _ _ (wext_refl s V) Ha); simpl; lia|apply incl_refl|].
      cbv beta. intros l s1 V1 w1 cs1 defs1 X1 S1 Gr1 P1.
      assert (HGu1 : goal V1 u false) by (eapply goal_sub; [apply X1|auto]).
      eapply awp_bind; [apply (IHu s1 V1 w1 cs1 defs1 O fr false true); auto; [eapply wext_Den; eauto|eapply above_sub; eauto; simpl; lia]|apply incl_refl|].
      cbv beta. intros r s2 V2 w2 cs2 defs2 X2 S2 Gr2 P2.
      eapply awp_bind; [apply (addTop_ok t true l _ V2); [exact S2|eapply ctPost_grow; eauto|exact (goal_sub _ _ _ _ (fun b Hb => x_sub _ _ _ _ X1 _ (x_sub _ _ _ _ X2 _ Hb)) HGt)]|apply incl_refl|].
      cbv beta. intros _ s3 V3 w3 cs3 defs3 X3 S3 Gr3 P3.
      eapply awp_bind; [apply (addTop_ok u false r _ V3); [exact S3|eapply ctPost_grow; eauto|exact (goal_sub _ _ _ _ (fun b Hb => x_sub _ _ _ _ X2 _ (x_sub _ _ _ _ X3 _ Hb)) HGu1)]|apply incl_refl|].
      cbv beta. intros _ s4 V4 w4 cs4 defs4 X4 S4 Gr4 P4. apply awp_ret; auto. simpl. split; auto. intros b M. apply El. split; [|apply P4; auto]. apply P3. eapply gr_mods; eauto.
    + eapply awp_bind; [apply (getPGVar_ok f (TImpl t u) false s V w cs defs O S Hd); eapply above_notin; eauto|apply incl_tl, incl_refl|].
      cbv beta. intros [was v] s1 V1 w1 cs1 defs1 X1 S1 Gr1 (-> & -> & pos & neg & Iv & Ec & Fl & Ew). cbn [fst snd] in *. subst was. destruct neg eqn:Eq.
      * eapply awp_close; eauto. simpl. apply (lok_pg s V w1 cs1 defs1 (f :: O) (TImpl t u) v false); auto. intros b M H. apply (Fl b M); auto.
      * apply (awp_get cfg G stk hs). cbv beta. fold fl fr.
        eapply awp_bind; [apply awp_keep; apply (IHt s V w1 cs1 defs1 (f :: O) fl true false); auto; [eapply above_cons; eauto; simpl; lia|discriminate]|apply incl_refl|].
        cbv beta. intros l s2 V2 w2 cs2 defs2 X2 S2 Gr2 [P2 K2].
        eapply awp_bind; [apply awp_keep; apply (IHu s2 V2 w2 cs2 defs2 (f :: O) fr false false); auto; [eapply wext_Den; eauto|eapply above_cons; eauto; simpl; lia|discriminate]|apply incl_refl|].
        cbv beta. intros r s3 V3 w3 cs3 defs3 X3 S3 Gr3 [P3 K3].
        eapply awp_bind; [apply awp_keep; apply (pgClause_ok s3 V3 w3 cs3 defs3 (f :: O) v (TImpl t u) t true (lits l)) with (pol' := false); auto|apply incl_refl|].
        { eapply gr_defs; [exact Gr3|]. eapply gr_defs; [exact Gr2|]. auto. }
        { apply ctPost_lits. eapply ctPost_grow; eauto. }
        { intros b E. apply El; auto. }
        cbv beta. intros _ s4 V4 w4 cs4 defs4 X4 S4 Gr4 ((-> & -> & En4 & Ec4 & -> & P4) & K4).
        eapply awp_bind; [apply awp_keep; apply (pgClause_ok s3 V3 w4 cs4 defs3 (f :: O) v (TImpl t u) u false (lits r)) with (pol' := false); auto|apply incl_refl|].
        { eapply gr_defs; [exact Gr3|]. eapply gr_defs; [exact Gr2|]. auto. }
        { apply ctPost_lits. eapply ctPost_grow; eauto. }
        { intros b E. apply El; auto. }
        cbv beta. intros _ s5 V5 w5 cs5 defs5 X5 S5 Gr5 ((-> & -> & En5 & Ec5 & -> & P5) & K5).
        assert (Al : forall b, mods cs5 (vnames w5) b -> b (pgName v) = false -> eval b (TImpl t u) = false).
        { intros b M H. apply El. split; [|apply P5; auto]. apply P4; auto. eapply gr_mods; eauto. }
        assert (Gr : grows V (vnames w1) cs1 defs1 V3 (vnames w5) cs5 defs3) by (repeat (eapply gr_trans; eauto)).
        eapply awp_close; [exact S5|eapply wext_Den; [exact X3|eapply wext_Den; eauto]| | |].
        -- rewrite K5, K4, K3, K2; eauto; left; auto.
        -- apply (flags_set _ _ _ _ pos false false); auto. eapply flags_grow; eauto.
        -- simpl. apply (lok_pg s3 V3 w5 cs5 defs3 (f :: O) (TImpl t u) v false); auto. eapply gr_defs; eauto.
Qed.
Lemma ct_equiv t u : CT t -> CT u -> CT (TEquiv t u).
Proof.
  intros IHt IHu s V w cs defs O f pol top S Hd Ha HG. pose proof (si_winv _ _ _ _ _ _ _ _ _ _ S) as I. pose proof (v_wf _ _ I) as Hw.
  destruct (opBin_equiv s f t u Hw Hd) as [D1 D2]. set (fl := fst (opBin f s)) in *. set (fr := snd (opBin f s)) in *.
  assert (El : forall b, eval b (TEquiv t u) = pol <-> (eval b t = negb pol \/ eval b u = true) /\ (eval b t = pol \/ eval b u = false)).
  { intros b. simpl. destruct (eval b t), (eval b u), pol; simpl; intuition congruence. }
  apply awp_S. cbn [computeTransformation]. rewrite (Den_sort _ _ _ Hd). cbv iota.
  (* the operands and the two clauses, for a list of literals in front *)
  assert (Body : forall w0 cs0 defs0 O0 pre, sinv s V w0 cs0 defs0 O0 -> above s O0 t -> above s O0 u -> inrange (length (vnames w0)) pre ->
    (forall V' b, (forall b, V' b -> V b) -> V' b -> forall defs', incl defs0 defs' -> defsOK defs' b -> G b -> anyOf (vnames w0) b pre \/ eval b (TEquiv t u) = pol) ->
    awp (fun n => lp <~ computeTransformation cfg k n fl true false ;; ln <~ computeTransformation cfg k n fl false false ;;
                  rp <~ computeTransformation cfg k n fr true false ;; rn <~ computeTransformation cfg k n fr false false ;;
                  (if pol then _ <~ addClauseC k (pre ++ lits ln ++ lits rp) ;; addClauseC k (pre ++ lits lp ++ lits rn)
                   else _ <~ addClauseC k (pre ++ lits lp ++ lits rp) ;; addClauseC k (pre ++ lits ln ++ lits rn)))
      s V w0 cs0 defs0 O0 O0 (fun _ s' V' w' cs' defs' => forall b, mods cs' (vnames w') b -> anyOf (vnames w') b pre \/ eval b (TEquiv t u) = pol)).
  { intros w0 cs0 defs0 O0 pre S0 At Au Rp Hpre.
    eapply awp_bind; [apply (IHt s V w0 cs0 defs0 O0 fl true false); auto; discriminate|apply incl_refl|].
    cbv beta. intros lp s1 V1 w1 cs1 defs1 X1 S1 Gr1 P1.
    eapply awp_bind; [apply (IHt s1 V1 w1 cs1 defs1 O0 fl false false); auto; [eapply wext_Den; eauto|eapply above_sub; [exact X1|exact At|auto]|discriminate]|apply incl_refl|].
    cbv beta. intros ln s2 V2 w2 cs2 defs2 X2 S2 Gr2 P2. assert (Xa : wext s V s2 V2) by (eapply wext_trans; eauto).
    eapply awp_bind; [apply (IHu s2 V2 w2 cs2 defs2 O0 fr true false); auto; [eapply wext_Den; eauto|eapply above_sub; [exact Xa|exact Au|auto]|discriminate]|apply incl_refl|].
    cbv beta. intros rp s3 V3 w3 cs3 defs3 X3 S3 Gr3 P3. assert (Xb : wext s V s3 V3) by (eapply wext_trans; eauto).
    eapply awp_bind; [apply (IHu s3 V3 w3 cs3 defs3 O0 fr false false); auto; [eapply wext_Den; eauto|eapply above_sub; [exact Xb|exact Au|auto]|discriminate]|apply incl_refl|].
    cbv beta. intros rn s4 V4 w4 cs4 defs4 X4 S4 Gr4 P4. assert (Xc : wext s V s4 V4) by (eapply wext_trans; eauto).
    assert (Gr : grows V (vnames w0) cs0 defs0 V4 (vnames w4) cs4 defs4) by (eapply gr_trans; [exact Gr1|]; eapply gr_trans; [exact Gr2|]; eapply gr_trans; eauto).
    assert (L1 : lok V4 (vnames w4) cs4 defs4 t true (lits lp)). { apply ctPost_lits. eapply ctPost_grow; [|exact P1]. eapply gr_trans; [exact Gr2|]. eapply gr_trans; eauto. }
    assert (L2 : lok V4 (vnames w4) cs4 defs4 t false (lits ln)). { apply ctPost_lits. eapply ctPost_grow; [|exact P2]. eapply gr_trans; eauto. }
    assert (L3 : lok V4 (vnames w4) cs4 defs4 u true (lits rp)). { apply ctPost_lits. eapply ctPost_grow; [|exact P3]. auto. }
    assert (L4 : lok V4 (vnames w4) cs4 defs4 u false (lits rn)). { apply ctPost_lits. auto. }
    assert (Rp4 : inrange (length (vnames w4)) pre) by (eapply inrange_le; [eapply gr_len; eauto|auto]).
    assert (Hp : forall b, V4 b -> defsOK defs4 b -> G b -> anyOf (vnames w4) b pre \/ ((eval b t = negb pol \/ eval b u = true) /\ (eval b t = pol \/ eval b u = false))).
    { intros b Hb Hdf Hg. destruct (Hpre V4 b (gr_V _ _ _ _ _ _ _ _ Gr) Hb defs4 (gr_defs _ _ _ _ _ _ _ _ Gr) Hdf Hg) as [A|A]; [left; eapply gr_any; eauto|right; apply El; auto]. }
    assert (Q : awp (fun n => _ <~ addClauseC k (pre ++ lits (if pol then ln else lp) ++ lits rp) ;; addClauseC k (pre ++ lits (if pol then lp else ln) ++ lits rn)) s4 V4 w4 cs4 defs4 O0 O0
       (fun _ s' V' w' cs' defs' => forall b, mods cs' (vnames w') b -> anyOf (vnames w') b pre \/ eval b (TEquiv t u) = pol)).
    { eapply awp_bind; [apply (clause2_ok pre t (negb pol) (lits (if pol then ln else lp)) u true (lits rp)); auto; [destruct pol; auto|]|apply incl_refl|].
      { intros b Hb Hdf Hg. destruct (Hp b Hb Hdf Hg) as [A|[A _]]; auto. }
      cbv beta. intros _ s5 V5 w5 cs5 defs5 X5 S5 Gr5 (-> & -> & En5 & -> & P5).
      eapply awp_conseq; [apply (clause2_ok pre t pol (lits (if pol then lp else ln)) u false (lits rn)); auto|].
      - rewrite En5; auto.
      - eapply lok_grow; [exact Gr5|]. destruct pol; auto.
      - eapply lok_grow; eauto.
      - intros b Hb Hdf Hg. rewrite En5. destruct (Hp b Hb Hdf Hg) as [A|[_ A]]; auto.
      - cbv beta. intros _ s6 V6 w6 cs6 defs6 X6 S6 Gr6 (-> & -> & En6 & -> & P6) b M. destruct (P6 b M) as [A|A]; [auto|].
        assert (M5 : mods cs5 (vnames w5) b) by (eapply gr_mods; eauto). destruct (P5 b M5) as [B|B]; [left; rewrite En6; auto|right; apply El; auto]. }
    destruct pol; exact Q. }
  assert (Sh : forall (c : bool * nat) w0 cs0 defs0 O0 Q, awp (fun n => _ <~ (lp <~ computeTransformation cfg k n fl true false ;; ln <~ computeTransformation cfg k n fl false false ;;
                  rp <~ computeTransformation cfg k n fr true false ;; rn <~ computeTransformation cfg k n fr false false ;;
                  (if pol then _ <~ addClauseC k ((if top then [] else [notL (snd c, negb pol)]) ++ lits ln ++ lits rp) ;; addClauseC k ((if top then [] else [notL (snd c, negb pol)]) ++ lits lp ++ lits rn)
                   else _ <~ addClauseC k ((if top then [] else [notL (snd c, negb pol)]) ++ lits lp ++ lits rp) ;; addClauseC k ((if top then [] else [notL (snd c, negb pol)]) ++ lits ln ++ lits rn))) ;;
                  sret (if top then None else Some [(snd c, negb pol)])) s V w0 cs0 defs0 O0 O Q ->
        awp (fun n => lp <~ computeTransformation cfg k n fl true false ;; ln <~ computeTransformation cfg k n fl false false ;; rp <~ computeTransformation cfg k n fr true false ;; rn <~ computeTransformation cfg k n fr false false ;;
      let pre := if top then [] else [notL (snd c, negb pol)] in
      _ <~ (if pol then _ <~ addClauseC k (pre ++ lits ln ++ lits rp) ;; addClauseC k (pre ++ lits lp ++ lits rn)
            else _ <~ addClauseC k (pre ++ lits lp ++ lits rp) ;; addClauseC k (pre ++ lits ln ++ lits rn)) ;;
      sret (if top then None else Some [(snd c, negb pol)])) s V w0 cs0 defs0 O0 O Q).
  { intros c w0 cs0 defs0 O0 Q (n0 & r & E & H). exists n0, r. split; auto. intros n Hn. rewrite <- (E n Hn). unfold sbind.
    destruct (computeTransformation cfg k n fl true false s w0) as [lp s1 w1| |]; auto. destruct (computeTransformation cfg k n fl false false s1 w1) as [ln s2 w2| |]; auto.
    destruct (computeTransformation cfg k n fr true false s2 w2) as [rp s3 w3| |]; auto. destruct (computeTransformation cfg k n fr false false s3 w3) as [rn s4 w4| |]; auto. }
  destruct top.
  - apply (awp_bret cfg G stk hs (false, 0)). cbn [fst]. apply (awp_get cfg G stk hs). cbv beta. fold fl fr. apply (Sh (false, 0)).
    eapply awp_bind; [apply (Body w cs defs O []); auto|apply incl_refl|].
    + apply (above_sub s V s V _ _ _ (wext_refl s V) Ha); simpl; lia.
    + apply (above_sub s V s V _ _ _ (wext_refl s V) Ha); simpl; lia.
    + intros l [].
    + intros V' b Hs Hb defs' _ _ Hg. right. apply HG; auto.
    + cbv beta. intros _ s1 V1 w1 cs1 defs1 X1 S1 Gr1 P1. apply awp_ret; auto. simpl. split; auto. intros b M. destruct (P1 b M) as [A|A]; auto. apply anyOf_nil in A. contradiction.
  - eapply awp_bind; [apply (getPGVar_ok f (TEquiv t u) pol s V w cs defs O S Hd); eapply above_notin; eauto|apply incl_tl, incl_refl|].
    cbv beta. intros [was v] s1 V1 w1 cs1 defs1 X1 S1 Gr1 (-> & -> & pos & neg & Iv & Ec & Fl & Ew). cbn [fst] in *. subst was. destruct (if pol then pos else neg) eqn:Eq.
    + eapply awp_close; eauto; [apply flags_set; auto; intros b M H; eapply flags_pol; eauto|]. simpl. eapply lok_pg; eauto. intros b M H. eapply flags_pol; eauto.
    + apply (awp_get cfg G stk hs). cbv beta. fold fl fr. apply (Sh (false, v)). cbn [snd] in *.
      destruct (ct_defs _ _ _ _ _ _ (si_content _ _ _ _ _ _ _ _ _ _ S1) _ _ Iv) as [Ev _].
      assert (Ep : forall ns b, nth_error ns v = Some (pgName v) -> anyOf ns b [notL (v, negb pol)] <-> b (pgName v) <> pol).
      { intros ns b En. rewrite anyOf_cons, anyOf_nil. unfold notL. cbn [fst snd]. rewrite (lit_pg _ _ _ _ En). destruct pol, (b (pgName v)); simpl; intuition congruence. }
      eapply awp_bind; [apply awp_keep; apply (Body w1 cs1 defs1 (f :: O) [notL (v, negb pol)]); auto|apply incl_refl|].
      * eapply above_cons; eauto; simpl; lia.
      * eapply above_cons; eauto; simpl; lia.
      * intros l [<-|[]]. simpl. eapply pg_range; eauto.
      * intros V' b Hs Hb defs' Hi Hdf Hg. rewrite (Ep _ b Ev). rewrite (Hdf v _ (Hi _ Iv)). destruct (Bool.bool_dec (eval b (TEquiv t u)) pol); auto.
      * cbv beta. intros _ s2 V2 w2 cs2 defs2 X2 S2 Gr2 [P2 K2].
        assert (Ev2 : nth_error (vnames w2) v = Some (pgName v)). { destruct (gr_ns _ _ _ _ _ _ _ _ Gr2) as [r ->]. rewrite nth_error_app1; auto. eapply pg_range; eauto. }
        assert (Al : forall b, mods cs2 (vnames w2) b -> b (pgName v) = pol -> eval b (TEquiv t u) = pol).
        { intros b M H. destruct (P2 b M) as [A|A]; auto. apply (Ep _ b Ev2) in A. contradiction. }
        eapply awp_close; [exact S2|eapply wext_Den; eauto| | |].
        -- rewrite K2; [eauto|left; auto].
        -- apply flags_set; auto. eapply flags_grow; eauto.
        -- simpl. eapply lok_pg; eauto. eapply gr_defs; eauto.
Qed.

Lemma computeTransformation_ok t : nice t = true -> CT t.
Proof.
  induction t using tree_ind'; simpl; intros Hn; try discriminate.
  - apply ct_lit.
  - apply ct_not; auto.
  - apply (ct_nary SAnd); [left; auto|]. rewrite forallb_forall in Hn. rewrite Forall_forall in *. auto.
  - apply (ct_nary SOr); [right; auto|]. rewrite forallb_forall in Hn. rewrite Forall_forall in *. auto.
  - apply andb_true_iff in Hn. apply ct_impl; tauto.
  - apply andb_true_iff in Hn. apply ct_equiv; tauto.
Qed.
End Add.
