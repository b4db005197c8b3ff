(** * Proofs about the MaxSAT solver on formulas *)
From Coq Require Import String Ascii List Bool Arith ZArith NArith Lia DecimalString.
From Verif Require SatSpec SatProps.
From Verif Require Import MaxSpec MaxSat MaxBase MaxAlg MaxRun.
From Verif Require Import Spec Factory FactoryProofs FactoryProofs2 FactoryProofs3 FactoryApi FactoryProps Assign AssignProps EncSpec EncApi EncPbc EncProps NormalForm NfBase NfAssign NfEnc NfNnf NfCnf NfFun NfTseitin NfPg NfAig NfApi NfProps SatApi SatApiInv SatApiPg MaxApi.
Import ListNotations.
Local Close Scope N_scope.

(** ** Clauses over names *)
Lemma true_in_any ns b c : true_in (view ns b) c = true <-> anyOf ns b c.
Proof. unfold true_in, anyOf. rewrite existsb_exists. split; intros (l & I & T); eauto. Qed.
Lemma agree_view ns l b : MaxBase.agree (length ns) (view (ns ++ l) b) (view ns b).
Proof. intros v L. apply view_app; auto. Qed.
Lemma feasible_agree nv P a b : wfP nv P -> MaxBase.agree nv a b -> feasible P a -> feasible P b.
Proof. intros [W _] A F c I. rewrite <- (true_in_agree nv a b c A); auto. Qed.
Lemma cost_agree nv P a b : wfP nv P -> MaxBase.agree nv a b -> cost P a = cost P b.
Proof.
  intros [_ W] A. unfold cost, costs. f_equal. apply map_ext_in. intros wc I. rewrite (true_in_agree nv a b (snd wc) A); auto.
Qed.
Lemma feasible_grow P c a : feasible (grow P [c] []) a <-> feasible P a /\ true_in a c = true.
Proof.
  unfold feasible, grow. cbn [p_hard]. split.
  - intros H. split; [intros d I|]; apply H, in_or_app; [left; auto|right; left; auto].
  - intros [H1 H2] d I. apply in_app_or in I as [I|[<-|[]]]; auto.
Qed.

Section Inv.
Variables (alg : algo) (HH : list (mstate * (nat * problem))).
(** the soft clauses are the given weighted names *)
Definition softIs (ns : list string) (wc : nat * list (nat * bool)) (q : nat * string) : Prop := fst wc = fst q /\ exists j, snd wc = [(j, false)] /\ nth_error ns j = Some (snd q).
Record mok (V : asg -> Prop) (w : maxw) (P : problem) (G : asg -> Prop) (sels : list (nat * string)) : Prop := {
  mo_reach : reach alg (mcore w) (length (mnames w)) P HH;
  mo_nodup : NoDup (mnames w);
  mo_sound : forall b, feasible P (view (mnames w) b) -> G b;
  mo_compl : forall b, V b -> G b -> feasible P (view (mnames w) b);
  mo_soft : Forall2 (softIs (mnames w)) (p_soft P) sels }.

Lemma softIs_app ns l wc q : softIs ns wc q -> softIs (ns ++ l) wc q.
Proof. intros (A & j & B & C). split; auto. exists j. split; auto. rewrite nth_error_app1; auto. apply nth_error_Some. congruence. Qed.
Lemma mok_wf V w P G sels : mok V w P G sels -> wfP (length (mnames w)) P.
Proof. intros O. apply (iv_wf _ _ _ _ (reach_inv _ _ _ _ _ (mo_reach _ _ _ _ _ O))). Qed.
Lemma mok_sub (V V' : asg -> Prop) w P G sels : (forall b, V' b -> V b) -> mok V w P G sels -> mok V' w P G sels.
Proof. intros H [A B C D E]. constructor; auto. Qed.
Lemma mok_G V w P (G G' : asg -> Prop) sels : (forall b, G b <-> G' b) -> mok V w P G sels -> mok V w P G' sels.
Proof. intros H [A B C D E]. constructor; auto. - intros b F. apply H; auto. - intros b Hv Hg. apply D; auto. apply H; auto. Qed.

Lemma varIndex_ok x w V P G sels : mok V w P G sels -> let r := varIndex x w in mok V (snd r) P G sels /\ nth_error (mnames (snd r)) (fst r) = Some x /\ exists l, mnames (snd r) = mnames w ++ l.
Proof.
  intros O. cbn zeta. unfold varIndex. destruct (indexOf x (mnames w)) as [i|] eqn:E; cbn [fst snd mnames].
  - split; auto. split; [apply indexOf_some; auto|exists []; rewrite app_nil_r; auto].
  - pose proof (mok_wf _ _ _ _ _ O) as W. pose proof O as [A B C D F]. apply indexOf_none in E. split; [|split; [rewrite nth_error_app2, Nat.sub_diag; auto|eauto]].
    constructor; cbn [mcore mnames].
    + rewrite app_length, Nat.add_1_r. apply r_var; auto.
    + apply NoDup_Add with (a := x) (l := mnames w); [|split; auto]. rewrite <- (app_nil_r (mnames w)) at 1. apply Add_app.
    + intros b H. apply C. eapply feasible_agree; [exact W|apply agree_view|exact H].
    + intros b Hv Hg. eapply feasible_agree; [exact W|apply agree_sym, agree_view|auto].
    + eapply Forall2_impl; [|exact F]. intros; apply softIs_app; auto.
Qed.
Lemma varIndex_keep x w : padded (snd (varIndex x w)) = padded w /\ selCtr (snd (varIndex x w)) = selCtr w.
Proof. unfold varIndex. destruct (indexOf x (mnames w)); auto. Qed.
Lemma clauseVec_keep : forall nps w, length (fst (clauseVec nps w)) = length nps /\ padded (snd (clauseVec nps w)) = padded w /\ selCtr (snd (clauseVec nps w)) = selCtr w.
Proof.
  induction nps as [|np nps IH]; intros w; cbn [clauseVec]; auto. pose proof (varIndex_keep (fst np) w) as K. destruct (varIndex (fst np) w) as [i w1]. cbn [snd] in K. specialize (IH w1). destruct (clauseVec nps w1) as [ps w2]. cbn [fst snd length] in *. destruct IH as (-> & -> & ->), K as (-> & ->). auto.
Qed.
Lemma clauseVec_ok : forall nps w V P G sels, mok V w P G sels -> let r := clauseVec nps w in mok V (snd r) P G sels /\ Forall2 (litFor (mnames (snd r))) (fst r) nps /\ exists l, mnames (snd r) = mnames w ++ l.
Proof.
  induction nps as [|np nps IH]; intros w V P G sels O; cbn [clauseVec]; cbn zeta.
  - split; auto. split; [constructor|exists []; rewrite app_nil_r; auto].
  - pose proof (varIndex_ok (fst np) w V P G sels O) as K. destruct (varIndex (fst np) w) as [i w1]. cbn [fst snd] in K. destruct K as (O1 & N & l1 & E1). specialize (IH w1 V P G sels O1). destruct (clauseVec nps w1) as [ps w2]. cbn [fst snd] in *. cbn zeta in IH. destruct IH as (O2 & F & l2 & E2).
    split; auto. split; [|exists (l1 ++ l2); rewrite E2, E1, app_assoc; auto]. constructor; auto. rewrite E2. apply litFor_app. split; auto.
Qed.

(** the number of atoms of a clause is at least that of its literals *)
Lemma atoms_lits t nps : clauseT t = true -> NoDup nps -> (forall np, In np nps <-> lit_occurs np t) -> length nps <= Z.to_nat (atoms t).
Proof.
  intros Hc N H. destruct t as [| |l|t|ts|ts|t1 t2|t1 t2|kk c rhs ls co]; try discriminate.
  - assert (nps = []) as -> by (destruct nps as [|np r]; auto; destruct (proj1 (H np) (or_introl eq_refl))). cbn; lia.
  - assert (I : incl nps [l]). { intros np I. apply H in I. cbn in I. subst. left; auto. } apply (NoDup_incl_length N) in I. cbn in *. lia.
  - simpl in Hc. assert (E : exists ls, ts = map TLit ls). { clear H. induction ts as [|t ts IH]; [exists []; auto|]. simpl in Hc. apply andb_true_iff in Hc as [H1 H2]. destruct (IH H2) as [ls ->]. destruct t; try discriminate. exists (l :: ls). auto. }
    destruct E as [ls ->]. assert (I : incl nps ls). { intros np I. apply H in I. clear - I. induction ls as [|l ls IH]; cbn in I; [destruct I|]. destruct I as [I|I]; [left; auto|right; auto]. }
    apply (NoDup_incl_length N) in I. assert (E : atoms (TOr (map TLit ls)) = Z.of_nat (length ls)). { clear. cbn [atoms]. unfold sumz. induction ls as [|l ls IH]; auto. cbn [map fold_right length atoms]. rewrite IH. lia. } rewrite E, Nat2Z.id. auto.
Qed.
Lemma lits_names s ls nps : wf s -> Forall2 (litDen s) ls nps -> map (fun l => match literals s l with Some np => np | None => (EmptyString, false) end) ls = nps.
Proof.
  intros Hw. induction 1 as [|l np ls nps D _ IH]; auto. cbn [map]. rewrite IH. f_equal. assert (E : literals s l = Some np) by (destruct np as [x p]; apply (node_lit s l x p (proj2 Hw)); exact D). rewrite E. auto.
Qed.
Lemma insF_len l ls : length (insF l ls) = S (length ls).
Proof. induction ls as [|x r IH]; auto. cbn. destruct (N.leb _ _); cbn; auto. Qed.
Lemma sortF_len ls : length (sortF ls) = length ls.
Proof. induction ls as [|x r IH]; auto. unfold sortF in *. cbn [fold_right]. rewrite insF_len, IH. auto. Qed.

Definition isName (s : state) (x : string) : Prop := exists l p, litDen s l (x, p).
Lemma isName_ext s V s' V' x : wext s V s' V' -> isName s x -> isName s' x.
Proof. intros X (l & p & D). exists l, p. apply (e_node _ _ (x_ext _ _ _ _ X)). exact D. Qed.
Lemma clauseVec_names : forall nps w x, In x (mnames (snd (clauseVec nps w))) -> In x (mnames w) \/ In x (map fst nps).
Proof.
  induction nps as [|np nps IH]; intros w x; cbn [clauseVec]; auto. unfold varIndex. destruct (indexOf (fst np) (mnames w)) as [i|].
  - specialize (IH w x). destruct (clauseVec nps w) as [ps w2]. cbn [snd map In] in *. intros I. destruct (IH I); auto.
  - set (w1 := MaxW _ _ _ _). specialize (IH w1 x). destruct (clauseVec nps w1) as [ps w2]. cbn [snd map In] in *. intros I. destruct (IH I) as [J|J]; auto. subst w1. cbn [mnames] in J. apply in_app_or in J as [J|[J|[]]]; auto.
Qed.
(** names are only appended, and saved states stay as they are *)
Definition grew (w w' : maxw) : Prop := (exists l, mnames w' = mnames w ++ l) /\ valid (m_alg (mcore w')) = valid (m_alg (mcore w)).
Lemma grew_refl w : grew w w.
Proof. split; auto. exists []. rewrite app_nil_r. auto. Qed.
Lemma grew_trans w1 w2 w3 : grew w1 w2 -> grew w2 w3 -> grew w1 w3.
Proof. intros [(l & E1) V1] [(l' & E2) V2]. split; [|congruence]. exists (l ++ l'). rewrite E2, E1, app_assoc. auto. Qed.
Lemma clauseVec_grew : forall nps w, grew w (snd (clauseVec nps w)).
Proof.
  induction nps as [|np nps IH]; intros w; cbn [clauseVec]; [apply grew_refl|]. assert (G : grew w (snd (varIndex (fst np) w))).
  { unfold varIndex. destruct (indexOf (fst np) (mnames w)); [apply grew_refl|]. split; auto. eexists. reflexivity. }
  destruct (varIndex (fst np) w) as [i w1]. specialize (IH w1). destruct (clauseVec nps w1) as [ps w2]. cbn [snd] in *. eapply grew_trans; eauto.
Qed.
Definition addPost (wt : option nat) (t : tree) (w w' : maxw) (s' : state) (V' : asg -> Prop) : Prop :=
  selCtr w' = selCtr w /\ grew w w' /\ (forall x, In x (mnames w') -> In x (mnames w) \/ isName s' x) /\ (padded w' = false -> padded w = false /\ forall (U : asg -> Prop) P G sels, (forall b, U b -> V' b) -> mok U w P G sels ->
    match wt with
    | None => exists P', mok U w' P' (fun b => G b /\ eval b t = true) sels
    | Some v => 1 <= v -> forall x, t = TLit (x, true) -> exists P', mok U w' P' G (sels ++ [(v, x)])
    end).
Lemma addClause_ok wt f t s V w : winv s V -> Den s f t -> clauseT t = true -> wp (fun n => addClause n wt f w) s V (fun w' s' V' => addPost wt t w w' s' V').
Proof.
  intros I Hd Hc. unfold addClause. eapply wp_bind; [apply (numberOfAtoms_ok t s V f I Hd)|]. cbv beta. intros k s1 V1 I1 X1 ->.
  assert (Hd1 : Den s1 f t) by (eapply wext_Den; eauto). eapply wp_bind; [apply (atomSet_ok true t s1 V1 f I1 Hd1)|]. cbv beta. intros ls s2 V2 I2 X2 (nps & H1 & H2 & H3). apply wp_get.
  destruct (sortF_den s2 ls) as [nqs L2]; [intros l Il; destruct (Forall2_in_l _ _ _ _ H1 Il) as (np & _ & L); eauto|].
  rewrite (lits_names s2 _ nqs) by (auto; apply I2). pose proof (clauseVec_keep nqs w) as (K1 & K2 & K3). pose proof (fun U P G sels O => clauseVec_ok nqs w U P G sels O) as Ok. pose proof (clauseVec_names nqs w) as Nm. pose proof (clauseVec_grew nqs w) as Gw. destruct (clauseVec nqs w) as [ps w1]. cbn [fst snd] in *.
  assert (Ln : length nqs = length nps). { apply Forall2_length in L2. apply Forall2_length in H1. rewrite <- L2, sortF_len. auto. }
  assert (Le : length ps <= Z.to_nat (atoms t)) by (rewrite (eq_trans K1 Ln); apply atoms_lits; auto). destruct (Nat.ltb_spec (Z.to_nat (atoms t)) (length ps)) as [B|_]; [lia|].
  apply wp_ret; auto. split; [exact K3|]. split; [eapply grew_trans; [exact Gw|]; split; [exists []; cbn [mnames]; rewrite app_nil_r; auto|destruct wt; reflexivity]|]. split.
  { cbn [mnames]. intros x Ix. destruct (Nm x Ix) as [J|J]; auto. right. apply in_map_iff in J as ([y p] & <- & J). destruct (Forall2_in_r _ _ _ _ L2 J) as (l0 & _ & Dl). exists l0, p. exact Dl. }
  cbn [padded]. intros Pd. apply orb_false_iff in Pd as [P1 P2]. apply Nat.ltb_ge in P2. assert (Ez : Z.to_nat (atoms t) - length ps = 0) by lia. rewrite Ez. cbn [repeat]. rewrite app_nil_r. split; [rewrite <- K2; auto|].
  intros U P G sels _ O. destruct (Ok U P G sels O) as (O1 & L1 & l & El). clear Ok.
  assert (Any : forall b, existsb (eval_lit b) nqs = true <-> eval b t = true).
  { intros b. rewrite (clause_lits b t Hc), existsb_exists. split; intros (np & Ip & E); exists np; (split; [|exact E]).
    - destruct (Forall2_in_r _ _ _ _ L2 Ip) as (l0 & Il & Dl). apply (proj1 (sortF_in _ _)) in Il. destruct (Forall2_in_l _ _ _ _ H1 Il) as (np' & Inp & Dl').
      rewrite (litDen_fun _ _ _ _ Dl Dl'). apply H3; auto.
    - apply H3 in Ip. destruct (Forall2_in_r _ _ _ _ H1 Ip) as (l0 & Il & Dl). apply (proj2 (sortF_in _ _)) in Il. destruct (Forall2_in_l _ _ _ _ L2 Il) as (np' & Inp & Dl').
      rewrite (litDen_fun _ _ _ _ Dl Dl'). auto. }
  pose proof O1 as [A B C D E]. pose proof (litsFor_range _ _ _ L1) as Rg. destruct wt as [v|].
  - intros Hv x ->. exists (grow P [] [(v, ps)]). assert (Ep : exists j, ps = [(j, false)] /\ nth_error (mnames w1) j = Some x).
    { clear - L1 L2 H1 H3 Ln H2. assert (N1 : nps = [(x, true)]). { destruct nps as [|np r]; [destruct (proj2 (H3 (x, true)) eq_refl)|]. assert (np = (x, true)) as -> by (symmetry; apply (proj1 (H3 np)); left; auto). f_equal. destruct r as [|np r]; auto. inversion H2; subst. exfalso. apply H4. left. symmetry. apply (proj1 (H3 np)). right; left; auto. }
      subst nps. inversion H1 as [|l0 y l' r D1 D2]; subst. inversion D2; subst. cbn in L2. inversion L2 as [|l1 z l2 r2 D3 D4]; subst. inversion D4; subst. rewrite (litDen_fun _ _ _ _ D3 D1) in *. inversion L1 as [|p q ps' r3 [N1 N2] D5]; subst. inversion D5; subst. destruct p as [j sg]. cbn in *. subst. eauto. }
    destruct Ep as (j & -> & Ej). constructor; cbn [mcore mnames].
    + apply r_soft; auto.
    + exact B.
    + intros b F. apply C. intros c Ic. apply F. cbn. apply in_or_app; auto.
    + intros b HV HG c Ic. cbn in Ic. rewrite app_nil_r in Ic. apply (D b HV HG); auto.
    + cbn [grow p_soft]. apply Forall2_app; auto. constructor; [|constructor]. split; auto. exists j. auto.
  - exists (grow P [ps] []). constructor; cbn [mcore mnames].
    + apply r_hard; auto.
    + exact B.
    + intros b F. apply feasible_grow in F as [F1 F2]. split; auto. apply Any, (litsFor_any _ _ _ b L1), true_in_any; auto.
    + intros b HV [HG Ht]. apply feasible_grow. split; auto. apply true_in_any, (litsFor_any _ _ _ b L1), Any; auto.
    + cbn [grow p_soft]. rewrite app_nil_r. auto.
Qed.
Lemma mok_conv (V : asg -> Prop) w P (G G' : asg -> Prop) sels : (forall b, G b -> G' b) -> (forall b, V b -> G' b -> G b) -> mok V w P G sels -> mok V w P G' sels.
Proof. intros H1 H2 [A B C D E]. constructor; auto. Qed.
Lemma addClauses_ok wt : forall fs ts s V w, winv s V -> Forall2 (Den s) fs ts -> forallb clauseT ts = true ->
  wp (fun n => addClauses n wt fs w) s V (fun w' s' V' => addPost wt (TAnd ts) w w' s' V').
Proof.
  induction fs as [|f fs IH]; intros ts s V w I F Hc; inversion F; subst; cbn [addClauses].
  - apply wp_ret; auto. split; auto. split; [apply grew_refl|]. split; auto. intros Pd. split; auto. intros U P G sels _ O. destruct wt; [intros _ x E; discriminate|]. exists P. apply (mok_G _ _ _ G); auto. intros b. cbn. tauto.
  - cbn [forallb] in Hc. apply andb_true_iff in Hc as [Hc1 Hc]. eapply wp_bind; [apply (addClause_ok wt f y s V w); auto|]. cbv beta. intros w1 s1 V1 I1 X1 (A1 & Ag & A0 & A2).
    eapply wp_conseq; [apply (IH l' s1 V1 w1); auto; eapply wext_Dens; eauto|]. cbv beta. intros w2 s2 V2 I2 X2 (B1 & Bg & B0 & B2). split; [congruence|]. split; [eapply grew_trans; eauto|]. split; [intros x Ix; destruct (B0 x Ix) as [J|J]; auto; destruct (A0 x J) as [J'|J']; auto; right; eapply isName_ext; eauto|]. intros Pd. destruct (B2 Pd) as [Pd1 B3]. destruct (A2 Pd1) as [Pd0 A3]. split; auto.
    intros U P G sels HU O. destruct wt as [v|]; [intros _ x E; discriminate|]. destruct (A3 U P G sels (fun b Hb => x_sub _ _ _ _ X2 b (HU b Hb)) O) as [P1 O1]. destruct (B3 U P1 _ sels HU O1) as [P2 O2]. exists P2. eapply mok_G; [|exact O2]. intros b. cbn. rewrite andb_true_iff. cbn. tauto.
Qed.

(** ** The CNF of a literal is the literal *)
Lemma NNF_lit cf f l s V : winv s V -> Den s f (TLit l) -> wp (fun n => NNF n cf f) s V (fun g s' V' => Den s' g (TLit l)).
Proof.
  intros I D. eapply wp_conseq; [apply (NNF_ok cf (TLit l) s V f I D Logic.I)|]. intros g s' V' _ _ (u & Du & _ & _ & Sh). destruct (Sh eq_refl) as [[S1 _] _]. rewrite (S1 eq_refl) in Du. auto.
Qed.
Lemma cnfRec_lit {St} (hd : handler St) cf f l s V h : winv s V -> Den s f (TLit l) -> wp (fun n => cnfRec hd n cf f h) s V (fun r s' V' => r = (Some f, h) /\ s' = s).
Proof. intros I D. apply wp_S. cbn [cnfRec]. rewrite (Den_sort _ _ _ D). apply wp_ret; auto. Qed.
Lemma CNF_lit cf nf f l s V : winv s V -> Den s f (TLit l) -> wp (fun n => CNF n cf nf f) s V (fun g s' V' => Den s' g (TLit l)).
Proof.
  intros I D. unfold CNF. destruct (n_algorithm nf).
  - unfold factorizedCNF. eapply wp_bind; [apply (cnfRec_lit nopHandler cf f l s V tt I D)|]. cbv beta. intros r s1 V1 I1 X1 [-> ->]. apply wp_ret; auto.
  - unfold tseitinCNF. eapply wp_bind with (Q := fun r s' V' => Den s' (fst r) (TLit l)).
    + eapply wp_bind; [apply (NNF_lit cf f l s V I D)|]. cbv beta. intros g s1 V1 I1 X1 Dg. eapply wp_bind; [apply (isCNF_ok _ s1 V1 g I1 Dg)|]. cbv beta. intros b s2 V2 I2 X2 (-> & -> & ->). cbn [is_cnf]. apply wp_ret; auto.
    + intros r s1 V1 I1 X1 Dr. apply wp_ret; auto.
  - unfold pgCNF. eapply wp_bind with (Q := fun r s' V' => Den s' (fst r) (TLit l)).
    + eapply wp_bind; [apply (NNF_lit cf f l s V I D)|]. cbv beta. intros g s1 V1 I1 X1 Dg. eapply wp_bind; [apply (isCNF_ok _ s1 V1 g I1 Dg)|]. cbv beta. intros b s2 V2 I2 X2 (-> & -> & ->). cbn [is_cnf]. apply wp_ret; auto.
    + intros r s1 V1 I1 X1 Dr. apply wp_ret; auto.
  - unfold advancedEncoding. rewrite (Den_sort _ _ _ D). eapply wp_bind with (Q := fun r s' V' => Den s' (fst r) (TLit l)).
    + unfold singleAdvanced, factorizedCNFWithHandler. cbn. eapply wp_bind; [apply (cnfRec_lit _ cf f l s V _ I D)|]. cbv beta. intros r s1 V1 I1 X1 [-> ->]. cbn [fst snd]. apply wp_ret; auto.
    + intros r s1 V1 I1 X1 Dr. apply wp_ret; auto.
Qed.

Section Add.
Variables (cf : encConfig) (nf : cnfConfig).
Definition dropW (w : maxw) : maxw := MaxW (sDrop (mcore w)) (mnames w) (selCtr w) (padded w).
Lemma mok_drop V w P G sels : mok V w P G sels -> mok V (dropW w) P G sels.
Proof. intros [A B C D E]. constructor; cbn [dropW mcore mnames]; auto. apply r_drop; auto. Qed.
Lemma addAsCNF_hard f t s V w : winv s V -> Den s f t -> encodable cf t -> wp (fun n => addAsCNF cf nf n None f w) s V (fun w' s' V' => addPost None t w w' s' V').
Proof.
  intros I D E. unfold addAsCNF. eapply wp_bind; [apply (CNF_ok cf nf t s V f I D E)|]. cbv beta. intros g s1 V1 I1 X1 (u & Du & Hu & A1 & A2 & _). fold (dropW w).
  assert (K : forall w' s' (V' : asg -> Prop), (forall b, V' b -> V1 b) -> addPost None u (dropW w) w' s' V' -> addPost None t w w' s' V').
  { intros w' s' V' HV (B1 & Bg & B0 & B2). split; [exact B1|]. split; [exact Bg|]. split; [exact B0|]. intros Pd. destruct (B2 Pd) as [Pd0 B3]. split; [exact Pd0|]. intros U P G sels HU O. destruct (B3 U P G sels HU (mok_drop _ _ _ _ _ O)) as [P' O']. exists P'. eapply mok_conv; [| |exact O'].
    - cbn. intros b [H1 H2]. auto.
    - cbn. intros b Hb [H1 H2]. split; auto. }
  rewrite (Den_sort _ _ _ Du). destruct u; try discriminate.
  - eapply wp_conseq; [eapply (addClause_ok None g _ s1 V1 (dropW w)); eauto|]. cbv beta. intros w' s' V' _ X H. apply K; auto. apply X.
  - apply wp_ret; auto. apply K; auto. split; auto. split; [apply grew_refl|]. split; auto. intros Pd. split; auto. intros U P G sels _ O. exists P. apply (mok_G _ _ _ G); auto. intros b. cbn. tauto.
  - eapply wp_conseq; [eapply (addClause_ok None g _ s1 V1 (dropW w)); eauto|]. cbv beta. intros w' s' V' _ X H. apply K; auto. apply X.
  - apply wp_get. eapply wp_conseq; [apply (addClauses_ok None (opNary g s1) ts s1 V1 (dropW w)); auto; [apply opNary_and; auto; apply I1|]|].
    + cbn in Hu. rewrite forallb_forall in *. intros y Iy. specialize (Hu y Iy). destruct y; auto.
    + cbv beta. intros w' s' V' _ X H. apply K; auto. apply X.
  - eapply wp_conseq; [eapply (addClause_ok None g _ s1 V1 (dropW w)); eauto|]. cbv beta. intros w' s' V' _ X H. apply K; auto. apply X.
Qed.
Lemma addAsCNF_soft v f x s V w : winv s V -> Den s f (TLit (x, true)) -> wp (fun n => addAsCNF cf nf n (Some v) f w) s V (fun w' s' V' => addPost (Some v) (TLit (x, true)) w w' s' V').
Proof.
  intros I D. unfold addAsCNF. eapply wp_bind; [apply (CNF_lit cf nf f _ s V I D)|]. cbv beta. intros g s1 V1 I1 X1 Dg. rewrite (Den_sort _ _ _ Dg). fold (dropW w). eapply wp_conseq; [eapply (addClause_ok (Some v) g _ s1 V1 (dropW w)); eauto|]. cbv beta. intros w' s' V' _ X (B1 & Bg & B0 & B2). split; [exact B1|]. split; [exact Bg|]. split; [exact B0|]. intros Pd. destruct (B2 Pd) as [Pd0 B3]. split; [exact Pd0|]. intros U P G sels HU O. apply (B3 U P G sels HU (mok_drop _ _ _ _ _ O)).
Qed.

(** ** Soft formulas *)
Lemma sel_reserved i : reserved (selName i) = false.
Proof. reflexivity. Qed.
Lemma var_wp x s V : winv s V -> reserved x = false -> wp (fun _ => up (Var x)) s V (fun r s' V' => litDen s' r (x, true)).
Proof.
  intros I Hr. destruct (Var x s) as [r s'] eqn:E. destruct (Var_spec _ _ _ _ (v_wf _ _ I) E) as (G & N & Nm & _).
  destruct (winv_good s V s' I G) as [I' X']; [eapply same3_cnfk; [eapply Var_same3; eauto|apply I]| |exists 0, r, s', V; split; [intros n _; unfold up; rewrite E; auto|auto]].
  intros y Hy. apply Nm in Hy as [Hy| ->]; auto. right. intros F. apply (nonreserved_aux x Hr). eapply fresh_aux; eauto.
Qed.
Lemma or_enc l t u : or_shape [TLit l; t] u -> encodable cf t -> encodable cf u.
Proof.
  intros Hs He. assert (F : forall v, In v (flatO [TLit l; t]) -> encodable cf v).
  { intros v. cbn. rewrite app_nil_r. intros [<-|J]; [exact Logic.I|]. destruct t; try (destruct J as [<-|[]]; exact He). apply encodable_or in He. rewrite Forall_forall in He. auto. }
  destruct Hs as [->|[->|[[J _]|(us & -> & J & _)]]]; try exact Logic.I; auto. apply encodable_or. apply Forall_forall. auto.
Qed.
Lemma or_enc' l t u : or_shape [t; TLit l] u -> encodable cf t -> encodable cf u.
Proof.
  intros Hs He. assert (F : forall v, In v (flatO [t; TLit l]) -> encodable cf v).
  { intros v. unfold flatO. cbn [flat_map]. rewrite app_nil_r. intros J. apply in_app_or in J as [J|[<-|[]]]; [|exact Logic.I]. destruct t; try (destruct J as [<-|[]]; exact He). apply encodable_or in He. rewrite Forall_forall in He. auto. }
  destruct Hs as [->|[->|[[J _]|(us & -> & J & _)]]]; try exact Logic.I; auto. apply encodable_or. apply Forall_forall. auto.
Qed.
Lemma neg_enc t u : is_neg_of t u -> encodable cf t -> encodable cf u.
Proof. intros N E. destruct t; cbn in N; subst; try exact E; try exact Logic.I. destruct l; subst. exact Logic.I. Qed.

Definition softPost (v : nat) (t : tree) (w w' : maxw) (s' : state) (V' : asg -> Prop) : Prop :=
  selCtr w' = S (selCtr w) /\ grew w w' /\ (forall x, In x (mnames w') -> In x (mnames w) \/ isName s' x) /\
  (padded w' = false -> padded w = false /\ forall (U : asg -> Prop) P G sels, (forall b, U b -> V' b) -> mok U w P G sels ->
    exists P', mok U w' P' (fun b => G b /\ b (selName (selCtr w)) = eval b t) (sels ++ [(v, selName (selCtr w))])).
Lemma addSoft_ok f t s V w wt : winv s V -> Den s f t -> encodable cf t -> (1 <= wt)%Z ->
  wp (fun n => addSoftFormula cf nf n f wt w) s V (fun r s' V' => fst r = true /\ softPost (Z.to_nat wt) t w (snd r) s' V').
Proof.
  intros I D E Hw. unfold addSoftFormula. destruct (Z.ltb_spec wt 1) as [L|_]; [lia|]. set (x := selName (selCtr w)).
  eapply wp_bind; [apply (var_wp x s V I (sel_reserved _))|]. cbv beta. intros sel s1 V1 I1 X1 Ds.
  assert (Nx : names s1 x) by (apply (lit_name s1 sel (x, true)); [apply I1|exact Ds]).
  eapply wp_bind; [apply rp_wp; [exact I1|apply (rp_lit x false s1); [apply I1|exact Nx]]|]. cbv beta. intros nsel s2 V2 I2 X2 (-> & Dn).
  assert (D2 : Den s2 f t) by (eapply wext_Den; [exact X2|eapply wext_Den; eauto]).
  eapply wp_bind; [apply rp_wp; [exact I2|apply (rp_or [nsel; f] [TLit (x, false); t] s2); [apply I2|constructor; [apply litDen_Den; exact Dn|constructor; auto]]]|]. cbv beta. intros a s3 V3 I3 X3 (-> & u & Du & Eu & Su).
  set (w0 := MaxW _ _ _ _). eapply wp_bind; [apply (addAsCNF_hard a u s3 V1 w0 I3 Du (or_enc _ _ _ Su E))|]. cbv beta. intros w1 s4 V4 I4 X4 (A1 & Ag & A2 & A3).
  assert (D4 : Den s4 f t) by (eapply wext_Den; [exact X4|eapply wext_Den; eauto]).
  eapply wp_bind; [apply rp_wp; [exact I4|apply (rp_not f t s4); [apply I4|exact D4]]|]. cbv beta. intros g s5 V5 I5 X5 (-> & ng & Dg & Ng).
  assert (X15 : wext s1 V1 s5 V4) by (eapply wext_trans; [exact X2|]; eapply wext_trans; [exact X3|]; eapply wext_trans; eauto).
  assert (Ds5 : Den s5 sel (TLit (x, true))) by (eapply wext_Den; [exact X15|apply litDen_Den; exact Ds]).
  eapply wp_bind; [apply rp_wp; [exact I5|apply (rp_or [g; sel] [ng; TLit (x, true)] s5); [apply I5|constructor; [exact Dg|constructor; [exact Ds5|constructor]]]]|]. cbv beta. intros b s6 V6 I6 X6 (-> & u2 & Du2 & Eu2 & Su2).
  eapply wp_bind; [apply (addAsCNF_hard b u2 s6 V4 w1 I6 Du2 (or_enc' _ _ _ Su2 (neg_enc _ _ Ng E)))|]. cbv beta. intros w2 s7 V7 I7 X7 (B1 & Bg & B2 & B3).
  assert (Ds7 : Den s7 sel (TLit (x, true))) by (eapply wext_Den; [exact X7|eapply wext_Den; eauto]).
  eapply wp_bind; [apply (addAsCNF_soft (Z.to_nat wt) sel x s7 V7 w2 I7 Ds7)|]. cbv beta. intros w3 s8 V8 I8 X8 (C1 & Cg & C2 & C3).
  assert (X48 : wext s4 V4 s8 V8) by (eapply wext_trans; [exact X5|]; eapply wext_trans; [exact X6|]; eapply wext_trans; eauto).
  apply wp_ret; auto. split; auto. cbn [snd]. split; [rewrite C1, B1, A1; auto|]. split; [eapply grew_trans; [|exact Cg]; eapply grew_trans; [|exact Bg]; exact Ag|]. split.
  - intros y Iy. destruct (C2 y Iy) as [J|J]; auto. destruct (B2 y J) as [J'|J']; [|right; eapply isName_ext; [exact X8|exact J']]. destruct (A2 y J') as [K|K]; auto. right. eapply isName_ext; [exact X48|exact K].
  - intros Pd. destruct (C3 Pd) as [Pd2 C4]. destruct (B3 Pd2) as [Pd1 B4]. destruct (A3 Pd1) as [Pd0 A4]. split; [exact Pd0|]. intros U P G sels HU O.
    assert (O0 : mok U w0 P G sels). { destruct O as [O1 O2 O3 O4 O5]. constructor; auto. }
    assert (HU7 : forall b, U b -> V7 b) by (intros c Hc; apply (x_sub _ _ _ _ X8); auto). assert (HU4 : forall b, U b -> V4 b) by (intros c Hc; apply (x_sub _ _ _ _ X48); auto).
    destruct (A4 U P G sels HU4 O0) as [P1 O1]. destruct (B4 U P1 _ sels HU7 O1) as [P2 O2]. destruct (C4 U P2 _ sels HU O2 ltac:(lia) x eq_refl) as [P3 O3]. exists P3. eapply mok_G; [|exact O3].
    intros c. cbv beta. rewrite (Eu c), (Eu2 c). cbn [eval existsb]. rewrite (is_neg_of_eval t ng c Ng). unfold eval_lit. cbn [fst snd].
    fold x. destruct (c x), (eval c t); cbn; intuition congruence.
Qed.
End Add.
End Inv.
