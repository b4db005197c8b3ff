(** * EncodePBC on a factory *)
From Coq Require Import String Ascii List Bool ZArith NArith Lia Permutation.
From Verif Require Import Spec Factory FactoryProofs FactoryProofs2 FactoryProofs3 FactoryApi FactoryProps Assign EncSpec EncAmo EncApi EncPbc EncProps NormalForm NfBase NfAssign.
Import ListNotations.
Local Open Scope N_scope.

(** ** Configurations and constraints the encoders handle *)
(** Configurations whose encodings terminate and do not use the literal 0. *)
Definition cleanConfig (cf : encConfig) : Prop :=
  (forall l, Permutation (f_ord cf l) l) /\ admissible (c_base (f_cc cf)) /\
  (c_pbc (f_pbc cf) = PBCBinaryMerge -> c_watchdog (f_pbc cf) = true) /\
  c_amk (f_cc cf) <> AMKCardinalityNetwork /\ c_alk (f_cc cf) <> ALKCardinalityNetwork.
(** The constraint is not "less than 0" over variables, an equality has no coefficient 0,
    the coefficients fit the encoder, and no variable has a reserved name. *)
Definition pbcOK (cf : encConfig) (cc : bool) (c : cmp) (rhs : Z) (ls : list lit) (cs : list Z) : Prop :=
  (forall x p, In (x, p) ls -> reserved x = false) /\
  (cc = true -> ~ (c = LT /\ rhs = 0%Z)) /\
  (cc = false -> c = EQ -> ~ In 0%Z cs) /\ pbcAdmissible (f_pbc cf) cs.
Fixpoint encodable (cf : encConfig) (t : tree) : Prop :=
  match t with
  | TFalse | TTrue | TLit _ => True
  | TNot t => encodable cf t
  | TAnd ts | TOr ts => (fix go ts := match ts with [] => True | t :: r => encodable cf t /\ go r end) ts
  | TImpl a b | TEquiv a b => encodable cf a /\ encodable cf b
  | TPBC cc c rhs ls cs => cleanConfig cf /\ pbcOK cf cc c rhs ls cs
  end.
Lemma encodable_and cf ts : encodable cf (TAnd ts) <-> Forall (encodable cf) ts.
Proof. simpl. induction ts; split; intros H; auto; [destruct H; constructor; auto; apply IHts; auto|inversion H; subst; split; auto; apply IHts; auto]. Qed.
Lemma encodable_or cf ts : encodable cf (TOr ts) <-> Forall (encodable cf) ts.
Proof. apply encodable_and. Qed.
Lemma pbfree_encodable cf t : pbfree t = true -> encodable cf t.
Proof.
  induction t using tree_ind'; simpl; auto; intros Hp; try discriminate.
  - rewrite forallb_forall in Hp. apply encodable_and. rewrite Forall_forall in *. auto.
  - rewrite forallb_forall in Hp. apply encodable_or. rewrite Forall_forall in *. auto.
  - apply andb_true_iff in Hp. destruct Hp; auto.
  - apply andb_true_iff in Hp. destruct Hp; auto.
Qed.

(** ** Names *)
Lemma reserved_aux k i : reserved (auxName k i) = true.
Proof. unfold reserved, auxName. destruct k; reflexivity. Qed.
Lemma nonreserved_aux x : reserved x = false -> ~ auxN x.
Proof. intros H [(k & i & ->)|(i & ->)]; [rewrite reserved_aux in H|]; discriminate. Qed.
Lemma asortOf_inj k k' : asortOf k = asortOf k' -> k = k'. Proof. destruct k, k'; simpl; congruence. Qed.

Lemma scope_name n v : scope n v -> exists x, nameOf v = Some x.
Proof. destruct v; simpl; intros H; eauto; contradiction. Qed.
Lemma nameOf_inj n m v w x : scope n v -> scope m w -> nameOf v = Some x -> nameOf w = Some x -> v = w.
Proof.
  destruct v as [y|k i| | | | |], w as [z|k' i'| | | | |]; simpl; intros Hv Hw E1 E2; try contradiction; inversion E1; inversion E2; subst; auto.
  - rewrite reserved_aux in Hv; discriminate.
  - rewrite reserved_aux in Hw; discriminate.
  - apply auxName_inj in H1. destruct H1 as [H1 H2]. apply asortOf_inj in H1. subst. f_equal. lia.
Qed.

Definition named (l : elit) : lit := (match nameOf (fst l) with Some x => x | None => EmptyString end, snd l).
Definition clauseTree (c : clause) : tree :=
  match map named c with [] => TFalse | [l] => TLit l | ns => TOr (map TLit ns) end.

(** ** Creating the clauses *)
Definition lstep (X : string -> Prop) (s s' : state) : Prop :=
  good s s' /\ (cnfk s -> cnfk s') /\ forall x, names s' x -> names s x \/ X x.
Lemma lstep_refl X s : wf s -> lstep X s s.
Proof. intros H. split; [apply good_refl; auto|]. split; auto. Qed.
Lemma lstep_trans X a b c : lstep X a b -> lstep X b c -> lstep X a c.
Proof.
  intros (G1 & K1 & N1) (G2 & K2 & N2). split; [eapply good_trans; eauto|]. split; auto.
  intros x Hx. destruct (N2 x Hx); auto.
Qed.
Definition isName (cs : list clause) (x : string) : Prop := exists c l, In c cs /\ In l c /\ nameOf (fst l) = Some x.
Definition allNamed (ls : list elit) : Prop := forall l, In l ls -> exists x, nameOf (fst l) = Some x.

Lemma litM_ok (X : string -> Prop) s l x : wf s -> nameOf (fst l) = Some x -> X x ->
  exists f s', litM l s = Some (f, s') /\ lstep X s s' /\ litDen s' f (named l).
Proof.
  intros Hw Hn HX. unfold litM, named. rewrite Hn. unfold up. destruct (Lit x (snd l) s) as [f s'] eqn:E.
  exists f, s'. split; auto. destruct (Lit_spec s x (snd l) f s' Hw E) as (G & D & N). split; auto.
  split; auto. split; [intros K; eapply same3_cnfk; [eapply Lit_same3; eauto|auto]|].
  intros y Hy. apply N in Hy. destruct Hy as [Hy| ->]; auto.
Qed.
Lemma litsM_ok (X : string -> Prop) : forall c s, wf s -> (forall l, In l c -> exists x, nameOf (fst l) = Some x /\ X x) ->
  exists fs s', mapM litM c s = Some (fs, s') /\ lstep X s s' /\ Forall2 (litDen s') fs (map named c).
Proof.
  induction c as [|l c IH]; intros s Hw Hc; [exists [], s; split; auto; split; [apply lstep_refl; auto|constructor]|].
  destruct (Hc l) as (x & Hx & HX); [left; auto|]. destruct (litM_ok X s l x Hw Hx HX) as (f & s1 & E1 & L1 & D1).
  destruct (IH s1) as (fs & s2 & E2 & L2 & D2); [apply L1|intros; apply Hc; right; auto|].
  exists (f :: fs), s2. split; [simpl; unfold bind; rewrite E1, E2; reflexivity|]. split; [eapply lstep_trans; eauto|].
  simpl. constructor; auto. destruct L2 as ((_ & E & _) & _). apply E; auto.
Qed.
Lemma clauseM_ok (X : string -> Prop) c s : wf s -> (forall l, In l c -> exists x, nameOf (fst l) = Some x /\ X x) ->
  exists f s', clauseM c s = Some (f, s') /\ lstep X s s' /\ Den s' f (clauseTree c).
Proof.
  intros Hw Hc. destruct (litsM_ok X c s Hw Hc) as (fs & s1 & E1 & L1 & D1). pose proof L1 as ((W1 & _) & K1 & _).
  unfold clauseM, bind. rewrite E1. unfold up. destruct (Clause fs s1) as [f s2] eqn:E2. exists f, s2. split; auto.
  assert (Hd : Forall2 (Den s1) fs (map TLit (map named c))). { clear -D1. induction D1; simpl; constructor; auto. apply litDen_Den; auto. }
  assert (Hs : Forall (fun g => srt g = SLit) fs). { clear -D1. induction D1; constructor; auto. apply (node_sort _ _ _ H). }
  destruct (Clause_spec s1 fs _ f s2 W1 Hd Hs E2) as (G & N & u & D & _ & Hu). split.
  - eapply lstep_trans; [exact L1|]. split; auto. split; [intros K; eapply Clause_cnfk; eauto|]. intros x Hx. left. apply N; auto.
  - unfold clauseTree. rewrite Hu in D. destruct (map named c) as [|a [|b r]]; exact D.
Qed.
Lemma clausesM_ok (X : string -> Prop) : forall cs s, wf s -> (forall c l, In c cs -> In l c -> exists x, nameOf (fst l) = Some x /\ X x) ->
  exists fs s', mapM clauseM cs s = Some (fs, s') /\ lstep X s s' /\ Forall2 (Den s') fs (map clauseTree cs).
Proof.
  induction cs as [|c cs IH]; intros s Hw Hc; [exists [], s; split; auto; split; [apply lstep_refl; auto|constructor]|].
  destruct (clauseM_ok X c s Hw) as (f & s1 & E1 & L1 & D1); [intros; apply (Hc c); auto; left; auto|].
  destruct (IH s1) as (fs & s2 & E2 & L2 & D2); [apply L1|intros c' l H1 H2; apply (Hc c'); auto; right; auto|].
  exists (f :: fs), s2. split; [simpl; unfold bind; rewrite E1, E2; reflexivity|]. split; [eapply lstep_trans; eauto|].
  simpl. constructor; auto. destruct L2 as ((_ & E & _) & _). eapply ext_Den; eauto.
Qed.

(** ** Environments and assignments *)
Definition env_of (b : asg) : env := fun v => match nameOf v with Some x => b x | None => false end.
Lemma lval_named b l x : nameOf (fst l) = Some x -> lval (env_of b) l = eval_lit b (named l).
Proof. intros H. unfold lval, eval_lit, env_of, named. rewrite H. reflexivity. Qed.
Lemma eval_clauseTree b c : eval b (clauseTree c) = existsb (fun l => eval_lit b (named l)) c.
Proof.
  unfold clauseTree. assert (E : existsb (fun l => eval_lit b (named l)) c = existsb (eval_lit b) (map named c)).
  { induction c; simpl; auto. rewrite IHc; auto. }
  rewrite E. clear E. generalize (map named c) as ns. intros ns.
  assert (E : existsb (eval b) (map TLit ns) = existsb (eval_lit b) ns) by (induction ns; simpl; auto; rewrite IHns; auto).
  rewrite <- E. destruct ns as [|x [|y r]]; [reflexivity| |reflexivity]. simpl. rewrite orb_false_r; auto.
Qed.
Lemma sat_eval b cs : (forall c, In c cs -> allNamed c) -> (sat (env_of b) cs <-> eval b (TAnd (map clauseTree cs)) = true).
Proof.
  intros Hn. simpl. rewrite forallb_forall. split.
  - intros Hs u Hu. apply in_map_iff in Hu. destruct Hu as (c & <- & Hc). rewrite eval_clauseTree. apply existsb_exists.
    destruct (Hs c Hc) as (l & Hl & Hv). exists l. split; auto. destruct (Hn c Hc l Hl) as [x Hx]. rewrite <- (lval_named b l x Hx). auto.
  - intros He c Hc. specialize (He (clauseTree c) (in_map _ _ _ Hc)). rewrite eval_clauseTree in He. apply existsb_exists in He.
    destruct He as (l & Hl & Hv). exists l. split; auto. destruct (Hn c Hc l Hl) as [x Hx]. rewrite (lval_named b l x Hx). auto.
Qed.
Lemma sat_agree n e e' cs : cscoped n cs -> agree n e e' -> sat e cs -> sat e' cs.
Proof.
  intros Hs Ha H c Hc. destruct (H c Hc) as (l & Hl & Hv). exists l. split; auto. unfold lval in *.
  rewrite (Ha (fst l)); auto. apply (Hs c Hc l Hl).
Qed.

Lemma elitOf_den s l np : wf s -> litDen s l np -> elitOf s l = (Usr (fst np), snd np).
Proof. intros [W T] H. destruct np as [x p]. unfold elitOf. apply node_lit in H; auto. rewrite H. reflexivity. Qed.
Lemma weight_env s b ls ns cs : wf s -> Forall2 (litDen s) ls ns -> weight (env_of b) (map (elitOf s) ls) cs = wsum b ns cs.
Proof.
  intros Hw H. revert cs. induction H; intros [|c cs]; simpl; auto. rewrite IHForall2.
  rewrite (elitOf_den s x y Hw H). reflexivity.
Qed.
Lemma count_env s b ls ns : wf s -> Forall2 (litDen s) ls ns ->
  Z.of_nat (EncSpec.count (env_of b) (map (elitOf s) ls)) = wsum b ns (map (fun _ => 1%Z) ns).
Proof.
  intros Hw H. induction H; cbn [map EncSpec.count wsum]; auto. rewrite Nat2Z.inj_add, IHForall2.
  rewrite (elitOf_den s x y Hw H). unfold lval, eval_lit, env_of; simpl. destruct (if snd y then b (fst y) else negb (b (fst y))); lia.
Qed.

(** the new auxiliary variables *)
Definition range (k : asort) (lo hi : nat) : list var := map (Aux k) (seq lo (hi - lo)).
Definition newVars (n n' : ctr) : list var := range ACC (fst n) (fst n') ++ range APB (snd n) (snd n').
Lemma newVars_in n n' v : In v (newVars n n') <-> exists k i, v = Aux k i /\ (fresh k n <= i < fresh k n')%nat.
Proof.
  unfold newVars, range. rewrite in_app_iff, !in_map_iff. split.
  - intros [(i & <- & Hi)|(i & <- & Hi)]; apply in_seq in Hi; eexists; exists i; split; try reflexivity; simpl; lia.
  - intros (k & i & -> & Hi). destruct k; simpl in Hi; [left|right]; exists i; split; auto; apply in_seq; lia.
Qed.
Definition sameName (x : string) (v : var) : bool := match nameOf v with Some y => String.eqb y x | None => false end.
Definition blend (n n' : ctr) (e : env) (b : asg) : asg :=
  fun x => match find (sameName x) (newVars n n') with Some v => e v | None => b x end.
Lemma blend_new n n' e b k i : (fresh k n <= i < fresh k n')%nat -> blend n n' e b (auxName (asortOf k) (N.of_nat i)) = e (Aux k i).
Proof.
  intros Hi. unfold blend. destruct (find _ _) as [v|] eqn:E.
  - apply find_some in E. destruct E as [Hv Hs]. apply newVars_in in Hv. destruct Hv as (k' & i' & -> & _).
    unfold sameName in Hs. simpl in Hs. apply String.eqb_eq in Hs. apply auxName_inj in Hs. destruct Hs as [H1 H2].
    apply asortOf_inj in H1. subst. f_equal. f_equal. lia.
  - assert (Hin : In (Aux k i) (newVars n n')) by (apply newVars_in; eauto). apply (find_none _ _ E) in Hin.
    unfold sameName in Hin. simpl in Hin. rewrite String.eqb_refl in Hin. discriminate.
Qed.
Lemma blend_old n n' e b x : (forall k i, x = auxName (asortOf k) (N.of_nat i) -> (i < fresh k n)%nat) -> blend n n' e b x = b x.
Proof.
  intros H. unfold blend. destruct (find _ _) as [v|] eqn:E; auto. apply find_some in E. destruct E as [Hv Hs].
  apply newVars_in in Hv. destruct Hv as (k & i & -> & Hi). unfold sameName in Hs. simpl in Hs. apply String.eqb_eq in Hs.
  symmetry in Hs. apply H in Hs. lia.
Qed.
Lemma blend_env n n' e b : agree n (env_of b) e -> agree n' e (env_of (blend n n' e b)).
Proof.
  intros Ha v Hv. destruct v as [x|k i| | | | |]; simpl in Hv; try contradiction.
  - unfold env_of. simpl. rewrite blend_old; [symmetry; apply (Ha (Usr x)); auto|].
    intros k i ->. rewrite reserved_aux in Hv. discriminate.
  - unfold env_of. simpl. destruct (Nat.lt_ge_cases i (fresh k n)) as [Hlt|Hge].
    + rewrite blend_old; [symmetry; apply (Ha (Aux k i)); auto|]. intros k' i' E. apply auxName_inj in E. destruct E as [E1 E2].
      apply asortOf_inj in E1. subst. assert (i' = i) as -> by lia. auto.
    + apply blend_new. auto.
Qed.

(** ** EncodePBC *)
Lemma freshN_enc s x : ~ freshN s x -> forall k i, x = auxName (asortOf k) (N.of_nat i) -> (i < fresh k (encCtr s))%nat.
Proof.
  intros H k i ->. destruct (Nat.lt_ge_cases i (fresh k (encCtr s))) as [|Hge]; auto. elim H. left. exists (asortOf k), (N.of_nat i).
  split; auto. destruct k; simpl in *; lia.
Qed.

(** the clauses hold the names of an encoding: created as formulas ([encode_winv]) or only their literals *)
Lemma encode_winv0 s V cls n' t (P : env -> Prop) s1 : winv s V ->
  encodes P (encCtr s) (cls, n') -> (forall b, P (env_of b) <-> eval b t = true) -> (forall x, occurs x t -> names s x) -> pbfree t = false ->
  lstep (isName cls) s s1 ->
  exists V', winv (setEncCtr n' s1) V' /\ wext s V (setEncCtr n' s1) V' /\ ext s1 (setEncCtr n' s1) /\ repr V' t (TAnd (map clauseTree cls)).
Proof.
  intros I (Hle & Hsc & Hsound & Hcompl) HP Ht Hfree HL. simpl in Hle, Hsc, Hsound, Hcompl.
  assert (Hall : forall c l, In c cls -> In l c -> exists x, nameOf (fst l) = Some x /\ isName cls x).
  { intros c l Hc Hl. destruct (scope_name n' (fst l)) as [x Hx]; [apply (Hsc c Hc l Hl)|]. exists x. split; auto. exists c, l. auto. }
  assert (Hnm : forall c, In c cls -> allNamed c). { intros c Hc l Hl. destruct (Hall c l Hc Hl) as (x & Hx & _). eauto. }
  destruct HL as (G1 & K1 & N1).
  pose proof G1 as (W1 & X1 & F1).
  set (s2 := setEncCtr n' s1). destruct (auxCtr_wf s1 (auxCtr s2) W1) as [W2 X2].
  assert (Es2 : set_auxCtr (auxCtr s2) s1 = s2) by (destruct s1; reflexivity). rewrite Es2 in W2, X2.
  assert (Hctr : forall k, auxCtr s k <= auxCtr s2 k).
  { intros k. rewrite <- (fr_aux _ _ F1). unfold s2. destruct Hle as [H1 H2]. unfold encCtr in H1, H2. cbn [fst snd] in H1, H2.
    rewrite <- (fr_aux _ _ F1) in H1, H2. destruct k; unfold setEncCtr; simpl; lia. }
  assert (Hsc' : forall v x, scope n' v -> nameOf v = Some x -> ~ freshN s2 x).
  { intros v x Hv Hx [(k & i & -> & Hi)|(i & ->)]; [|destruct v as [y|k' i'| | | | |]; simpl in Hv, Hx; try contradiction; inversion Hx as [E]; [rewrite E in Hv; discriminate|exact (auxName_pg _ _ _ E)]]. destruct v as [y|k' i'| | | | |]; simpl in Hv, Hx; try contradiction; inversion Hx; subst.
    - rewrite reserved_aux in Hv. discriminate.
    - apply auxName_inj in H0. destruct H0 as [<- <-]. unfold s2 in Hi. destruct k'; unfold setEncCtr in Hi; simpl in Hi, Hv; lia. }
  assert (Hus : forall x, occurs x (TAnd (map clauseTree cls)) -> ~ freshN s2 x).
  { intros x Hx. apply occurs_and in Hx. destruct Hx as (u & Hu & Hx). apply in_map_iff in Hu. destruct Hu as (c & <- & Hc).
    assert (Hl : exists l, In l c /\ fst (named l) = x).
    { clear -Hx. unfold clauseTree in Hx. destruct c as [|a [|d c]]; simpl in Hx; [contradiction|exists a; simpl; auto|].
      change (occurs x (TOr (map TLit (map named (a :: d :: c))))) in Hx. apply occurs_or in Hx. destruct Hx as (u & Hu & Hx).
      apply in_map_iff in Hu. destruct Hu as (l & <- & Hl). apply in_map_iff in Hl. destruct Hl as (q & <- & Hq). exists q. auto. }
    destruct Hl as (l & Hl & <-). destruct (Hall c l Hc Hl) as (y & Hy & _). unfold named. rewrite Hy. simpl.
    apply (Hsc' (fst l) y); auto. apply (Hsc c Hc l Hl). }
  assert (Hts : forall x, occurs x t -> ~ freshN s x) by (intros x Hx; apply (v_fresh _ _ I); auto).
  set (U := TAnd (map clauseTree cls)) in *.
  set (V' := fun b => V b /\ (eval b t = true -> eval b U = true)).
  assert (Hex : forall b, V b -> exists b', V' b' /\ forall x, ~ freshN s x -> b' x = b x).
  { intros b Hb. destruct (eval b t) eqn:Eb.
    - apply HP in Eb. destruct (Hcompl _ Eb) as (e & Ha & He). exists (blend (encCtr s) n' e b).
      assert (Ag : forall x, ~ freshN s x -> blend (encCtr s) n' e b x = b x) by (intros x Hx; apply blend_old; apply freshN_enc; auto).
      split; auto. split; [eapply (v_supp _ _ I); eauto|]. intros _. apply sat_eval; auto.
      eapply sat_agree; [exact Hsc| |exact He]. apply blend_env; auto.
    - exists b. split; auto. split; auto. congruence. }
  exists V'. assert (X : wext s V s2 V').
  { constructor; auto; [eapply ext_trans; eauto|]. intros b [H _]; auto. }
  split; [|split; [exact X|split; [exact X2|]]].
  - constructor; auto.
    + intros f Hf. exact (K1 (v_cnfk _ _ I) f Hf).
    + intros x Hx Hf. assert (Hx1 : names s1 x) by exact Hx. destruct (N1 x Hx1) as [Hx2|(c & l & Hc & Hl & Hn)].
      * apply (v_fresh _ _ I x Hx2). eapply fresh_mono; eauto.
      * apply (Hsc' (fst l) x); auto. apply (Hsc c Hc l Hl).
    + intros b b' Hb [H1 H2]. split.
      * eapply (v_supp _ _ I); [|exact H1]. intros x Hx. apply Hb. intros Hf. apply Hx. eapply fresh_mono; eauto.
      * rewrite (eval_agree t b' b), (eval_agree U b' b); auto. intros x Hx. apply Hb. intros Hf. apply (Hts x Hx). eapply fresh_mono; eauto.
    + intros b. destruct (v_total _ _ I b) as (b1 & Hb1 & A1). destruct (Hex b1 Hb1) as (b2 & Hb2 & A2).
      exists b2. split; auto. intros x Hx. rewrite A2, A1; auto. intros Hf. apply Hx. eapply fresh_aux; eauto.
    + apply (cok_mono s2 V); [intros b [H _]; auto|]. pose proof (cok_good _ _ _ G1 (v_cache _ _ I)) as [C1 C2 C3]. constructor.
      * intros k f g Hg. destruct (C1 k f g Hg) as (t' & u' & ? & ? & ?). exists t', u'. repeat split; eauto using ext_Den.
      * intros k f g Hg. destruct (C2 k f g Hg) as (t' & ? & ?). exists t'. repeat split; eauto using ext_Den.
      * intros k f g Hg. destruct (C3 k f g Hg) as (t' & ? & ?). exists t'. repeat split; eauto using ext_Den, fspec_ext.
  - split; [|split].
    + intros b Hb. apply HP. apply Hsound. apply sat_eval; auto.
    + intros b [_ H] Hb. auto.
    + congruence.
Qed.
Lemma encode_names P n cls n' : encodes P n (cls, n') -> forall c l, In c cls -> In l c -> exists x, nameOf (fst l) = Some x /\ isName cls x.
Proof.
  intros (_ & Hsc & _) c l Hc Hl. simpl in Hsc. destruct (scope_name n' (fst l)) as [x Hx]; [apply (Hsc c Hc l Hl)|]. exists x. split; auto. exists c, l. auto.
Qed.
Lemma encode_winv s V cls n' t (P : env -> Prop) : winv s V ->
  encodes P (encCtr s) (cls, n') -> (forall b, P (env_of b) <-> eval b t = true) -> (forall x, occurs x t -> names s x) -> pbfree t = false ->
  exists fs s' V', mapM clauseM cls s = Some (fs, s') /\ winv (setEncCtr n' s') V' /\ wext s V (setEncCtr n' s') V' /\
    Forall2 (Den (setEncCtr n' s')) fs (map clauseTree cls) /\ repr V' t (TAnd (map clauseTree cls)).
Proof.
  intros I He HP Ht Hfree. destruct (clausesM_ok (isName cls) cls s (v_wf _ _ I) (encode_names _ _ _ _ He)) as (fs & s1 & E1 & L1 & D1).
  destruct (encode_winv0 s V cls n' t P s1 I He HP Ht Hfree L1) as (V' & I' & X' & E' & R). exists fs, s1, V'. split; auto. split; auto. split; auto. split; auto.
  eapply ext_Dens; eauto.
Qed.

(** the clauses of a constraint *)
Definition pbcOut (cf : encConfig) (f : formula) (p : pbc) (s : state) : list clause * ctr :=
  match srt f with
  | SCC => encodeCC (f_cc cf) (p_cmp p) (p_rhs p) (map (elitOf s) (p_lits p)) (encCtr s)
  | _ => encodePBC (f_ord cf) (f_pbc cf) (f_cc cf) (p_cmp p) (p_rhs p) (map (elitOf s) (p_lits p)) (p_coeffs p) (encCtr s)
  end.
Lemma pbcOut_encodes cf s f k c rhs ls cs : wf s -> Den s f (TPBC k c rhs ls cs) -> encodable cf (TPBC k c rhs ls cs) ->
  exists P, encodes P (encCtr s) (pbcOut cf f (opPbc f s) s) /\ forall b, P (env_of b) <-> eval b (TPBC k c rhs ls cs) = true.
Proof.
  intros Hw Hd [Hcf (Hres & Hlt & Hz & Had)].
  destruct (opPbc_den s f k c rhs ls cs Hw Hd) as (Hl & Hcs & Hr & Hc & Hlen & Hne & Hk & _).
  pose proof (Den_sort _ _ _ Hd) as Hs. set (p := opPbc f s) in *.
  assert (Hscope : scoped (encCtr s) (map (elitOf s) (p_lits p))).
  { intros l Hin. apply in_map_iff in Hin. destruct Hin as (g & <- & Hg). destruct (Forall2_in_l _ _ _ _ Hl Hg) as ([x q] & Hx & Hgl).
    rewrite (elitOf_den s g _ Hw Hgl). red. simpl. apply (Hres x q Hx). }
  destruct Hcf as (Ho & Ha & Hwd & Hn1 & Hn2).
  unfold pbcOut. rewrite Hs, Hc, Hr, Hcs. destruct k.
  - destruct (Hk eq_refl) as (Ecs & Hpos & Hrhs).
    exists (ccHolds c rhs (map (elitOf s) (p_lits p))). split.
    + apply C23_every_constraint_solver_partial; auto.
    + intros b. unfold ccHolds. rewrite (count_env s b _ ls Hw Hl). simpl. rewrite Ecs. reflexivity.
  - exists (pbHolds c rhs (map (elitOf s) (p_lits p)) cs). split.
    + apply C26_encode_solver_partial; auto. rewrite map_length, (Forall2_length _ _ _ Hl). auto.
    + intros b. unfold pbHolds. rewrite (weight_env s b _ ls cs Hw Hl). reflexivity.
Qed.
Lemma encodePBCM_ok cf s V f k c rhs ls cs : winv s V -> Den s f (TPBC k c rhs ls cs) -> encodable cf (TPBC k c rhs ls cs) ->
  wp (fun _ => encodePBCM cf f) s V (fun fs s' V' => exists cls, Forall2 (Den s') fs (map clauseTree cls) /\
     repr V' (TPBC k c rhs ls cs) (TAnd (map clauseTree cls))).
Proof.
  intros I Hd He. pose proof (v_wf _ _ I) as Hw. destruct (pbcOut_encodes cf s f k c rhs ls cs Hw Hd He) as (P & Henc & HP).
  destruct (pbcOut cf f (opPbc f s) s) as [cls n'] eqn:Eout.
  destruct (encode_winv s V cls n' (TPBC k c rhs ls cs) P I Henc HP (Den_names s f _ Hw Hd) eq_refl) as (fs & s1 & V' & E1 & I2 & X2 & D2 & R2).
  exists O, fs, (setEncCtr n' s1), V'. split; [|split; [exact I2|split; [exact X2|exists cls; auto]]].
  intros n _. unfold encodePBCM. unfold bind at 1, get at 1. unfold bind at 1, get at 1.
  fold (pbcOut cf f (opPbc f s) s). rewrite Eout. unfold bind at 1. cbn [fst snd]. rewrite E1. reflexivity.
Qed.

(** ** NegatePBC *)
Lemma pb_tree_cases c rhs ls cs : ls <> [] -> exists k, pb_tree c rhs ls cs = TPBC k c rhs ls cs /\
  (k = true -> ~ (c = LT /\ rhs = 0%Z)).
Proof.
  intros Hne. unfold pb_tree. destruct ls as [|l ls]; [contradiction|].
  destruct (_ && _ && _) eqn:E; [exists true|exists false; split; auto; discriminate]. split; auto. intros _ [-> ->].
  apply andb_true_iff in E. destruct E as [_ E]. discriminate.
Qed.
Lemma rp_conseq_wf {A} (m : nat -> M A) s Q (R : A -> state -> Prop) : rp m s Q ->
  (forall a s', wf s' -> Q a s' -> R a s') -> rp m s R.
Proof. intros H HR. eapply rp_conseq; [exact H|]. intros a s' P. apply HR. eapply pstep_wf; eauto. Qed.

(** a constant, a constraint or a disjunction of constraints *)
Definition shallow (t : tree) : bool :=
  match t with TTrue | TFalse | TPBC _ _ _ _ _ => true | TOr ts => forallb is_pb ts | _ => false end.

Lemma negatePBCM_ok cf s f k c rhs ls cs : wf s -> Den s f (TPBC k c rhs ls cs) -> encodable cf (TPBC k c rhs ls cs) ->
  rp (fun _ => negatePBCM f) s (fun g s' => exists u, Den s' g u /\ encodable cf u /\ shallow u = true /\
    forall b, eval b u = negb (eval b (TPBC k c rhs ls cs))).
Proof.
  intros Hw Hd [Hcf (Hres & Hlt & Hz & Had)].
  destruct (opPbc_den s f k c rhs ls cs Hw Hd) as (Hl & Hcs & Hr & Hc & Hlen & Hne & Hk & _).
  unfold negatePBCM. apply rp_get. set (p := opPbc f s) in *. rewrite Hr, Hcs, Hc.
  assert (Hlen' : length cs = length (p_lits p)) by (rewrite (Forall2_length _ _ _ Hl); auto).
  assert (One : forall c' s', pstep s s' -> c' <> EQ -> rp (fun _ => up (PBC c' rhs (p_lits p) cs)) s' (fun r s2 => exists k', Den s2 r (TPBC k' c' rhs ls cs) /\
            encodable cf (TPBC k' c' rhs ls cs))).
  { intros c' s' P Hc'. eapply rp_conseq_wf; [apply (rp_pbc c' rhs (p_lits p) cs ls); [eapply pstep_wf; eauto|eapply litDen_ext; [eapply pstep_ext; eauto|auto]|auto]|].
    intros r s2 _ D. destruct (pb_tree_cases c' rhs ls cs Hne) as (k' & E & Hk'). rewrite E in D. exists k'. split; [exact D|].
    split; [exact Hcf|]. split; [exact Hres|]. split; [exact Hk'|]. split; [intros _ E0; contradiction|exact Had]. }
  pose proof (pstep_refl s Hw) as P0.
  destruct c.
  - eapply rp_bind; [apply (One LT s P0); discriminate|]. intros x s1 P1 (k1 & D1 & En1).
    eapply rp_bind; [apply (One GT s1 P1); discriminate|]. intros y s2 P2 (k2 & D2 & En2).
    pose proof (ext_Den _ _ (pstep_ext _ _ P2) _ _ D1) as D1'.
    eapply rp_conseq_wf; [apply (rp_or [x; y] [TPBC k1 LT rhs ls cs; TPBC k2 GT rhs ls cs]); [eapply pstep_wf; eauto|repeat constructor; auto]|].
    intros g s3 W3 (u & Du & Eu & Su). exists u. split; auto.
    assert (Hin : forall w, In w [TPBC k1 LT rhs ls cs; TPBC k2 GT rhs ls cs] -> encodable cf w /\ is_pb w = true).
    { intros w [<-|[<-|[]]]; auto. }
    assert (G : encodable cf u /\ shallow u = true).
    { destruct Su as [->|[->|[[Hi _]|(us & -> & Hi & _)]]]; [split; simpl; auto|split; simpl; auto| |]; simpl in Hi.
      - destruct (Hin u Hi) as [E1 E2]. split; auto. destruct u; try discriminate; auto.
      - split; [apply encodable_or; apply Forall_forall; intros w Hwi; apply Hin; apply Hi; auto|].
        simpl. apply forallb_forall. intros w Hwi. apply Hin. apply Hi; auto. }
    destruct G as [G1 G2]. split; auto. split; auto. intros b. rewrite Eu. simpl.
    destruct (Z.ltb_spec rhs (wsum b ls cs)), (Z.ltb_spec (wsum b ls cs) rhs), (Z.eqb_spec (wsum b ls cs) rhs); simpl; auto; lia.
  - eapply rp_conseq_wf; [apply (One GT s P0); discriminate|]. intros g s' _ (k' & D & En). exists (TPBC k' GT rhs ls cs).
    split; auto. split; auto. split; auto. intros b. simpl. destruct (Z.ltb_spec rhs (wsum b ls cs)), (Z.leb_spec (wsum b ls cs) rhs); auto; lia.
  - eapply rp_conseq_wf; [apply (One GE s P0); discriminate|]. intros g s' _ (k' & D & En). exists (TPBC k' GE rhs ls cs).
    split; auto. split; auto. split; auto. intros b. simpl. destruct (Z.ltb_spec (wsum b ls cs) rhs), (Z.leb_spec rhs (wsum b ls cs)); auto; lia.
  - eapply rp_conseq_wf; [apply (One LT s P0); discriminate|]. intros g s' _ (k' & D & En). exists (TPBC k' LT rhs ls cs).
    split; auto. split; auto. split; auto. intros b. simpl. destruct (Z.ltb_spec (wsum b ls cs) rhs), (Z.leb_spec rhs (wsum b ls cs)); auto; lia.
  - eapply rp_conseq_wf; [apply (One LE s P0); discriminate|]. intros g s' _ (k' & D & En). exists (TPBC k' LE rhs ls cs).
    split; auto. split; auto. split; auto. intros b. simpl. destruct (Z.ltb_spec rhs (wsum b ls cs)), (Z.leb_spec (wsum b ls cs) rhs); auto; lia.
Qed.
