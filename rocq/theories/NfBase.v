(** * Proof framework for operations on a factory with auxiliary variables *)
From Coq Require Import String Ascii List Bool ZArith NArith Lia DecimalString DecimalN DecimalFacts.
From Verif Require Import Spec DnnfSpec Factory FactoryProofs FactoryProofs2 FactoryProofs3 FactoryApi FactoryProps Assign NormalForm.
Import ListNotations.
Local Open Scope N_scope.

Lemma Forall2_impl {A B} (P Q : A -> B -> Prop) l l' : (forall a b, P a b -> Q a b) -> Forall2 P l l' -> Forall2 Q l l'.
Proof. intros H. induction 1; constructor; auto. Qed.

(** ** Names of auxiliary variables *)
Lemma append_inj a b c : (a ++ b)%string = (a ++ c)%string -> b = c.
Proof. induction a; simpl; intros H; auto. inversion H; auto. Qed.
Lemma digits_inj m n : NilEmpty.string_of_uint (N.to_uint m) = NilEmpty.string_of_uint (N.to_uint n) -> m = n.
Proof.
  intros H. apply (f_equal NilEmpty.uint_of_string) in H. rewrite !NilEmpty.usu in H. inversion H.
  apply (f_equal N.of_uint) in H1. rewrite !DecimalN.Unsigned.of_to in H1. auto.
Qed.
Lemma auxName_inj k i k' i' : auxName k i = auxName k' i' -> k = k' /\ i = i'.
Proof.
  unfold auxName. intros H. destruct k, k'; simpl in H; try discriminate H; split; auto; apply digits_inj;
  repeat (injection H as H); auto.
Qed.

(** sat/pg_on_solver.go:309 newSolverVariable: the names of the variables a solver adds for subformulas. The factory never creates them. *)
Definition pgName (i : nat) : string := (auxPrefix AuxCNF ++ "SOLVER_" ++ NilEmpty.string_of_uint (N.to_uint (N.of_nat i)))%string.
Lemma pgName_inj i j : pgName i = pgName j -> i = j.
Proof. unfold pgName. intros H. apply append_inj, append_inj, digits_inj in H. lia. Qed.
Lemma auxName_pg k i j : auxName k i <> pgName j.
Proof.
  unfold auxName, pgName. destruct k; intros H; [apply append_inj in H|simpl in H; discriminate H|simpl in H; discriminate H].
  destruct (N.to_uint i); simpl in H; discriminate H.
Qed.

(** ** Predicate caches of conjunctions and disjunctions are always filled *)
Definition cnfk (s : state) : Prop :=
  forall f, (ands s f <> None \/ ors s f <> None) -> predC s PredCNF f <> None.
Definition same3 (s s' : state) : Prop := ands s' = ands s /\ ors s' = ors s /\ predC s' = predC s.
Lemma same3_cnfk s s' : same3 s s' -> cnfk s -> cnfk s'.
Proof. intros (H1 & H2 & H3) H f. rewrite H1, H2, H3. apply H. Qed.

Ltac same3_solve H :=
  unfold nextPosId in H;
  repeat match type of H with
  | context [match ?x with _ => _ end] => destruct x
  end; inversion H; subst; repeat split; reflexivity.

Lemma Var_same3 n s r s' : Var n s = (r, s') -> same3 s s'.
Proof. unfold Var. intros H. same3_solve H. Qed.
Lemma same3_trans a b c : same3 a b -> same3 b c -> same3 a c.
Proof. intros (H1 & H2 & H3) (H4 & H5 & H6). repeat split; congruence. Qed.
Lemma Lit_same3 n p s r s' : Lit n p s = (r, s') -> same3 s s'.
Proof.
  unfold Lit. destruct (Var n s) as [v s1] eqn:Ev. intros H. eapply same3_trans; [eapply Var_same3; eauto|]. same3_solve H.
Qed.
Lemma Not_same3 f s r s' : Not f s = (r, s') -> same3 s s'.
Proof.
  unfold Not. intros H. destruct (feqb f ffalse); [inversion H; subst; repeat split|].
  destruct (feqb f ftrue); [inversion H; subst; repeat split|].
  destruct (srt f); try (same3_solve H).
  destruct (literals s f) as [[n p]|]; eapply Lit_same3; eauto.
Qed.
Lemma Implication_same3 a b s r s' : Implication a b s = (r, s') -> same3 s s'.
Proof.
  unfold Implication. intros H.
  destruct (_ || _); [inversion H; subst; repeat split|]. destruct (feqb a ftrue); [inversion H; subst; repeat split|].
  destruct (_ || _); [eapply Not_same3; eauto|]. same3_solve H.
Qed.
Lemma Equivalence_same3 a b s r s' : Equivalence a b s = (r, s') -> same3 s s'.
Proof.
  unfold Equivalence. intros H.
  destruct (feqb a ftrue); [inversion H; subst; repeat split|]. destruct (feqb b ftrue); [inversion H; subst; repeat split|].
  destruct (feqb a ffalse); [eapply Not_same3; eauto|]. destruct (feqb b ffalse); [eapply Not_same3; eauto|]. same3_solve H.
Qed.
Lemma constructCC_same3 c rhs l s r s' : constructCC c rhs l s = (r, s') -> same3 s s'.
Proof. unfold constructCC. intros H. same3_solve H. Qed.
Lemma constructPBC_same3 c rhs l cs s r s' : constructPBC c rhs l cs s = (r, s') -> same3 s s'.
Proof. unfold constructPBC. intros H. same3_solve H. Qed.
Lemma PBC_same3 c rhs l cs s r s' : PBC c rhs l cs s = (r, s') -> same3 s s'.
Proof.
  unfold PBC. intros H. destruct l; [inversion H; subst; repeat split|].
  destruct (isCC _ _ _ _); [eapply constructCC_same3|eapply constructPBC_same3]; eauto.
Qed.
Lemma allocAnd_cnfk h ops c s r s' : allocAnd h ops c s = (r, s') -> cnfk s -> cnfk s'.
Proof.
  unfold allocAnd, nextPosId. intros H K. inversion H; subst; clear H. intros f. unfold setCNFCaches, upd.
  destruct c; simpl; destruct (feqb f _); try discriminate; apply K.
Qed.
Lemma allocOr_cnfk h ops c s r s' : allocOr h ops c s = (r, s') -> cnfk s -> cnfk s'.
Proof.
  unfold allocOr, nextPosId. intros H K. inversion H; subst; clear H. intros f. unfold setCNFCaches, upd.
  destruct c; simpl; destruct (feqb f _); try discriminate; apply K.
Qed.
Lemma And_cnfk ops s r s' : And ops s = (r, s') -> cnfk s -> cnfk s'.
Proof.
  unfold And. intros H K. destruct (findAnd _ _ s); [inversion H; subst; auto|].
  destruct (condenseAnd s ops) as [[[|x [|y l]] c]|]; try (inversion H; subst; auto; fail).
  destruct (findAnd _ _ s); [inversion H; subst; auto|]. eapply allocAnd_cnfk; eauto.
Qed.
Lemma Or_cnfk ops s r s' : Or ops s = (r, s') -> cnfk s -> cnfk s'.
Proof.
  unfold Or. intros H K. destruct (findOr _ _ s); [inversion H; subst; auto|].
  destruct (condenseOr s ops) as [[[|x [|y l]] c]|]; try (inversion H; subst; auto; fail).
  destruct (findOr _ _ s); [inversion H; subst; auto|]. eapply allocOr_cnfk; eauto.
Qed.
Lemma Clause_cnfk ops s r s' : Clause ops s = (r, s') -> cnfk s -> cnfk s'.
Proof.
  unfold Clause. intros H K. destruct (findOr _ _ s); [inversion H; subst; auto|].
  destruct ops as [|x [|y l]]; try (inversion H; subst; auto; fail). eapply allocOr_cnfk; eauto.
Qed.
Lemma Minterm_cnfk ops s r s' : Minterm ops s = (r, s') -> cnfk s -> cnfk s'.
Proof.
  unfold Minterm. intros H K. destruct (findAnd _ _ s); [inversion H; subst; auto|].
  destruct ops as [|x [|y l]]; try (inversion H; subst; auto; fail). eapply allocAnd_cnfk; eauto.
Qed.

(** ** Names *)
Lemma lit_name s l np : wf s -> litDen s l np -> names s (fst np).
Proof.
  intros [W T] H. destruct np as [n p]; simpl. unfold names. destruct p.
  - apply node_lit in H; auto. apply (c_pos s T) in H. simpl in H. congruence.
  - pose proof (w_ok s W _ _ H) as (_ & _ & Hv). destruct (Hv eq_refl) as (v & Hn & _).
    apply node_lit in Hn; auto. apply (c_pos s T) in Hn. simpl in Hn. congruence.
Qed.
Lemma Den_names s f t : wf s -> Den s f t -> forall x, occurs x t -> names s x.
Proof.
  intros Hw. revert f. induction t using tree_ind'; intros f Hd x Ho; simpl in Ho; try contradiction.
  - subst. apply Den_litt_inv in Hd. eapply lit_name; eauto.
  - apply Den_not_inv in Hd. destruct Hd as (g & _ & Hg). eauto.
  - apply Den_and_inv in Hd. destruct Hd as (l & _ & Hl). clear f. induction Hl; inversion H; subst; [contradiction|].
    destruct Ho as [Ho|Ho]; eauto.
  - apply Den_or_inv in Hd. destruct Hd as (l & _ & Hl). clear f. induction Hl; inversion H; subst; [contradiction|].
    destruct Ho as [Ho|Ho]; eauto.
  - apply Den_impl_inv in Hd. destruct Hd as (a & b & _ & Ha & Hb). destruct Ho; eauto.
  - apply Den_equiv_inv in Hd. destruct Hd as (a & b & _ & Ha & Hb). destruct Ho; eauto.
  - apply Den_pbc_inv in Hd. destruct Hd as (p & HH). assert (Hl : Forall2 (litDen s) (p_lits p) ls) by tauto. destruct Ho as [q Hq].
    destruct (Forall2_in_r _ _ _ _ Hl Hq) as (l & _ & Hd). apply (lit_name s l (x, q)); auto.
Qed.

(** ** Formulas with equal values on the variables that occur *)
Lemma eval_agree t : forall b b', (forall x, occurs x t -> b x = b' x) -> eval b t = eval b' t.
Proof.
  induction t using tree_ind'; intros b b' H'; simpl in *; auto.
  - destruct l as [n p]. unfold eval_lit; simpl in *. rewrite (H' n); auto.
  - f_equal. apply IHt; auto.
  - induction H; simpl in *; auto. rewrite (H b b'); auto. f_equal. apply IHForall. auto.
  - induction H; simpl in *; auto. rewrite (H b b'); auto. f_equal. apply IHForall. auto.
  - rewrite (IHt1 b b'), (IHt2 b b'); auto.
  - rewrite (IHt1 b b'), (IHt2 b b'); auto.
  - f_equal. revert cs. induction ls as [|[n p] ls IH]; intros [|d cs]; simpl; auto.
    rewrite IH; [|intros x [q Hq]; apply H'; exists q; right; auto].
    unfold eval_lit; simpl. rewrite (H' n); auto. exists p; left; auto.
Qed.

(** ** Specification of the cached functions *)
Definition sumz (l : list Z) : Z := fold_right Z.add 0%Z l.
(** atoms: constants, literals and constraints *)
Fixpoint atoms (t : tree) : Z :=
  match t with
  | TNot t => atoms t
  | TAnd ts | TOr ts => sumz (map atoms ts)
  | TImpl a b | TEquiv a b => (atoms a + atoms b)%Z
  | _ => 1%Z
  end.
Fixpoint nodes (t : tree) : Z :=
  match t with
  | TNot t => (1 + nodes t)%Z
  | TAnd ts | TOr ts => (1 + sumz (map nodes ts))%Z
  | TImpl a b | TEquiv a b => (1 + (nodes a + nodes b))%Z
  | TPBC _ _ _ ls _ => (1 + Z.of_nat (length ls))%Z
  | _ => 1%Z
  end.
Definition maxz (l : list Z) : Z := fold_right Z.max 0%Z l.
Fixpoint height (t : tree) : Z :=
  match t with
  | TNot t => (1 + height t)%Z
  | TAnd ts | TOr ts => (1 + maxz (map height ts))%Z
  | TImpl a b | TEquiv a b => (1 + Z.max (height a) (height b))%Z
  | _ => 0%Z
  end.
Definition subtrees (t : tree) : list tree :=
  match t with
  | TNot t => [t]
  | TAnd ts | TOr ts => ts
  | TImpl a b | TEquiv a b => [a; b]
  | _ => []
  end.
Inductive subtree : tree -> tree -> Prop :=
| sub_refl t : subtree t t
| sub_step u v t : In v (subtrees t) -> subtree u v -> subtree u t.
(** every tree is listed after its immediate subtrees *)
Fixpoint bottomup (before l : list tree) : Prop :=
  match l with
  | [] => True
  | t :: r => incl (subtrees t) before /\ bottomup (before ++ [t]) r
  end.
Fixpoint lit_occurs (l : lit) (t : tree) : Prop :=
  match t with
  | TFalse | TTrue => False
  | TLit k => k = l
  | TNot t => lit_occurs l t
  | TAnd ts | TOr ts =>
      (fix go (r : list tree) : Prop := match r with [] => False | t :: r => lit_occurs l t \/ go r end) ts
  | TImpl a b | TEquiv a b => lit_occurs l a \/ lit_occurs l b
  | TPBC _ _ _ ls _ => In l ls
  end.

Definition fspec (s : state) (k : fusort) (t : tree) (v : fuval) : Prop :=
  match k, v with
  | FuncAtoms, VNum z => z = atoms t
  | FuncNodes, VNum z => z = nodes t
  | FuncDepth, VNum z => z = height t
  | FuncVariables, VSet l => exists xs, Forall2 (fun v x => litDen s v (x, true)) l xs /\ NoDup xs /\ forall x, In x xs <-> occurs x t
  | FuncLiterals, VSet l => exists ns, Forall2 (litDen s) l ns /\ NoDup ns /\ forall n, In n ns <-> lit_occurs n t
  | FuncSubnodes, VSet l => exists ts, Forall2 (Den s) l ts /\ NoDup ts /\ bottomup [] ts /\ forall u, In u ts <-> subtree u t
  | FuncDNNFCount, VNum z => z = dcount t
  | _, _ => False
  end.

Definition pspec (k : psort) : tree -> bool :=
  match k with PredNNF => is_nnf | PredCNF => is_cnf | PredDNF => is_dnf | PredAIG => is_aig end.

(** [u] represents [t]: it implies it, and where the auxiliary variables have their intended
    values ([V]) it is implied by it; without constraints in [t] the two are equivalent and [u]
    has no further variables. *)
Definition repr (V : asg -> Prop) (t u : tree) : Prop :=
  (forall b, eval b u = true -> eval b t = true) /\
  (forall b, V b -> eval b t = true -> eval b u = true) /\
  (pbfree t = true -> equiv t u /\ forall x, occurs x u -> occurs x t).

(** the negation normal form of a literal is the literal, that of a CNF and of a constraint is a CNF *)
Definition is_pb (t : tree) : bool := match t with TPBC _ _ _ _ _ => true | _ => false end.
Definition flatOr (t : tree) : bool := match t with TFalse | TTrue | TLit _ => true | TOr ts => forallb is_lit ts | _ => false end.
Definition cnfish (t : tree) : bool := match t with TAnd ts => forallb flatOr ts | TPBC _ _ _ _ _ => true | _ => flatOr t end.
Definition nshape0 (t u : tree) : Prop :=
  (is_lit t = true -> u = t) /\ (cnfish t = true -> is_cnf u = true).
(** ... and a formula in negation normal form is its own negation normal form *)
Definition nshape (t u : tree) : Prop := nshape0 t u /\ (is_nnf t = true -> u = t).
(** constraints occur only positively *)
Fixpoint pospb (t : tree) : bool :=
  match t with
  | TNot t => pbfree t
  | TAnd ts | TOr ts => forallb pospb ts
  | TImpl a b => pbfree a && pospb b
  | TEquiv a b => pbfree a && pbfree b
  | _ => true
  end.
(** every equivalence has operands that are AIGs *)
Fixpoint aigable (t : tree) : bool :=
  match t with
  | TNot t => aigable t
  | TAnd ts | TOr ts => forallb aigable ts
  | TImpl a b => aigable a && aigable b
  | TEquiv a b => is_aig a && is_aig b
  | _ => true
  end.
Record aigspec (V : asg -> Prop) (t u : tree) : Prop := {
  g_val : forall b, V b -> eval b u = eval b t;
  g_pos : pospb t = true -> forall b, eval b u = true -> eval b t = true;
  g_free : pbfree t = true -> equiv t u /\ forall x, occurs x u -> occurs x t;
  g_shape : aigable t = true -> is_aig u = true }.
Definition tspec (V : asg -> Prop) (k : tsort) (t u : tree) : Prop :=
  match k with
  | TransNNF => repr V t u /\ is_nnf u = true /\ nshape t u
  | TransCNF => repr V t u /\ is_cnf u = true
  | TransDNF => repr V t u /\ is_dnf u = true
  | TransAIG => aigspec V t u
  | TransDistr => equiv t u /\ forall x, occurs x u -> occurs x t
  | _ => True
  end.

Record cok (s : state) (V : asg -> Prop) : Prop := {
  k_trans : forall k f g, transC s k f = Some g -> exists t u, Den s f t /\ Den s g u /\ tspec V k t u;
  k_pred : forall k f b, predC s k f = Some b -> exists t, Den s f t /\ b = pspec k t;
  k_func : forall k f v, funcC s k f = Some v -> exists t, Den s f t /\ fspec s k t v
}.

(** ** Worlds: a factory and the intended values of its auxiliary variables *)
Definition auxN (x : string) : Prop := (exists k i, x = auxName k i) \/ exists i, x = pgName i.
Definition freshN (s : state) (x : string) : Prop := (exists k i, x = auxName k i /\ auxCtr s k <= i) \/ exists i, x = pgName i.

Record winv (s : state) (V : asg -> Prop) : Prop := {
  v_wf : wf s;
  v_cnfk : cnfk s;
  v_fresh : forall x, names s x -> ~ freshN s x;
  v_supp : forall b b', (forall x, ~ freshN s x -> b' x = b x) -> V b -> V b';
  v_total : forall b, exists b', V b' /\ forall x, ~ auxN x -> b' x = b x;
  v_cache : cok s V
}.

Record wext (s : state) (V : asg -> Prop) (s' : state) (V' : asg -> Prop) : Prop := {
  x_ext : ext s s';
  x_ctr : forall k, auxCtr s k <= auxCtr s' k;
  x_sub : forall b, V' b -> V b;
  x_extend : forall b, V b -> exists b', V' b' /\ forall x, ~ freshN s x -> b' x = b x
}.

Lemma fresh_mono s s' x : (forall k, auxCtr s k <= auxCtr s' k) -> freshN s' x -> freshN s x.
Proof. intros H [(k & i & -> & Hi)|Hp]; [|right; auto]. left. exists k, i. split; auto. specialize (H k). lia. Qed.
Lemma fresh_aux s x : freshN s x -> auxN x.
Proof. intros [(k & i & -> & _)|Hp]; [left; exists k, i; auto|right; auto]. Qed.

Lemma wext_refl s V : wext s V s V.
Proof. constructor; auto using ext_refl; try lia. intros b Hb. exists b; auto. Qed.
Lemma wext_trans s1 V1 s2 V2 s3 V3 : wext s1 V1 s2 V2 -> wext s2 V2 s3 V3 -> wext s1 V1 s3 V3.
Proof.
  intros [E1 C1 S1 X1] [E2 C2 S2 X2]. constructor; eauto using ext_trans.
  - intros k. specialize (C1 k). specialize (C2 k). lia.
  - intros b Hb. destruct (X1 b Hb) as (b1 & Hb1 & A1). destruct (X2 b1 Hb1) as (b2 & Hb2 & A2).
    exists b2. split; auto. intros x Hx. rewrite A2, A1; auto. intros Hf. apply Hx. eapply fresh_mono; eauto.
Qed.

Lemma repr_mono (V V' : asg -> Prop) t u : (forall b, V' b -> V b) -> repr V t u -> repr V' t u.
Proof. intros H (H1 & H2 & H3). split; [auto|split; auto]. Qed.
Lemma tspec_mono (V V' : asg -> Prop) k t u : (forall b, V' b -> V b) -> tspec V k t u -> tspec V' k t u.
Proof.
  intros H. destruct k; simpl; auto; try (intros [H1 H2]; split; auto; eapply repr_mono; eauto).
Qed.
Lemma litDen1_ext s s' l np : ext s s' -> litDen s l np -> litDen s' l np.
Proof. intros E H. apply E; auto. Qed.
Lemma fspec_ext s s' k t v : ext s s' -> fspec s k t v -> fspec s' k t v.
Proof.
  intros E. destruct k, v; simpl; auto.
  - intros (xs & H & R). exists xs. split; auto. eapply Forall2_impl; [|exact H]. intros; eapply litDen1_ext; eauto.
  - intros (xs & H & R). exists xs. split; auto. eapply Forall2_impl; [|exact H]. intros; eapply litDen1_ext; eauto.
  - intros (xs & H & R). exists xs. split; auto. eapply ext_Dens; eauto.
Qed.
Lemma cok_mono s (V V' : asg -> Prop) : (forall b, V' b -> V b) -> cok s V -> cok s V'.
Proof.
  intros H [K1 K2 K3]. constructor; auto. intros k f g Hg. destruct (K1 k f g Hg) as (t & u & Ht & Hu & Hs).
  exists t, u. repeat split; auto. eapply tspec_mono; eauto.
Qed.

Lemma repr_refl V t : repr V t t.
Proof. repeat split; auto. Qed.

Lemma cok_good s s' V : good s s' -> cok s V -> cok s' V.
Proof.
  intros (W & E & [F1 F2 F3 F4]) [K1 K2 K3]. constructor.
  - intros k f g H. apply F1 in H. destruct H as [H|(-> & -> & t & Ht & Hc)].
    + destruct (K1 k f g H) as (t & u & Ht & Hu & Hs). exists t, u. repeat split; eauto using ext_Den.
    + exists t, t. repeat split; auto.
  - intros k f b H. apply F2 in H. destruct H as [H|(-> & t & Ht & ->)].
    + destruct (K2 k f b H) as (t & Ht & ->). exists t. split; eauto using ext_Den.
    + exists t. split; auto.
  - intros k f v H. rewrite F3 in H. destruct (K3 k f v H) as (t & Ht & Hs). exists t. split; eauto using ext_Den, fspec_ext.
Qed.

(** a constructor call *)
Lemma winv_good s V s' : winv s V -> good s s' -> cnfk s' -> (forall x, names s' x -> names s x \/ ~ freshN s x) ->
  winv s' V /\ wext s V s' V.
Proof.
  intros I G K N. pose proof G as (W & E & F).
  assert (C : auxCtr s' = auxCtr s) by apply F.
  assert (FN : forall x, freshN s' x <-> freshN s x) by (intros x; unfold freshN; rewrite C; tauto).
  split.
  - constructor; auto.
    + intros x Hx Hf. apply FN in Hf. destruct (N x Hx) as [H|H]; auto. eapply v_fresh; eauto.
    + intros b b' Hb. eapply (v_supp s V I). intros x Hx. apply Hb. rewrite FN; auto.
    + apply I.
    + eapply cok_good; eauto. apply I.
  - constructor; auto.
    + intros k. rewrite C. lia.
    + intros b Hb. exists b; auto.
Qed.

(** cache writes *)
Lemma winv_setTrans s V k f g t u : winv s V -> Den s f t -> Den s g u -> tspec V k t u ->
  winv (setTrans k f g s) V /\ wext s V (setTrans k f g s) V.
Proof.
  intros I Hf Hg Hs.
  assert (E : ext s (setTrans k f g s)) by (constructor; auto; simpl; lia).
  split.
  - destruct I as [I1 I2 I3 I4 I5 [K1 K2 K3]]. constructor; auto.
    + apply (cache_wf' s (fun k' f' => if tsort_beq k' k && feqb f' f then Some g else transC s k' f') (predC s) (funcC s)) in I1.
      destruct s; exact I1.
    + constructor; simpl.
      * intros k' f' g'. destruct (tsort_beq k' k && feqb f' f) eqn:Eq.
        -- apply andb_true_iff in Eq. destruct Eq as [Ek Ef]. apply internal_tsort_dec_bl in Ek. subst k'.
           destruct (feqb_spec f' f); [subst|discriminate]. intros H; inversion H; subst.
           exists t, u. repeat split; eauto using ext_Den.
        -- intros H. destruct (K1 _ _ _ H) as (t' & u' & ? & ? & ?). exists t', u'. repeat split; eauto using ext_Den.
      * intros k' f' b H. destruct (K2 _ _ _ H) as (t' & ? & ?). exists t'. split; eauto using ext_Den.
      * intros k' f' b H. destruct (K3 _ _ _ H) as (t' & ? & ?). exists t'. split; eauto using ext_Den, fspec_ext.
  - constructor; auto. + simpl; lia. + intros b Hb; exists b; auto.
Qed.
Lemma winv_setPred s V k f b t : winv s V -> Den s f t -> b = pspec k t ->
  winv (setPred k f b s) V /\ wext s V (setPred k f b s) V.
Proof.
  intros I Hf Hs.
  assert (E : ext s (setPred k f b s)) by (constructor; auto; simpl; lia).
  split.
  - destruct I as [I1 I2 I3 I4 I5 [K1 K2 K3]]. constructor; auto.
    + apply (cache_wf' s (transC s) (fun k' f' => if psort_beq k' k && feqb f' f then Some b else predC s k' f') (funcC s)) in I1.
      destruct s; exact I1.
    + intros f' H. simpl. destruct (_ && _); [discriminate|]. apply I2; auto.
    + constructor; simpl.
      * intros k' f' b' H. destruct (K1 _ _ _ H) as (t' & u' & ? & ? & ?). exists t', u'. repeat split; eauto using ext_Den.
      * intros k' f' g'. destruct (psort_beq k' k && feqb f' f) eqn:Eq.
        -- apply andb_true_iff in Eq. destruct Eq as [Ek Ef]. apply internal_psort_dec_bl in Ek. subst k'.
           destruct (feqb_spec f' f); [subst|discriminate]. intros H; inversion H; subst.
           exists t. repeat split; eauto using ext_Den.
        -- intros H. destruct (K2 _ _ _ H) as (t' & ? & ?). exists t'. repeat split; eauto using ext_Den.
      * intros k' f' b' H. destruct (K3 _ _ _ H) as (t' & ? & ?). exists t'. split; eauto using ext_Den, fspec_ext.
  - constructor; auto. + simpl; lia. + intros b' Hb; exists b'; auto.
Qed.
Lemma winv_setFunc s V k f v t : winv s V -> Den s f t -> fspec s k t v ->
  winv (setFunc k f v s) V /\ wext s V (setFunc k f v s) V.
Proof.
  intros I Hf Hs.
  assert (E : ext s (setFunc k f v s)) by (constructor; auto; simpl; lia).
  split.
  - destruct I as [I1 I2 I3 I4 I5 [K1 K2 K3]]. constructor; auto.
    + apply (cache_wf' s (transC s) (predC s) (fun k' f' => if fusort_beq k' k && feqb f' f then Some v else funcC s k' f')) in I1.
      destruct s; exact I1.
    + constructor; simpl.
      * intros k' f' b' H. destruct (K1 _ _ _ H) as (t' & u' & ? & ? & ?). exists t', u'. repeat split; eauto using ext_Den.
      * intros k' f' b' H. destruct (K2 _ _ _ H) as (t' & ? & ?). exists t'. split; eauto using ext_Den.
      * intros k' f' g'. destruct (fusort_beq k' k && feqb f' f) eqn:Eq.
        -- apply andb_true_iff in Eq. destruct Eq as [Ek Ef]. apply internal_fusort_dec_bl in Ek. subst k'.
           destruct (feqb_spec f' f); [subst|discriminate]. intros H; inversion H; subst.
           exists t. repeat split; eauto using ext_Den, fspec_ext.
        -- intros H. destruct (K3 _ _ _ H) as (t' & ? & ?). exists t'. repeat split; eauto using ext_Den, fspec_ext.
  - constructor; auto. + simpl; lia. + intros b' Hb; exists b'; auto.
Qed.

(** a new auxiliary variable with a given intended value [d] that depends on existing
    variables only *)
Lemma winv_aux s V k v s' (d : asg -> bool) : winv s V -> NewAuxVar k s = (v, s') ->
  (forall b b', (forall x, ~ freshN s x -> b' x = b x) -> d b' = d b) ->
  let V' := fun b => V b /\ b (auxName k (auxCtr s k)) = d b in
  winv s' V' /\ wext s V s' V' /\ litDen s' v (auxName k (auxCtr s k), true) /\
  auxCtr s' = upd auxsort_beq (auxCtr s) k (auxCtr s k + 1).
Proof.
  intros I H Hd V'. destruct (NewAuxVar_spec s k v s' (v_wf s V I) H) as (W' & E & Hn & Hnames & Hc & Ht & Hp & Hf).
  set (x0 := auxName k (auxCtr s k)) in *.
  assert (Hmono : forall k', auxCtr s k' <= auxCtr s' k').
  { intros k'. rewrite Hc. unfold upd. destruct (auxsort_beq k' k) eqn:Eq; [|lia]. apply internal_auxsort_dec_bl in Eq. subst; lia. }
  assert (F0 : freshN s x0) by (left; exists k, (auxCtr s k); split; [reflexivity|lia]).
  assert (F1 : ~ freshN s' x0).
  { intros [(k' & i & Hx & Hi)|(i & Hx)]; [|exact (auxName_pg _ _ _ Hx)]. apply auxName_inj in Hx. destruct Hx as [<- <-]. rewrite Hc in Hi. unfold upd in Hi.
    rewrite (internal_auxsort_dec_lb k k eq_refl) in Hi. lia. }
  assert (X : wext s V s' V').
  { constructor; auto.
    - intros b [Hb _]; auto.
    - intros b Hb. set (b' := fun x => if String.eqb x x0 then d b else b x).
      assert (A : forall x, ~ freshN s x -> b' x = b x).
      { intros x Hx. unfold b'. destruct (String.eqb_spec x x0); auto. subst. contradiction. }
      exists b'. split; auto. split.
      + eapply (v_supp s V I); eauto.
      + rewrite (Hd b b' A). unfold b'. rewrite String.eqb_refl. reflexivity. }
  split; [|split; [exact X|split; [exact Hn|exact Hc]]].
  constructor; auto.
  - (* cnfk *)
    eapply same3_cnfk; [|exact (v_cnfk s V I)]. unfold NewAuxVar in H. destruct (Var _ s) as [v1 s1] eqn:Ev. apply Var_same3 in Ev.
    inversion H; subst. exact Ev.
  - intros x Hx Hfx. apply Hnames in Hx. destruct Hx as [Hx| ->]; [|contradiction].
    apply (v_fresh s V I x Hx). eapply fresh_mono; eauto.
  - intros b b' Hb [HV He]. split.
    + eapply (v_supp s V I); [|exact HV]. intros x Hx. apply Hb. intros Hf'. apply Hx. eapply fresh_mono; eauto.
    + rewrite (Hb x0); auto. rewrite He. symmetry. apply Hd. intros x Hx. apply Hb. intros Hf'. apply Hx. eapply fresh_mono; eauto.
  - intros b. destruct (v_total s V I b) as (b1 & Hb1 & A1). destruct (x_extend _ _ _ _ X b1 Hb1) as (b2 & Hb2 & A2).
    exists b2. split; auto. intros x Hx. rewrite A2, A1; auto. intros Hf'. apply Hx. eapply fresh_aux; eauto.
  - destruct (v_cache s V I) as [K1 K2 K3]. constructor; rewrite ?Ht, ?Hp, ?Hf.
    + intros k' f g Hg. destruct (K1 _ _ _ Hg) as (t & u & ? & ? & ?). exists t, u. repeat split; eauto using ext_Den.
      apply (tspec_mono V V'); auto. intros ? [? _]; auto.
    + intros k' f b Hg. destruct (K2 _ _ _ Hg) as (t & ? & ?). exists t. repeat split; eauto using ext_Den.
    + intros k' f b Hg. destruct (K3 _ _ _ Hg) as (t & ? & ?). exists t. repeat split; eauto using ext_Den, fspec_ext.
Qed.

(** ** Total correctness of operations with fuel *)
Definition wp {A} (m : nat -> M A) (s : state) (V : asg -> Prop) (Q : A -> state -> (asg -> Prop) -> Prop) : Prop :=
  exists n0 a s' V', (forall n, (n0 <= n)%nat -> m n s = Some (a, s')) /\ winv s' V' /\ wext s V s' V' /\ Q a s' V'.

Lemma wp_conseq {A} (m : nat -> M A) s V Q (R : A -> state -> (asg -> Prop) -> Prop) : wp m s V Q ->
  (forall a s' V', winv s' V' -> wext s V s' V' -> Q a s' V' -> R a s' V') -> wp m s V R.
Proof. intros (n0 & a & s' & V' & H & I & X & HQ) HR. exists n0, a, s', V'. auto 6. Qed.
Lemma wp_ret {A} (a : A) s V (Q : A -> state -> (asg -> Prop) -> Prop) : winv s V -> Q a s V -> wp (fun _ => ret a) s V Q.
Proof. intros I H. exists O, a, s, V. split; [reflexivity|]. split; auto. split; [apply wext_refl|auto]. Qed.
Lemma wp_bind {A B} (m : nat -> M A) (k : nat -> A -> M B) s V Q (R : B -> state -> (asg -> Prop) -> Prop) : wp m s V Q ->
  (forall a s' V', winv s' V' -> wext s V s' V' -> Q a s' V' -> wp (fun n => k n a) s' V' R) ->
  wp (fun n => bind (m n) (k n)) s V R.
Proof.
  intros (n0 & a & s' & V' & H & I & X & HQ) HR. destruct (HR a s' V' I X HQ) as (n1 & b & s2 & V2 & H1 & I1 & X1 & HR1).
  exists (Nat.max n0 n1), b, s2, V2. split.
  - intros n Hn. unfold bind. rewrite H; [|lia]. apply H1. lia.
  - split; auto. split; auto. eapply wext_trans; eauto.
Qed.
Lemma wp_S {A} (m : nat -> M A) s V Q : wp (fun n => m (S n)) s V Q -> wp m s V Q.
Proof.
  intros (n0 & a & s' & V' & H & R). exists (S n0), a, s', V'. split; auto. intros [|n] Hn; [lia|]. apply H. lia.
Qed.
Lemma wp_ext {A} (m m' : nat -> M A) s V Q : (forall n, m n s = m' n s) -> wp m s V Q -> wp m' s V Q.
Proof. intros E (n0 & a & s' & V' & H & R). exists n0, a, s', V'. split; auto. intros n Hn. rewrite <- E. auto. Qed.
Lemma wp_get {A B} (g : state -> A) (k : nat -> A -> M B) s V R :
  wp (fun n => k n (g s)) s V R -> wp (fun n => bind (get g) (k n)) s V R.
Proof. intros H. exact H. Qed.
Lemma wp_bret {A B} (a : A) (k : nat -> A -> M B) s V R :
  wp (fun n => k n a) s V R -> wp (fun n => bind (ret a) (k n)) s V R.
Proof. intros H. exact H. Qed.
(** a state transformer *)
Lemma wp_up {A B} (g : state -> A * state) (k : nat -> A -> M B) s V R a s' V' : g s = (a, s') ->
  wext s V s' V' -> wp (fun n => k n a) s' V' R -> wp (fun n => bind (up g) (k n)) s V R.
Proof.
  intros Hg X (n1 & b & s2 & V2 & H1 & I1 & X1 & HR1). exists n1, b, s2, V2. split.
  - intros n Hn. unfold bind, up. rewrite Hg. auto.
  - split; auto. split; auto. eapply wext_trans; eauto.
Qed.
Lemma wp_put {B} (g : state -> state) (k : nat -> unit -> M B) s V R V' :
  wext s V (g s) V' -> wp (fun n => k n tt) (g s) V' R -> wp (fun n => bind (put g) (k n)) s V R.
Proof.
  intros X (n1 & b & s2 & V2 & H1 & I1 & X1 & HR1). exists n1, b, s2, V2. split; [exact H1|].
  split; auto. split; auto. eapply wext_trans; eauto.
Qed.
(** a last [up] *)
Lemma up_ret {A} (g : state -> A * state) s : up g s = bind (up g) ret s.
Proof. unfold up, bind, ret. destruct (g s); reflexivity. Qed.
Lemma wp_up_last {A} (g : state -> A * state) s V (Q : A -> state -> (asg -> Prop) -> Prop) :
  wp (fun n => bind (up g) ret) s V Q -> wp (fun _ => up g) s V Q.
Proof. apply wp_ext. intros n. rewrite up_ret. reflexivity. Qed.

(** constructors *)
Lemma winv_not s V f t r s' : winv s V -> Den s f t -> Not f s = (r, s') ->
  winv s' V /\ wext s V s' V /\ exists u, Den s' r u /\ is_neg_of t u.
Proof.
  intros I Hd H. destruct (Not_spec s f t r s' (v_wf _ _ I) Hd H) as (G & N & D & _).
  destruct (winv_good s V s' I G) as [I' X']; auto.
  eapply same3_cnfk; [eapply Not_same3; eauto|apply I].
Qed.
Lemma winv_and s V ops ts r s' : winv s V -> Forall2 (Den s) ops ts -> And ops s = (r, s') ->
  winv s' V /\ wext s V s' V /\ exists u, Den s' r u /\ equiv u (TAnd ts) /\ and_shape ts u.
Proof.
  intros I Hd H. destruct (And_spec s ops ts r s' (v_wf _ _ I) Hd H) as (G & N & D & _).
  destruct (winv_good s V s' I G) as [I' X']; auto.
  eapply And_cnfk; [eauto|apply I].
Qed.
Lemma winv_or s V ops ts r s' : winv s V -> Forall2 (Den s) ops ts -> Or ops s = (r, s') ->
  winv s' V /\ wext s V s' V /\ exists u, Den s' r u /\ equiv u (TOr ts) /\ or_shape ts u.
Proof.
  intros I Hd H. destruct (Or_spec s ops ts r s' (v_wf _ _ I) Hd H) as (G & N & D & _).
  destruct (winv_good s V s' I G) as [I' X']; auto.
  eapply Or_cnfk; [eauto|apply I].
Qed.
Lemma winv_impl s V a b ta tb r s' : winv s V -> Den s a ta -> Den s b tb -> Implication a b s = (r, s') ->
  winv s' V /\ wext s V s' V /\ exists u, Den s' r u /\ equiv u (TImpl ta tb) /\ impl_shape ta tb u.
Proof.
  intros I Ha Hb H. destruct (Implication_spec s a b ta tb r s' (v_wf _ _ I) Ha Hb H) as (G & N & D).
  destruct (winv_good s V s' I G) as [I' X']; auto.
  eapply same3_cnfk; [eapply Implication_same3; eauto|apply I].
Qed.
Lemma winv_equiv s V a b ta tb r s' : winv s V -> Den s a ta -> Den s b tb -> Equivalence a b s = (r, s') ->
  winv s' V /\ wext s V s' V /\ exists u, Den s' r u /\ equiv u (TEquiv ta tb) /\ equiv_shape ta tb u.
Proof.
  intros I Ha Hb H. destruct (Equivalence_spec s a b ta tb r s' (v_wf _ _ I) Ha Hb H) as (G & N & D).
  destruct (winv_good s V s' I G) as [I' X']; auto.
  eapply same3_cnfk; [eapply Equivalence_same3; eauto|apply I].
Qed.
Lemma winv_pbc s V c rhs ls cs ns r s' : winv s V -> Forall2 (litDen s) ls ns -> length cs = length ls ->
  PBC c rhs ls cs s = (r, s') -> winv s' V /\ wext s V s' V /\ Den s' r (pb_tree c rhs ns cs).
Proof.
  intros I Hl Hn H. destruct (PBC_spec s c rhs ls cs ns r s' (v_wf _ _ I) Hl Hn H) as (G & N & D).
  destruct (winv_good s V s' I G) as [I' X']; auto.
  eapply same3_cnfk; [eapply PBC_same3; eauto|apply I].
Qed.
Lemma winv_clause s V ops ns r s' : winv s V -> Forall2 (litDen s) ops ns -> Clause ops s = (r, s') ->
  winv s' V /\ wext s V s' V /\ exists u, Den s' r u /\ equiv u (TOr (map TLit ns)) /\
    u = match ns with [] => TFalse | [l] => TLit l | _ => TOr (map TLit ns) end.
Proof.
  intros I Hl H.
  assert (Hd : Forall2 (Den s) ops (map TLit ns)). { clear -Hl. induction Hl; simpl; constructor; auto. apply litDen_Den; auto. }
  assert (Hs : Forall (fun g => srt g = SLit) ops). { clear -Hl. induction Hl; constructor; auto. apply (node_sort _ _ _ H). }
  destruct (Clause_spec s ops _ r s' (v_wf _ _ I) Hd Hs H) as (G & N & u & D & Eq & Hu).
  destruct (winv_good s V s' I G) as [I' X']; auto.
  - eapply Clause_cnfk; [eauto|apply I].
  - split; auto. split; auto. exists u. split; auto. split; auto. rewrite Hu. destruct ns as [|? [|? ?]]; reflexivity.
Qed.
Lemma winv_lit s V n p r s' : winv s V -> ~ freshN s n -> Lit n p s = (r, s') ->
  winv s' V /\ wext s V s' V /\ litDen s' r (n, p).
Proof.
  intros I Hn H. destruct (Lit_spec s n p r s' (v_wf _ _ I) H) as (G & D & N).
  destruct (winv_good s V s' I G) as [I' X'].
  - eapply same3_cnfk; [eapply Lit_same3; eauto|apply I].
  - intros x Hx. apply N in Hx. destruct Hx as [Hx| ->]; auto.
  - auto.
Qed.
Lemma winv_negateLit s V l n p r s' : winv s V -> litDen s l (n, p) -> negateLit l s = (r, s') ->
  winv s' V /\ wext s V s' V /\ litDen s' r (n, negb p).
Proof.
  intros I Hl H. unfold negateLit, LitNamePhase in H. pose proof (v_wf _ _ I) as [W T].
  assert (E : literals s l = Some (n, p)) by (apply node_lit; auto). rewrite E in H.
  eapply winv_lit; eauto. apply (v_fresh s V I). apply (lit_name s l (n, p) (conj W T) Hl).
Qed.

(** ** Reading operands *)
Lemma opNot_den s f t : wf s -> Den s f (TNot t) -> Den s (opNot f s) t.
Proof.
  intros [W T] H. apply Den_not_inv in H. destruct H as (g & Hn & Hg). apply node_nots in Hn; auto.
  unfold opNot, NotOperand. rewrite Hn. auto.
Qed.
Lemma opBin_impl s f t u : wf s -> Den s f (TImpl t u) -> Den s (fst (opBin f s)) t /\ Den s (snd (opBin f s)) u.
Proof.
  intros [W T] H. pose proof (Den_sort _ _ _ H) as Hs. apply Den_impl_inv in H. destruct H as (a & b & Hn & Ha & Hb).
  apply node_impls in Hn; auto. unfold opBin, BinaryLeftRight. rewrite Hs, Hn. auto.
Qed.
Lemma opBin_equiv s f t u : wf s -> Den s f (TEquiv t u) -> Den s (fst (opBin f s)) t /\ Den s (snd (opBin f s)) u.
Proof.
  intros [W T] H. pose proof (Den_sort _ _ _ H) as Hs. apply Den_equiv_inv in H. destruct H as (a & b & Hn & Ha & Hb).
  apply node_equivs in Hn; auto. unfold opBin, BinaryLeftRight. rewrite Hs, Hn. auto.
Qed.
Lemma opNary_and s f ts : wf s -> Den s f (TAnd ts) -> Forall2 (Den s) (opNary f s) ts.
Proof.
  intros [W T] H. pose proof (Den_sort _ _ _ H) as Hs. apply Den_and_inv in H. destruct H as (l & Hn & Ha).
  apply node_ands in Hn; auto. unfold opNary, NaryOperands. rewrite Hs, Hn. auto.
Qed.
Lemma opNary_or s f ts : wf s -> Den s f (TOr ts) -> Forall2 (Den s) (opNary f s) ts.
Proof.
  intros [W T] H. pose proof (Den_sort _ _ _ H) as Hs. apply Den_or_inv in H. destruct H as (l & Hn & Ha).
  apply node_ors in Hn; auto. unfold opNary, NaryOperands. rewrite Hs, Hn. auto.
Qed.
Lemma opPbc_den s f k c r ls cs : wf s -> Den s f (TPBC k c r ls cs) ->
  Forall2 (litDen s) (p_lits (opPbc f s)) ls /\ p_coeffs (opPbc f s) = cs /\ p_rhs (opPbc f s) = r /\ p_cmp (opPbc f s) = c /\
  length cs = length ls /\ ls <> [] /\
  (k = true -> cs = map (fun _ => 1%Z) ls /\ forallb snd ls = true /\ (0 <= r)%Z) /\
  (k = false -> isCC c r (p_lits (opPbc f s)) cs = false).
Proof.
  intros Hw H. pose proof Hw as [W T]. pose proof (Den_sort _ _ _ H) as Hs. apply Den_pbc_inv in H.
  destruct H as (p & Hn & Hl & Hc & Hr & Hcs). pose proof (w_ok s W _ _ Hn) as Ok.
  assert (E : opPbc f s = p).
  { unfold opPbc, PBCOps. rewrite Hs. destruct k; [apply node_ccs in Hn|apply node_pbcs in Hn]; auto; rewrite Hn; auto. }
  rewrite E. clear E. subst c r cs. split; auto. split; auto. split; auto. split; auto.
  pose proof (Forall2_length _ _ _ Hl) as Hlen.
  assert (Hne : p_lits p <> [] -> ls <> []). { intros Hx ->. destruct (p_lits p); [auto|discriminate]. }
  destruct k; simpl in Ok.
  - destruct Ok as (_ & (H1 & H1') & H2 & H3). split; [rewrite H2, map_length; auto|]. split; [auto|]. split; [|discriminate].
    intros _. split; [rewrite H2; apply map_const_length; auto|]. split; auto.
    clear -Hl H3. induction Hl; simpl; auto. inversion H3; subst. rewrite IHHl; auto. rewrite andb_true_r.
    destruct H2 as [n Hn]. unfold litDen in H. rewrite Hn in H. inversion H; auto.
  - destruct Ok as (_ & (H1 & H1') & H2 & H3). split; [congruence|]. split; [auto|]. split; [discriminate|auto].
Qed.

Lemma wext_wf s V s' V' : winv s' V' -> wext s V s' V' -> wf s'. Proof. intros I _; apply I. Qed.
Lemma wext_Den s V s' V' f t : wext s V s' V' -> Den s f t -> Den s' f t.
Proof. intros X. apply ext_Den. apply X. Qed.
Lemma wext_Dens s V s' V' l ts : wext s V s' V' -> Forall2 (Den s) l ts -> Forall2 (Den s') l ts.
Proof. intros X. apply ext_Dens. apply X. Qed.
Lemma wext_litDens s V s' V' l ts : wext s V s' V' -> Forall2 (litDen s) l ts -> Forall2 (litDen s') l ts.
Proof. intros X. apply litDen_ext. apply X. Qed.
Lemma wext_repr s V s' V' t u : wext s V s' V' -> repr V t u -> repr V' t u.
Proof. intros X. apply repr_mono. apply X. Qed.

(** mapM with a postcondition that is stable under extension *)
Lemma wp_mapM {A B C} (h : nat -> A -> M B) (P : state -> A -> C -> Prop) (Q : state -> (asg -> Prop) -> B -> C -> Prop) :
  (forall s V s' V', wext s V s' V' -> forall a c, P s a c -> P s' a c) ->
  (forall s V s' V', wext s V s' V' -> forall a c, Q s V a c -> Q s' V' a c) ->
  forall l cs s V,
  (forall a c, In a l -> In c cs -> forall s' V', winv s' V' -> wext s V s' V' -> P s' a c ->
     wp (fun n => h n a) s' V' (fun b s2 V2 => Q s2 V2 b c)) ->
  winv s V -> Forall2 (P s) l cs ->
  wp (fun n => mapM (h n) l) s V (fun bs s' V' => Forall2 (Q s' V') bs cs).
Proof.
  intros HP HQ l. induction l as [|a l IH]; intros cs s V Hh I HF; inversion HF; subst.
  - apply wp_ret; auto.
  - simpl. eapply wp_bind.
    + apply (Hh a y); simpl; auto. apply wext_refl.
    + intros b s1 V1 I1 X1 Hb. simpl. eapply wp_bind.
      * apply (IH l' s1 V1); auto.
        -- intros a' c' Ha Hc s2 V2 I2 X2 H'. apply Hh; simpl; auto. eapply wext_trans; eauto.
        -- eapply Forall2_impl; [|eassumption]. intros; eapply HP; eauto.
      * intros bs s2 V2 I2 X2 Hbs. apply wp_ret; auto. constructor; auto. eapply HQ; eauto.
Qed.
