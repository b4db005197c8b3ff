(** * Proof tools for the simplifications: operands and weights of conjunctions and disjunctions *)
From Coq Require Import String Ascii List Bool ZArith NArith Lia Permutation.
From Verif Require Import Spec Factory FactoryProofs FactoryProofs2 FactoryProofs3 FactoryApi FactoryProps Assign NormalForm NfBase NfAssign NfNnf NfCnf Simplify.
Import ListNotations.
Local Open Scope N_scope.

Definition neutral (k : fsort) : tree := match k with SAnd => TTrue | _ => TFalse end.
Definition absorb (k : fsort) : tree := match k with SAnd => TFalse | _ => TTrue end.
Definition flatT (k : fsort) (ts : list tree) : list tree := match k with SAnd => flatA ts | _ => flatO ts end.
Definition opsOf (k : fsort) (u : tree) : list tree :=
  match k, u with
  | SAnd, TAnd us => us
  | SAnd, _ => match u with TTrue | TFalse => [] | _ => [u] end
  | _, TOr us => us
  | _, TTrue | _, TFalse => []
  | _, _ => [u]
  end.

(** ** Condensing *)
Lemma NoDup_app_snoc {A} (l : list A) x : NoDup l -> ~ In x l -> NoDup (l ++ [x]).
Proof.
  induction l; simpl; intros H Hx; [constructor; [intros []|constructor]|]. inversion H; subst. constructor; [|apply IHl; tauto].
  rewrite in_app_iff. simpl. intuition.
Qed.
Lemma condense_all add (e : formula) : (forall c o f c' o' b, add c o f = Some (c', o', b) ->
    (f = e /\ c' = c /\ o' = o) \/ (c', o') = (if existsb (N.eqb (fid f)) c then (c, o) else (fid f :: c, o ++ [f]))) ->
  forall l cache ops cnf ops' c, (forall i, In i cache <-> In i (map fid ops)) -> NoDup (map fid ops) ->
  condenseLoop add cache ops cnf l = Some (ops', c) ->
  NoDup (map fid ops') /\ incl ops ops' /\ incl ops' (ops ++ l) /\ forall f, In f l -> f = e \/ exists g, In g ops' /\ fid g = fid f.
Proof.
  intros Hadd l. induction l as [|f l IH]; simpl; intros cache ops cnf ops' c Hc Hn H.
  - inversion H; subst. split; auto. split; [apply incl_refl|]. split; [rewrite app_nil_r; apply incl_refl|intros f []].
  - destruct (add cache ops f) as [[[c' o'] b]|] eqn:E; [|discriminate]. apply Hadd in E.
    destruct E as [(-> & -> & ->)|E].
    + destruct (IH _ _ _ _ _ Hc Hn H) as (A & B & D & C). split; auto. split; auto. split.
      * intros x Hx. apply D in Hx. rewrite in_app_iff in *. simpl. tauto.
      * intros g [<-|Hg]; auto.
    + destruct (existsb (N.eqb (fid f)) cache) eqn:Ex; inversion E; subst.
      * destruct (IH _ _ _ _ _ Hc Hn H) as (A & B & D & C). split; auto. split; auto. split.
        { intros x Hx. apply D in Hx. rewrite in_app_iff in *. simpl. tauto. }
        intros g [<-|Hg]; auto. right.
        apply existsb_exists in Ex. destruct Ex as (i & Hi & Hf). apply N.eqb_eq in Hf. apply Hc in Hi. apply in_map_iff in Hi.
        destruct Hi as (g & Hg & Hgi). exists g. split; auto. congruence.
      * assert (Hnf : ~ In (fid f) (map fid ops)).
        { intros Hi. apply Hc in Hi. assert (existsb (N.eqb (fid f)) cache = true); [|congruence]. apply existsb_exists. exists (fid f). split; auto. apply N.eqb_refl. }
        destruct (IH (fid f :: cache) (ops ++ [f]) (cnf && b) ops' c) as (A & B & D & C); auto.
        -- intros i. rewrite map_app, in_app_iff. simpl. rewrite Hc. tauto.
        -- rewrite map_app. simpl. apply NoDup_app_snoc; auto.
        -- split; auto. split; [intros x Hx; apply B, in_or_app; auto|]. split.
           { intros x Hx. apply D in Hx. rewrite <- app_assoc in Hx. exact Hx. }
           intros g [<-|Hg]; auto. right. exists f. split; auto. apply B, in_or_app. simpl. auto.
Qed.

Lemma addAnd_cases s c o f c' o' b : addFormulaAnd s c o f = Some (c', o', b) ->
  (f = ftrue /\ c' = c /\ o' = o) \/ (c', o') = (if existsb (N.eqb (fid f)) c then (c, o) else (fid f :: c, o ++ [f])).
Proof.
  unfold addFormulaAnd. destruct (feqb_spec f ftrue) as [->|]; [intros H; inversion H; subst; auto|].
  destruct (feqb f ffalse || containsComplement s c f); [discriminate|]. right.
  destruct (existsb _ c); inversion H; subst; auto.
Qed.
Lemma addOr_cases s c o f c' o' b : addFormulaOr s c o f = Some (c', o', b) ->
  (f = ffalse /\ c' = c /\ o' = o) \/ (c', o') = (if existsb (N.eqb (fid f)) c then (c, o) else (fid f :: c, o ++ [f])).
Proof.
  unfold addFormulaOr. destruct (feqb_spec f ffalse) as [->|]; [intros H; inversion H; subst; auto|].
  destruct (feqb f ftrue || containsComplement s c f); [discriminate|]. right.
  destruct (existsb _ c); inversion H; subst; auto.
Qed.

Definition nary_res (k : fsort) (ts : list tree) (u : tree) : Prop :=
  incl (opsOf k u) (flatT k ts) /\
  (u = absorb k \/ forall t, In t (flatT k ts) -> t = neutral k \/ In t (opsOf k u)) /\
  (opsOf k u = ts \/ NoDup (opsOf k u)).

Lemma Forall2_in_rr {A B} (R : A -> B -> Prop) l l' : Forall2 R l l' -> forall y, In y l' -> exists x, In x l /\ R x y.
Proof. induction 1; intros z []; [subst; exists x; simpl; auto|]. destruct (IHForall2 z H1) as (w & ? & ?). exists w; simpl; auto. Qed.
Lemma Forall2_in_ll {A B} (R : A -> B -> Prop) l l' : Forall2 R l l' -> forall x, In x l -> exists y, In y l' /\ R x y.
Proof. induction 1; intros z []; [subst; exists y; simpl; auto|]. destruct (IHForall2 z H1) as (w & ? & ?). exists w; simpl; auto. Qed.

Lemma NoDup_trees s l ts : wf s -> Forall2 (Den s) l ts -> NoDup (map fid l) -> NoDup ts.
Proof.
  intros Hw. induction 1; simpl; intros Hn; constructor; inversion Hn; subst; auto.
  intros Hy. destruct (Forall2_in_rr _ _ _ H0 _ Hy) as (g & Hg & Dg). apply H3. assert (g = x) as -> by (eapply Den_inj; eauto). apply in_map; auto.
Qed.
Lemma fid_known s f g : wf s -> known s f -> known s g -> fid g = fid f -> g = f.
Proof. intros [W _] Hf Hg E. apply (w_inj s W); auto. Qed.

Lemma And_full s ops ts r s' u : wf s -> Forall2 (Den s) ops ts -> And ops s = (r, s') -> Den s' r u -> nary_res SAnd ts u.
Proof.
  intros Hw Hd H Du. pose proof Hw as [W T]. unfold And in H.
  destruct (findAnd (hashOperands ops) ops s) as [f|] eqn:Ef.
  { inversion H; subst. apply findAnd_some in Ef; auto. assert (u = TAnd ts) as -> by (eapply Den_fun; [exact Du|eapply DAnd; eauto]).
    destruct (w_ok _ W _ _ Ef) as (_ & Hlen & Hi). pose proof (inners_A _ _ _ Hd Hi) as Hia.
    unfold nary_res. simpl. rewrite (flatA_inner ts Hia). split; [apply incl_refl|]. auto. }
  unfold condenseAnd in H.
  pose proof (condense_all (addFormulaAnd s) ftrue (addAnd_cases s) (flattenOps SAnd (ands s) ops) [] [] true) as CA.
  pose proof (flatten_A _ _ _ Hw Hd) as HF.
  pose proof (condenseAnd_loop s Hw _ _ [] [] true (flatten_A _ _ _ Hw Hd) (Forall2_nil _) (flatten_sort_A _ _ _ Hw Hd) (Forall_nil _) (NoDup_nil _)) as HC.
  lapply HC; [clear HC; intros HC|intros _ g h []]. specialize (HC eq_refl). simpl in HC.
  destruct (condenseLoop _ [] [] true _) as [[cond c]|] eqn:El.
  2:{ inversion H; subst. rewrite (Den_false_inv _ _ Du). split; [intros x []|]. split; [left; reflexivity|right; constructor]. }
  destruct HC as (to & Dto & Hev & Hcl & Hinn & Hnd & Hnc & Hincl).
  destruct (CA cond c) as (_ & _ & Hback & Hall); [simpl; tauto|constructor|reflexivity|].
  assert (Hc : forall t, In t (flatT SAnd ts) -> t = TTrue \/ In t to).
  { intros t Ht. destruct (Forall2_in_rr _ _ _ HF _ Ht) as (f & Hf & Df). destruct (Hall f Hf) as [-> |(g & Hg & Eg)].
    - left. eapply Den_true_inv; eauto.
    - right. destruct (Forall2_in_ll _ _ _ Dto _ Hg) as (t' & Ht' & Dg). assert (g = f) as -> by (eapply fid_known; eauto using Den_known).
      rewrite (Den_fun _ _ _ _ Df Dg). auto. }
  destruct cond as [|f1 [|f2 cond]].
  - inversion Dto; subst. inversion H; subst. rewrite (Den_true_inv _ _ Du). split; [intros x []|]. split; [right; exact Hc|right; constructor].
  - inversion Dto; subst. inversion H4; subst. inversion H; subst. assert (u = y) as -> by (eapply Den_fun; eauto).
    assert (Ei : innerTA y = true) by (inversion Hinn; subst; rewrite <- (inner_A _ _ _ H2); auto).
    assert (Eo : opsOf SAnd y = [y]) by (destruct y; try discriminate; reflexivity).
    unfold nary_res. rewrite Eo. split; [exact Hincl|]. split; [right; exact Hc|right; constructor; [intros []|constructor]].
  - assert (Nt : NoDup to) by (eapply NoDup_trees; eauto).
    assert (u = TAnd to) as ->.
    { destruct (findAnd (hashOperands (f1 :: f2 :: cond)) (f1 :: f2 :: cond) s) as [f|] eqn:Ef2.
      + inversion H; subst. apply findAnd_some in Ef2; auto. eapply Den_fun; [exact Du|eapply DAnd; eauto].
      + pose proof (findAnd_none _ _ Hw Ef2) as Hnew.
        destruct (allocAnd_spec s _ to c r s' Hw Dto Hnew) as (G & SN & D'); auto; try (simpl; lia). eapply Den_fun; eauto. }
    split; [exact Hincl|]. split; [right; exact Hc|right; exact Nt].
Qed.
Lemma Or_full s ops ts r s' u : wf s -> Forall2 (Den s) ops ts -> Or ops s = (r, s') -> Den s' r u -> nary_res SOr ts u.
Proof.
  intros Hw Hd H Du. pose proof Hw as [W T]. unfold Or in H.
  destruct (findOr (hashOperands ops) ops s) as [f|] eqn:Ef.
  { inversion H; subst. apply findOr_some in Ef; auto. assert (u = TOr ts) as -> by (eapply Den_fun; [exact Du|eapply DOr; eauto]).
    destruct (w_ok _ W _ _ Ef) as (_ & Hlen & Hi). pose proof (inners_O _ _ _ Hd Hi) as Hia.
    unfold nary_res. simpl. rewrite (flatO_inner ts Hia). split; [apply incl_refl|]. auto. }
  unfold condenseOr in H.
  pose proof (condense_all (addFormulaOr s) ffalse (addOr_cases s) (flattenOps SOr (ors s) ops) [] [] true) as CA.
  pose proof (flatten_O _ _ _ Hw Hd) as HF.
  pose proof (condenseOr_loop s Hw _ _ [] [] true (flatten_O _ _ _ Hw Hd) (Forall2_nil _) (flatten_sort_O _ _ _ Hw Hd) (Forall_nil _) (NoDup_nil _)) as HC.
  lapply HC; [clear HC; intros HC|intros _ g h []]. specialize (HC eq_refl). simpl in HC.
  destruct (condenseLoop _ [] [] true _) as [[cond c]|] eqn:El.
  2:{ inversion H; subst. rewrite (Den_true_inv _ _ Du). split; [intros x []|]. split; [left; reflexivity|right; constructor]. }
  destruct HC as (to & Dto & Hev & Hcl & Hinn & Hnd & Hnc & Hincl).
  destruct (CA cond c) as (_ & _ & Hback & Hall); [simpl; tauto|constructor|reflexivity|].
  assert (Hc : forall t, In t (flatT SOr ts) -> t = TFalse \/ In t to).
  { intros t Ht. destruct (Forall2_in_rr _ _ _ HF _ Ht) as (f & Hf & Df). destruct (Hall f Hf) as [-> |(g & Hg & Eg)].
    - left. eapply Den_false_inv; eauto.
    - right. destruct (Forall2_in_ll _ _ _ Dto _ Hg) as (t' & Ht' & Dg). assert (g = f) as -> by (eapply fid_known; eauto using Den_known).
      rewrite (Den_fun _ _ _ _ Df Dg). auto. }
  destruct cond as [|f1 [|f2 cond]].
  - inversion Dto; subst. inversion H; subst. rewrite (Den_false_inv _ _ Du). split; [intros x []|]. split; [right; exact Hc|right; constructor].
  - inversion Dto; subst. inversion H4; subst. inversion H; subst. assert (u = y) as -> by (eapply Den_fun; eauto).
    assert (Ei : innerTO y = true) by (inversion Hinn; subst; rewrite <- (inner_O _ _ _ H2); auto).
    assert (Eo : opsOf SOr y = [y]) by (destruct y; try discriminate; reflexivity).
    unfold nary_res. rewrite Eo. split; [exact Hincl|]. split; [right; exact Hc|right; constructor; [intros []|constructor]].
  - assert (Nt : NoDup to) by (eapply NoDup_trees; eauto).
    assert (u = TOr to) as ->.
    { destruct (findOr (hashOperands (f1 :: f2 :: cond)) (f1 :: f2 :: cond) s) as [f|] eqn:Ef2.
      + inversion H; subst. apply findOr_some in Ef2; auto. eapply Den_fun; [exact Du|eapply DOr; eauto].
      + pose proof (findOr_none _ _ Hw Ef2) as Hnew.
        destruct (allocOr_spec s _ to c r s' Hw Dto Hnew) as (G & SN & D'); auto; try (simpl; lia). eapply Den_fun; eauto. }
    split; [exact Hincl|]. split; [right; exact Hc|right; exact Nt].
Qed.

(** ** Weights *)
Fixpoint weight (t : tree) : nat :=
  match t with
  | TTrue | TFalse => 0
  | TLit _ | TPBC _ _ _ _ _ => 1
  | TNot t => S (weight t)
  | TAnd ts | TOr ts => list_sum (map weight ts)
  | TImpl a b | TEquiv a b => S (weight a + weight b)
  end%nat.
Definition wsum (ts : list tree) : nat := list_sum (map weight ts).
Lemma wsum_app l m : wsum (l ++ m) = (wsum l + wsum m)%nat.
Proof. unfold wsum. rewrite map_app. apply list_sum_app. Qed.
Lemma wsum_cons t l : wsum (t :: l) = (weight t + wsum l)%nat.
Proof. reflexivity. Qed.
Lemma wsum_in t l : In t l -> (weight t <= wsum l)%nat.
Proof. induction l; intros []; rewrite wsum_cons; subst; [lia|]. specialize (IHl H). lia. Qed.
Lemma wsum_incl l : forall m, NoDup l -> incl l m -> (wsum l <= wsum m)%nat.
Proof.
  induction l as [|t l IH]; intros m Hn Hi; [unfold wsum; simpl; lia|]. inversion Hn; subst.
  destruct (in_split t m) as (m1 & m2 & ->); [apply Hi; left; auto|].
  rewrite wsum_app, !wsum_cons. specialize (IH (m1 ++ m2) H2). rewrite wsum_app in IH. cut (incl l (m1 ++ m2)); [intros; apply IH in H; lia|].
  intros x Hx. specialize (Hi x (or_intror Hx)). rewrite in_app_iff in *. simpl in Hi. destruct Hi as [?|[->|?]]; auto. contradiction.
Qed.
Lemma weight_mk k ts : weight (mk k ts) = wsum ts.
Proof. destruct k; reflexivity. Qed.
Lemma weight_opsOf k u : wsum (opsOf k u) = weight u.
Proof. unfold wsum. destruct k, u; simpl; try lia; rewrite ?Nat.add_0_r; reflexivity. Qed.
Lemma wsum_flat k ts : wsum (flatT k ts) = wsum ts.
Proof.
  assert (A : wsum (flatA ts) = wsum ts).
  { induction ts; auto. unfold flatA in *. simpl. rewrite wsum_app, wsum_cons, IHts. f_equal. destruct a; simpl; unfold wsum; simpl; lia. }
  assert (B : wsum (flatO ts) = wsum ts).
  { clear A. induction ts; auto. unfold flatO in *. simpl. rewrite wsum_app, wsum_cons, IHts. f_equal. destruct a; simpl; unfold wsum; simpl; lia. }
  destruct k; auto.
Qed.
Lemma nary_weight k ts u : nary_res k ts u -> (weight u <= wsum ts)%nat.
Proof.
  intros (Hi & _ & [E|Hn]); rewrite <- (weight_opsOf k u).
  - rewrite E; auto.
  - rewrite <- (wsum_flat k ts). apply wsum_incl; auto.
Qed.
Definition isConst (t : tree) : bool := match t with TTrue | TFalse => true | _ => false end.
Lemma Den_weight s : wf s -> forall t f, Den s f t -> isConst t = false -> (1 <= weight t)%nat.
Proof.
  intros Hw. pose proof Hw as [W _]. induction t using tree_ind'; intros f D Hc; simpl; try discriminate; try lia.
  - destruct (Den_and_inv _ _ _ D) as (l & Hn & HF). destruct (w_ok _ W _ _ Hn) as (_ & Hl & Hi).
    inversion HF; subst; simpl in Hl; [lia|]. simpl. inversion H; subst. specialize (H4 _ H0). inversion Hi; subst.
    rewrite (inner_A _ _ _ H0) in H6. destruct y; try discriminate; specialize (H4 eq_refl); lia.
  - destruct (Den_or_inv _ _ _ D) as (l & Hn & HF). destruct (w_ok _ W _ _ Hn) as (_ & Hl & Hi).
    inversion HF; subst; simpl in Hl; [lia|]. simpl. inversion H; subst. specialize (H4 _ H0). inversion Hi; subst.
    rewrite (inner_O _ _ _ H0) in H6. destruct y; try discriminate; specialize (H4 eq_refl); lia.
Qed.
(** an operand of a conjunction or disjunction is lighter than it *)
Definition innerK (k : fsort) (t : tree) : bool := match k with SAnd => innerTA t | _ => innerTO t end.
Lemma Den_mk_inv k s f ts : dual k -> wf s -> Den s f (mk k ts) ->
  exists l, Operands f s = l /\ opNary f s = l /\ Forall2 (Den s) l ts /\ (2 <= length l)%nat /\ forallb (innerK k) ts = true.
Proof.
  intros Hk Hw D. pose proof Hw as [W T]. exists (Operands f s).
  destruct Hk as [-> | ->].
  - destruct (Den_and_inv _ _ _ D) as (l & Hn & HF). destruct (w_ok _ W _ _ Hn) as (_ & Hl & Hi). pose proof (Den_sort _ _ _ D) as Hs. simpl in Hs.
    assert (E : Operands f s = l).
    { unfold Operands, getops. rewrite Hs. unfold node in Hn. rewrite Hs in Hn. destruct (ands s f); inversion Hn; auto. }
    assert (E2 : opNary f s = l).
    { pose proof (opNary_and s f ts Hw D) as H2. eapply Dens_inj; eauto. }
    rewrite E, E2. repeat split; auto. simpl. eapply inners_A; eauto.
  - destruct (Den_or_inv _ _ _ D) as (l & Hn & HF). destruct (w_ok _ W _ _ Hn) as (_ & Hl & Hi). pose proof (Den_sort _ _ _ D) as Hs. simpl in Hs.
    assert (E : Operands f s = l).
    { unfold Operands, getops. rewrite Hs. unfold node in Hn. rewrite Hs in Hn. destruct (ors s f); inversion Hn; auto. }
    assert (E2 : opNary f s = l).
    { pose proof (opNary_or s f ts Hw D) as H2. eapply Dens_inj; eauto. }
    rewrite E, E2. repeat split; auto. simpl. eapply inners_O; eauto.
Qed.
Lemma innerK_const k t : innerK k t = true -> isConst t = false.
Proof. destruct k, t; simpl; auto; discriminate. Qed.
Lemma operand_weight k s f ts t : dual k -> wf s -> Den s f (mk k ts) -> In t ts -> (weight t < wsum ts)%nat.
Proof.
  intros Hk Hw D Ht. destruct (Den_mk_inv k s f ts Hk Hw D) as (l & _ & _ & HF & Hl & Hi).
  assert (W1 : forall x, In x ts -> (1 <= weight x)%nat).
  { intros x Hx. destruct (Forall2_in_rr _ _ _ HF _ Hx) as (g & _ & Dg). eapply Den_weight; eauto. rewrite forallb_forall in Hi. apply (innerK_const k); auto. }
  destruct (in_split t ts Ht) as (m1 & m2 & ->). rewrite wsum_app, wsum_cons.
  rewrite (Forall2_length _ _ _ HF), app_length in Hl. simpl in Hl.
  destruct m1 as [|x m1].
  - destruct m2 as [|x m2]; simpl in Hl; [lia|]. rewrite wsum_cons. specialize (W1 x). lapply W1; [lia|simpl; auto].
  - rewrite wsum_cons. specialize (W1 x). lapply W1; [lia|simpl; auto].
Qed.

(** ** Semantics *)
Definition conn (k : fsort) (x y : bool) : bool := match k with SAnd => x && y | _ => x || y end.
Definition unit (k : fsort) : bool := match k with SAnd => true | _ => false end.
Definition ev (k : fsort) (b : asg) (ts : list tree) : bool := fold_right (fun t a => conn k (eval b t) a) (unit k) ts.
Lemma eval_mk k b ts : eval b (mk k ts) = ev k b ts.
Proof. destruct k; simpl; unfold ev; simpl; induction ts; simpl; auto; rewrite IHts; auto. Qed.
Lemma ev_app k b l m : ev k b (l ++ m) = conn k (ev k b l) (ev k b m).
Proof.
  unfold ev. induction l; simpl.
  - destruct k; simpl; auto; rewrite ?orb_false_r; auto.
  - rewrite IHl. destruct k; simpl; rewrite ?andb_assoc, ?orb_assoc; auto.
Qed.
Lemma ev_iff k b ts : dual k -> ev k b ts = unit k <-> forall t, In t ts -> eval b t = unit k.
Proof.
  intros [-> | ->]; unfold ev; simpl; induction ts as [|a ts IH]; simpl; try (split; [intros _ t []|reflexivity]).
  - rewrite andb_true_iff, IH. split; [intros [H1 H2] t [<-|Ht]; auto|intros H; split; auto].
  - rewrite orb_false_iff, IH. split; [intros [H1 H2] t [<-|Ht]; auto|intros H; split; auto].
Qed.
Lemma unit_eq (k : fsort) x y : (x = unit k <-> y = unit k) -> x = y.
Proof. destruct (unit k), x, y; intros [A B]; auto; try (discriminate (A eq_refl)); try (discriminate (B eq_refl)). Qed.
(** only the set of the operands matters *)
Lemma ev_same k s b l ts l' ts' : dual k -> Forall2 (Den s) l ts -> Forall2 (Den s) l' ts' -> (forall f, In f l <-> In f l') -> ev k b ts = ev k b ts'.
Proof.
  intros Hk H H' He. apply (unit_eq k). rewrite !ev_iff; auto.
  assert (G : forall l ts l' ts', Forall2 (Den s) l ts -> Forall2 (Den s) l' ts' -> (forall f, In f l -> In f l') -> forall t, In t ts -> In t ts').
  { intros m us m' us' A B C t Ht. destruct (Forall2_in_rr _ _ _ A _ Ht) as (f & Hf & Df). destruct (Forall2_in_ll _ _ _ B _ (C f Hf)) as (t' & Ht' & Df').
    rewrite (Den_fun _ _ _ _ Df Df'). auto. }
  split; intros Ha t Ht; apply Ha; [apply (G l' ts' l ts)|apply (G l ts l' ts')]; auto; intros; apply He; auto.
Qed.
Lemma ev_pair k b x y : eval b (mk k [x; y]) = conn k (eval b x) (eval b y).
Proof. rewrite eval_mk. unfold ev. simpl. destruct k; simpl; rewrite ?andb_true_r, ?orb_false_r; auto. Qed.
Lemma ev_Forall2 k b ts us : Forall2 (fun t u => eval b t = eval b u) ts us -> ev k b ts = ev k b us.
Proof. unfold ev. induction 1; simpl; auto. rewrite H, IHForall2. auto. Qed.
(** the distributive law *)
Lemma ev_distr k b x rs ts : dual k -> Forall2 (fun r t => conn (flipSort k) x (eval b r) = eval b t) rs ts ->
  ev k b ts = conn (flipSort k) x (ev k b rs).
Proof.
  intros Hk. unfold ev. induction 1; simpl; [destruct Hk as [-> | ->]; simpl; destruct x; auto|]. rewrite <- H, IHForall2.
  destruct Hk as [-> | ->]; simpl; destruct x, (eval b x0); simpl; auto.
Qed.
Lemma dual_flip k : dual k -> dual (flipSort k).
Proof. intros [-> | ->]; [right|left]; reflexivity. Qed.

Lemma known_dens s l : wf s -> Forall (known s) l -> exists ts, Forall2 (Den s) l ts.
Proof.
  intros [W _]. induction 1 as [|f l Hf _ (ts & IH)]; [exists []; constructor|]. destruct (w_den s W f Hf) as [t Ht]. exists (t :: ts). constructor; auto.
Qed.

(** ** Building a conjunction or disjunction *)
Lemma wp_nary k s V ops ts : dual k -> winv s V -> Forall2 (Den s) ops ts ->
  wp (fun _ => naryOp k ops) s V (fun g s' V' => V' = V /\ exists u, Den s' g u /\ equiv u (mk k ts) /\ narrow u (mk k ts) /\
    nary_res k ts u /\ k_shape k ts u).
Proof.
  intros [-> | ->] I HF.
  - rewrite naryOp_and. destruct (And ops s) as [r s'] eqn:E. destruct (winv_and s V ops ts r s' I HF E) as (I' & X' & u & Du & Eu & Su).
    exists O, r, s', V. split; [intros n _; unfold up; rewrite E; auto|]. split; auto. split; auto. split; auto. exists u. split; auto. split; auto.
    split; [red; eapply and_shape_narrow; eauto|]. split; auto. eapply And_full; eauto. apply I.
  - rewrite naryOp_or. destruct (Or ops s) as [r s'] eqn:E. destruct (winv_or s V ops ts r s' I HF E) as (I' & X' & u & Du & Eu & Su).
    exists O, r, s', V. split; [intros n _; unfold up; rewrite E; auto|]. split; auto. split; auto. split; auto. exists u. split; auto. split; auto.
    split; [red; eapply or_shape_narrow; eauto|]. split; auto. eapply Or_full; eauto. apply I.
Qed.
Lemma wp_not s V f t : winv s V -> Den s f t ->
  wp (fun _ => up (Not f)) s V (fun g s' V' => V' = V /\ exists u, Den s' g u /\ is_neg_of t u).
Proof.
  intros I D. destruct (Not f s) as [r s'] eqn:E. destruct (winv_not s V f t r s' I D E) as (I' & X' & u & Du & Nu).
  exists O, r, s', V. split; [intros n _; unfold up; rewrite E; auto|]. eauto 8.
Qed.
Lemma neg_narrow t u : is_neg_of t u -> narrow u t.
Proof. intros H x. destruct t; simpl in H; try (destruct p); try destruct l; subst; simpl; auto. Qed.

(** ** Contents *)
Lemma insF_in f l x : In x (insF f l) <-> x = f \/ In x l.
Proof.
  induction l; simpl; [intuition|]. destruct (fleb f a); simpl; [intuition|]. rewrite IHl. intuition.
Qed.
Lemma content_in l x : In x (content l) <-> In x l.
Proof. unfold content. induction l; simpl; [tauto|]. rewrite insF_in, IHl. intuition. Qed.
Lemma memF_iff f l : memF f l = true <-> In f l.
Proof.
  unfold memF. rewrite existsb_exists. split; [intros (x & Hx & E); destruct (feqb_spec f x); [subst; auto|discriminate]|].
  intros H. exists f. split; auto. destruct (feqb_spec f f); auto.
Qed.
Lemma addSet_iff l f x : In x (addSet l f) <-> In x l \/ x = f.
Proof.
  unfold addSet. destruct (memF f l) eqn:E; [apply memF_iff in E; split; [auto|intros [?| ->]; auto]|]. rewrite in_app_iff. simpl. intuition.
Qed.
Lemma addAll_iff m : forall l x, In x (addAll l m) <-> In x l \/ In x m.
Proof. unfold addAll. induction m; simpl; intros l x; [tauto|]. rewrite IHm, addSet_iff. intuition. Qed.

Lemma ext_Operands s s' f : ext s s' -> known s f -> Operands f s' = Operands f s.
Proof.
  intros E [sh H]. pose proof (e_node s s' E f sh H) as H'. unfold node in H, H'. unfold Operands, getpair, getops.
  destruct (srt f); auto.
  - destruct (nots s f); [|discriminate]. destruct (nots s' f); [|discriminate]. simpl in *. congruence.
  - destruct (ands s f); [|discriminate]. destruct (ands s' f); [|discriminate]. simpl in *. congruence.
  - destruct (ors s f); [|discriminate]. destruct (ors s' f); [|discriminate]. simpl in *. congruence.
  - destruct (impls s f) as [[? ?]|]; [|discriminate]. destruct (impls s' f) as [[? ?]|]; [|discriminate]. simpl in *. congruence.
  - destruct (equivs s f) as [[? ?]|]; [|discriminate]. destruct (equivs s' f) as [[? ?]|]; [|discriminate]. simpl in *. congruence.
Qed.
