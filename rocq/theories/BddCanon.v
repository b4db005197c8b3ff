(** * Canonicity: equal functions have equal nodes; cubes *)
From Coq Require Import List Bool ZArith Lia.
From Verif Require Import Spec Factory Bdd BddApi BddTable BddNode BddSem BddQuant BddKernel BddHandles BddCompile.
Import ListNotations.
Local Open Scope Z_scope.

(** ** Ordered reduced trees *)
Fixpoint robt (t : bt) (m : Z) : Prop :=
  match t with Lf _ => True | Nd l a b => m <= l /\ robt a (l + 1) /\ robt b (l + 1) /\ a <> b end.
Lemma bt_dec (t u : bt) : {t = u} + {t <> u}.
Proof. decide equality; [apply bool_dec|apply Z.eq_dec]. Qed.
Lemma robt_le t m m' : m' <= m -> robt t m -> robt t m'.
Proof. destruct t; cbn; auto. intros H (A & B). split; auto. lia. Qed.
Lemma robt_indep t : forall m x l v, robt t m -> l < m -> sem t (upd x l v) = sem t x.
Proof.
  induction t as [v0|l0 a IHa b IHb]; cbn; intros m x l v H Hl; auto. destruct H as (H1 & H2 & H3 & _). rewrite upd2 by lia.
  rewrite (IHa (l0 + 1)), (IHb (l0 + 1)) by (auto; lia). auto.
Qed.
Fixpoint bsize (t : bt) : nat := match t with Lf _ => 1%nat | Nd _ a b => S (bsize a + bsize b) end.
Lemma robt_child t u m m' l a b : t = Nd l a b -> robt t m -> robt u m' -> l < m' -> a <> u \/ b <> u ->
  (a <> u -> exists x, sem a x <> sem u x) -> (b <> u -> exists x, sem b x <> sem u x) -> exists x, sem t x <> sem u x.
Proof.
  intros -> (_ & Ra & Rb & _) Ru Hl [N|N] HA HB.
  - destruct (HA N) as [x Hx]. exists (upd x l false). cbn. rewrite upd1. rewrite (robt_indep a (l + 1)), (robt_indep u m') by (auto; lia). auto.
  - destruct (HB N) as [x Hx]. exists (upd x l true). cbn. rewrite upd1. rewrite (robt_indep b (l + 1)), (robt_indep u m') by (auto; lia). auto.
Qed.
Lemma robt_differ : forall d t u m m', (bsize t + bsize u < d)%nat -> robt t m -> robt u m' -> t <> u -> exists x, sem t x <> sem u x.
Proof.
  induction d as [|d IH]; intros t u m m' Hd Rt Ru N; [lia|].
  assert (HL : forall l a b u' mu, t = Nd l a b -> u = u' -> robt u mu -> l < mu -> exists x, sem t x <> sem u x).
  { intros l a b u' mu Et _ Ru' Hl. pose proof Rt as Rt'. rewrite Et in Rt'. destruct Rt' as (_ & Ra & Rb & Nab). rewrite Et in Hd. cbn in Hd.
    eapply robt_child; eauto.
    - destruct (bt_dec a u); [right; congruence|left; auto].
    - intros Na. eapply IH; [|exact Ra|exact Ru|auto]. lia.
    - intros Nb. eapply IH; [|exact Rb|exact Ru|auto]. lia. }
  assert (HR : forall l a b mt, u = Nd l a b -> robt t mt -> l < mt -> exists x, sem t x <> sem u x).
  { intros l a b mt Eu Rt' Hl. pose proof Ru as Ru'. rewrite Eu in Ru'. destruct Ru' as (_ & Ra & Rb & Nab). rewrite Eu in Hd. cbn in Hd.
    destruct (robt_child u t m' mt l a b) as [x Hx]; auto.
    - destruct (bt_dec a t); [right; congruence|left; auto].
    - intros Na. eapply IH; [|exact Ra|exact Rt|auto]. lia.
    - intros Nb. eapply IH; [|exact Rb|exact Rt|auto]. lia.
    - exists x. auto. }
  destruct t as [v|l a b], u as [v'|l' a' b'].
  - exists (fun _ => true). cbn. congruence.
  - apply (HR l' a' b' (l' + 1)); [reflexivity|exact I|lia].
  - apply (HL l a b (Lf v') (l + 1)); [reflexivity|reflexivity|exact I|lia].
  - destruct (Z.lt_trichotomy l l') as [H|[H|H]].
    + apply (HL l a b (Nd l' a' b') (l + 1)); [reflexivity|reflexivity| |lia]. destruct Ru as (_ & Ru). split; auto. lia.
    + subst l'. destruct Rt as (_ & Ra & Rb & Nab), Ru as (_ & Ra' & Rb' & Nab'). cbn in Hd. destruct (bt_dec a a') as [->|Na].
      * assert (Nb : b <> b') by congruence. destruct (IH b b' (l + 1) (l + 1)) as [x Hx]; auto; [lia|]. exists (upd x l true). cbn. rewrite upd1. rewrite (robt_indep b (l + 1)), (robt_indep b' (l + 1)) by (auto; lia). auto.
      * destruct (IH a a' (l + 1) (l + 1)) as [x Hx]; auto; [lia|]. exists (upd x l false). cbn. rewrite upd1. rewrite (robt_indep a (l + 1)), (robt_indep a' (l + 1)) by (auto; lia). auto.
    + apply (HR l' a' b' (l' + 1)); [reflexivity| |lia]. destruct Rt as (_ & Rt). split; auto. lia.
Qed.
Lemma robt_canon t u m m' : robt t m -> robt u m' -> (forall x, sem t x = sem u x) -> t = u.
Proof.
  intros Rt Ru E. destruct (bt_dec t u) as [|N]; auto. destruct (robt_differ (S (bsize t + bsize u)) t u m m') as [x Hx]; auto. contradiction (Hx (E x)).
Qed.

(** ** The trees of the table *)
Lemma Rep_inj vn k : core vn k -> forall t n m, Rep k n t -> Rep k m t -> n = m.
Proof.
  intros C. induction t as [v|l a IHa b IHb]; intros n m Rn Rm.
  - inversion Rn; inversion Rm; subst; auto; congruence.
  - inversion Rn as [| |n' a' b' Ln Ra Rb E1 E2]; inversion Rm as [| |m' a2 b2 Lm Ra2 Rb2 E3 E4]; subst. eapply (c_uniq _ _ C); eauto; congruence.
Qed.
Lemma Rep_robt vn k : core vn k -> forall n t, Rep k n t -> robt t (lv vn k n).
Proof.
  intros C n t R. induction R as [| |n a b L Ra IHa Rb IHb]; cbn; auto.
  destruct (c_node _ _ C n L) as (H1 & H2 & H3 & H4 & H5 & H6). assert (E : lv vn k n = levels k n) by (unfold lv; destruct L as [L _]; destruct (Z.ltb_spec n 2); auto; lia).
  rewrite E. split; [lia|]. split; [eapply robt_le; [|exact IHa]; lia|]. split; [eapply robt_le; [|exact IHb]; lia|].
  intros Eq. apply H4. eapply Rep_inj; eauto. congruence.
Qed.

(** the values of the variables that a choice of level values gives *)
Definition vvals (k : kernel) (x : Z -> bool) : vasg := fun v => match indexOf v (vlist k) 0 with Some i => x (var2level k i) | None => false end.
Lemma vvals_agr k x : kinv k -> agr k x (vvals k x).
Proof.
  intros K i v E. unfold vvals. destruct (indexOf v (vlist k) 0) as [j|] eqn:Ej.
  - apply indexOf_some in Ej as [H1 H2]. rewrite Z.sub_0_r in H2. destruct (ki_vlist _ K) as [N _]. rewrite NoDup_nth_error in N.
    assert (i = Z.to_nat j). { apply N; [apply nth_error_Some; congruence|congruence]. } subst i. rewrite Z2Nat.id by lia. auto.
  - apply indexOf_none in Ej. elim Ej. eapply nth_error_In; eauto.
Qed.
Lemma Denotes_Rep k n p : kinv k -> Denotes k n p -> exists t, Rep k n t /\ robt t 0 /\ forall x b, agr k x b -> sem t x = p b.
Proof.
  intros K (t & R & S). exists t. split; auto. split; auto. pose proof (o_core _ _ (ki_op _ K)) as C. eapply robt_le; [|eapply Rep_robt; eauto].
  eapply lv_range; eauto. eapply Rep_valid; eauto.
Qed.
Theorem Denotes_canon k n m p q : kinv k -> Denotes k n p -> Denotes k m q -> (n = m <-> forall b, p b = q b).
Proof.
  intros K Dn Dm. destruct (Denotes_Rep _ _ _ K Dn) as (t & Rt & Bt & St). destruct (Denotes_Rep _ _ _ K Dm) as (u & Ru & Bu & Su). pose proof (o_core _ _ (ki_op _ K)) as C. split.
  - intros <- b. rewrite <- (St (lvals k b) b), <- (Su (lvals k b) b) by (apply lvals_agr; auto). f_equal. eapply Rep_fun; eauto.
  - intros E. assert (t = u); [|subst u; eapply Rep_inj; eauto]. eapply robt_canon; eauto. intros x. rewrite (St x _ (vvals_agr k x K)), (Su x _ (vvals_agr k x K)). auto.
Qed.
Lemma Denotes_const k (v : bool) : Denotes k (if v then 1 else 0) (fun _ => v).
Proof. exists (Lf v). split; [destruct v; constructor|auto]. Qed.

(** ** Walking through the nodes *)
(** the variable of a node is read like BDD.NodeRepresentation does, operation.go allNodes and
    bdd.go 443-460 *)
Inductive walk (k : kernel) (b : vasg) : Z -> bool -> Prop :=
| walk_false : walk k b 0 false
| walk_true : walk k b 1 true
| walk_node n v r : 2 <= n < nodesize k -> lows k n <> -1 -> getVariableForIndex k (level2var k (levels k n)) = Some v ->
    walk k b (if b v then highs k n else lows k n) r -> walk k b n r.
Fixpoint lvls (t : bt) : list Z := match t with Lf _ => [] | Nd l a b => l :: lvls a ++ lvls b end.
Lemma upd_comm {A} (x : Z -> A) i v j w l : i <> j -> upd (upd x i v) j w l = upd (upd x j w) i v l.
Proof. intros H. unfold upd. destruct (Z.eqb_spec l j), (Z.eqb_spec l i); auto; congruence. Qed.
Lemma lvls_range t : forall m l, robt t m -> In l (lvls t) -> m <= l.
Proof.
  induction t as [v0|l0 a IHa b IHb]; cbn; intros m l H [] ; destruct H as (H1 & H2 & H3 & _); [lia|].
  apply in_app_iff in H0 as [H0|H0]; [apply (IHa (l0 + 1)) in H0|apply (IHb (l0 + 1)) in H0]; auto; lia.
Qed.
Lemma lvls_depends t : forall m l, robt t m -> In l (lvls t) -> exists x, sem t (upd x l true) <> sem t (upd x l false).
Proof.
  induction t as [v0|l0 a IHa b IHb]; cbn [lvls]; intros m l H Hi; [destruct Hi|]. destruct H as (H1 & H2 & H3 & N). destruct Hi as [<-|Hi].
  - destruct (robt_differ (S (bsize a + bsize b)) a b (l0 + 1) (l0 + 1)) as [x Hx]; auto. exists x. cbn. rewrite !upd1.
    rewrite (robt_indep a (l0 + 1)), (robt_indep b (l0 + 1)) by (auto; lia). auto.
  - apply in_app_iff in Hi as [Hi|Hi].
    + pose proof (lvls_range _ _ _ H2 Hi). destruct (IHa _ _ H2 Hi) as [x Hx]. exists (upd x l0 false). cbn. rewrite !(upd2 _ l) by lia. rewrite !upd1.
      rewrite (sem_exte a _ (upd (upd x l true) l0 false)) by (intros j; apply upd_comm; lia). rewrite (sem_exte a (upd (upd x l0 false) l false) (upd (upd x l false) l0 false)) by (intros j; apply upd_comm; lia).
      rewrite (robt_indep a (l0 + 1) (upd x l true) l0), (robt_indep a (l0 + 1) (upd x l false) l0) by (auto; lia). auto.
    + pose proof (lvls_range _ _ _ H3 Hi). destruct (IHb _ _ H3 Hi) as [x Hx]. exists (upd x l0 true). cbn. rewrite !(upd2 _ l) by lia. rewrite !upd1.
      rewrite (sem_exte b _ (upd (upd x l true) l0 true)) by (intros j; apply upd_comm; lia). rewrite (sem_exte b (upd (upd x l0 true) l false) (upd (upd x l false) l0 true)) by (intros j; apply upd_comm; lia).
      rewrite (robt_indep b (l0 + 1) (upd x l true) l0), (robt_indep b (l0 + 1) (upd x l false) l0) by (auto; lia). auto.
Qed.
Lemma Rep_lvls vn k : core vn k -> forall n t, Rep k n t -> forall l, In l (lvls t) -> 0 <= l < vn.
Proof.
  intros C n t R. induction R as [| |n a b L Ra IHa Rb IHb]; cbn; intros l []; [|apply in_app_iff in H as [H|H]; auto].
  subst l. apply (c_node _ _ C n L).
Qed.
(** the nodes of a BDD that denotes a function of the variables have known variables *)
Lemma Denotes_lvls k n p t : kinv k -> Denotes k n p -> Rep k n t -> forall l, In l (lvls t) -> exists v, getVariableForIndex k (level2var k l) = Some v.
Proof.
  intros K D R l Hl. destruct (Denotes_Rep _ _ _ K D) as (t' & R' & B & S). rewrite (Rep_fun _ _ _ R _ R') in *. clear R t.
  pose proof (o_core _ _ (ki_op _ K)) as C. pose proof (Rep_lvls _ _ C _ _ R' _ Hl) as Hr. destruct (ki_perm' _ K l Hr) as [P1 P2].
  unfold getVariableForIndex. destruct (Z.ltb_spec (level2var k l) 0); [lia|]. destruct (nth_error (vlist k) (Z.to_nat (level2var k l))) as [v|] eqn:E; eauto. exfalso.
  destruct (lvls_depends _ _ _ B Hl) as [x Hx]. apply Hx.
  assert (A : forall c, agr k (upd x l c) (vvals k x)).
  { intros c i v Ei. rewrite <- (vvals_agr k x K i v Ei). apply upd2. intros El. assert (Z.of_nat i = level2var k l). { rewrite El. symmetry. apply (ki_perm _ K). eapply vlist_range; eauto. }
    rewrite <- H0, Nat2Z.id in E. congruence. }
  rewrite (S _ _ (A true)), (S _ _ (A false)). auto.
Qed.
Theorem Denotes_walk k n p b : kinv k -> Denotes k n p -> walk k b n (p b).
Proof.
  intros K D. pose proof D as (t & R & S). rewrite <- (S (lvals k b) b) by (apply lvals_agr; auto). pose proof (Denotes_lvls _ _ _ _ K D R) as HV. clear S D p.
  induction R as [| |n a c L Ra IHa Rb IHb]; cbn; try constructor. destruct (HV (levels k n)) as [v Ev]; [left; auto|]. destruct L as [L1 L2].
  eapply walk_node; eauto. unfold lvals at 1. pose proof Ev as Ev'. unfold getVariableForIndex in Ev'. destruct (level2var k (levels k n) <? 0); [discriminate|]. rewrite Ev'.
  destruct (b v); [apply IHb|apply IHa]; intros l Hl; apply HV; cbn; right; apply in_app_iff; auto.
Qed.
Lemma walk_det k b n r r' : walk k b n r -> walk k b n r' -> r = r'.
Proof.
  intros H. revert r'. induction H as [| |n v r H1 H2 H3 H4 IH]; intros r' H'; inversion H' as [| |n' v' r'' G1 G2 G3 G4]; subst; auto; try lia.
  rewrite H3 in G3. injection G3 as <-. apply IH. auto.
Qed.

(** ** Cubes *)
Definition cube (cs : list (Z * bool)) (x : Z -> bool) : bool := forallb (fun c => Bool.eqb (x (fst c)) (snd c)) cs.
Definition consistent (cs : list (Z * bool)) : Prop := forall l, ~ (In (l, true) cs /\ In (l, false) cs).
Lemma cube_sat cs : consistent cs -> exists x, cube cs x = true.
Proof.
  intros H. exists (fun l => existsb (fun c => (fst c =? l) && snd c) cs). apply forallb_forall. intros [l p] I. cbn. apply eqb_true_iff.
  destruct p.
  - apply existsb_exists. exists (l, true). cbn. rewrite Z.eqb_refl. auto.
  - apply not_true_is_false. intros E. apply existsb_exists in E as ([l' p'] & I' & E). cbn in E. apply andb_true_iff in E as [E1 E2]. apply Z.eqb_eq in E1. subst. apply (H l). auto.
Qed.
Definition without (l : Z) (cs : list (Z * bool)) := filter (fun c => negb (fst c =? l)) cs.
Lemma without_in l cs l' p : In (l', p) (without l cs) <-> In (l', p) cs /\ l' <> l.
Proof. unfold without. rewrite filter_In. cbn. rewrite negb_true_iff, Z.eqb_neq. tauto. Qed.
Lemma cube_upd l v cs x : (forall p, In (l, p) cs -> p = v) -> cube cs (upd x l v) = cube (without l cs) x.
Proof.
  unfold cube, without. induction cs as [|[l' p] cs IH]; cbn; intros H; auto. destruct (Z.eqb_spec l' l) as [->|N]; cbn.
  - rewrite upd1, (H p) by auto. rewrite eqb_reflx. cbn. apply IH. intros q Hq. apply H; auto.
  - rewrite upd2 by auto. rewrite IH; auto.
Qed.
Lemma cube_false l v cs x : In (l, negb v) cs -> cube cs (upd x l v) = false.
Proof.
  intros I. apply not_true_is_false. intros E. unfold cube in E. rewrite forallb_forall in E. specialize (E _ I). cbn in E. rewrite upd1 in E. destruct v; discriminate.
Qed.
Lemma consistent_without l cs : consistent cs -> consistent (without l cs).
Proof. intros H l' [A B]. apply without_in in A, B. apply (H l'). tauto. Qed.
Lemma cube_plits t : forall m cs, robt t m -> (forall x, sem t x = cube cs x) -> consistent cs ->
  (forall l p, assoc l (plits t) = Some p <-> In (l, p) cs) /\ ((forall l, ~ In (l, false) cs) -> forall l, In l (pvars t) <-> In (l, true) cs).
Proof.
  induction t as [v|l0 a IHa b IHb]; intros m cs R E Co.
  - assert (cs = []).
    { destruct v.
      - destruct cs as [|[l p] cs]; auto. specialize (E (fun _ => negb p)). cbn in E. destruct p; discriminate.
      - destruct (cube_sat cs Co) as [x Hx]. rewrite <- E in Hx. discriminate. }
    subst cs. split; [intros l p|intros _ l]; cbn; split; try tauto; discriminate.
  - destruct R as (R1 & Ra & Rb & N).
    assert (Ea : forall x, sem a x = cube cs (upd x l0 false)) by (intros x; rewrite <- E; cbn; rewrite upd1, (robt_indep a (l0 + 1)) by (auto; lia); auto).
    assert (Eb : forall x, sem b x = cube cs (upd x l0 true)) by (intros x; rewrite <- E; cbn; rewrite upd1, (robt_indep b (l0 + 1)) by (auto; lia); auto).
    assert (D : In (l0, true) cs \/ In (l0, false) cs).
    { destruct (in_dec (fun u w : Z * bool => ltac:(decide equality; [apply bool_dec|apply Z.eq_dec])) (l0, true) cs); auto.
      destruct (in_dec (fun u w : Z * bool => ltac:(decide equality; [apply bool_dec|apply Z.eq_dec])) (l0, false) cs); auto. exfalso. apply N.
      eapply robt_canon; eauto. intros x. rewrite Ea, Eb, !cube_upd; auto; intros [] Hp; auto; contradiction. }
    destruct D as [D|D].
    + assert (Ef : a = Lf false) by (eapply (robt_canon a (Lf false)); [exact Ra|exact (Logic.I : robt (Lf false) 0)|]; intros x; rewrite Ea; apply cube_false; auto).
      subst a. destruct (IHb (l0 + 1) (without l0 cs)) as [I1 I2]; auto.
      { intros x. rewrite Eb, cube_upd; auto. intros [] Hp; auto. elim (Co l0); auto. }
      { apply consistent_without; auto. }
      split.
      * intros l p. cbn. destruct (Z.eqb_spec l l0) as [->|Nl].
        -- split; [intros [= <-]; auto|]. intros Hp. destruct p; auto. elim (Co l0); auto.
        -- rewrite I1, without_in. tauto.
      * intros Hpos l. cbn. rewrite I2, without_in; [|intros l' Hl'; apply without_in in Hl'; apply (Hpos l'); tauto]. split; [intros [<-|[H _]]; auto|].
        intros H. destruct (Z.eq_dec l0 l); auto.
    + assert (Ef : b = Lf false) by (eapply (robt_canon b (Lf false)); [exact Rb|exact (Logic.I : robt (Lf false) 0)|]; intros x; rewrite Eb; apply cube_false; auto).
      subst b. destruct (IHa (l0 + 1) (without l0 cs)) as [I1 I2]; auto.
      { intros x. rewrite Ea, cube_upd; auto. intros [] Hp; auto. elim (Co l0); auto. }
      { apply consistent_without; auto. }
      split; [|intros Hpos; elim (Hpos l0); auto].
      assert (Ep : plits (Nd l0 a (Lf false)) = (l0, false) :: plits a) by (destruct a as [[]|]; auto; congruence). rewrite Ep.
      intros l p. cbn. destruct (Z.eqb_spec l l0) as [->|Nl].
      * split; [intros [= <-]; auto|]. intros Hp. destruct p; auto. elim (Co l0); auto.
      * rewrite I1, without_in. tauto.
Qed.

(** ** CompileLiterals *)
Definition litval (b : vasg) (l : formula) : bool := if isPos l then b (litVariable l) else negb (b (litVariable l)).
Lemma litLoop_ok W : forall ls L k n p, kinv k -> hinv k (n :: L) -> fits k W -> Denotes k n p -> (forall l, In l ls -> In (litVariable l) W) ->
  kwp (litLoop ls n) (fun z k' => kinv k' /\ hinv k' (z :: L) /\ kext L k k' /\ fits k' W /\ (forall l, In l ls -> In (litVariable l) (vlist k')) /\
    Denotes k' z (fun b => p b && forallb (litval b) ls)) k.
Proof.
  induction ls as [|l ls IH]; intros L k n p K H F D HW; cbn [litLoop].
  - apply kwp_ret. split; auto. split; auto. split; [apply kext_refl|]. split; auto. split; [intros l []|]. eapply Denotes_eq; [|exact D]. intros b. cbn. rewrite andb_true_r; auto.
  - eapply kwp_bind'; [apply (litNode_ok W (n :: L)); auto; apply HW; left; auto|]. intros o k1 (K1 & H1 & X1 & F1 & (i & Ni & Ro) & _).
    pose proof (Denotes_ext _ _ _ _ _ X1 (or_introl eq_refl) D) as (tn & Rn & Sn).
    eapply kwp_bind'; [apply (apply_ok (o :: n :: L)); eauto; cbn; auto|]. intros z k2 O. pose proof O as (K2 & H2 & X2 & Ev & tz & Rz & Sz).
    assert (Dz : Denotes k2 z (fun b => p b && litval b l)).
    { eapply opres_Denotes; [exact O|]. intros x b A. cbn. rewrite (Sn x b A). f_equal. rewrite (A _ _ Ni). unfold litval. destruct (isPos l), (b (litVariable l)); auto. } clear O.
    eapply kwp_bind'; [eapply addRef_ok; eauto|]. intros y k3 (K3 & S3 & H3 & -> & H4). cbv beta iota.
    eapply kwp_bind'; [apply (delRef_ok (o :: z :: L)); auto; revert H4; apply hinv_le; intros m; rewrite !cnt_cons; lia|]. intros [] k4 (K4 & S4 & H5).
    eapply kwp_bind'; [apply (delRef_ok (z :: L)); auto|]. intros [] k5 (K5 & S5 & H6).
    assert (E5 : vlist k5 = vlist k1 /\ varnum k5 = varnum k1). { destruct S3 as (? & ->), S4 as (? & ->), S5 as (? & ->). cbn. split; auto. apply X2. }
    assert (F5 : fits k5 W) by (destruct E5 as [A B]; unfold fits; rewrite A, B; exact F1).
    assert (D5 : Denotes k5 z (fun b => p b && litval b l)) by (eapply Denotes_sameR; [exact S5|]; eapply Denotes_sameR; [exact S4|]; eapply Denotes_sameR; [exact S3|]; auto).
    assert (X5 : kext L k k5).
    { eapply kext_trans; [eapply kext_tl; exact X1|]. eapply kext_trans; [eapply kext_tl; eapply kext_tl; exact X2|]. eapply kext_trans; [apply (sameR_kext _ _ _ S3)|]. eapply kext_trans; [apply (sameR_kext _ _ _ S4)|apply (sameR_kext _ _ _ S5)]. }
    eapply kwp_conseq; [apply (IH L k5 z (fun b => p b && litval b l)); auto; intros l' Hl'; apply HW; right; auto|].
    intros r k6 (K6 & H7 & X6 & F6 & V6 & D6). split; auto. split; auto. split; [eapply kext_trans; eauto|]. split; auto. split.
    + intros l' [<-|Hl']; auto. destruct (x_vl _ _ _ X6) as [w ->]. apply in_app_iff. left. rewrite (proj1 E5). eapply nth_error_In; eauto.
    + eapply Denotes_eq; [|exact D6]. intros b. cbn. rewrite andb_assoc. auto.
Qed.
Lemma compileLiterals_ok W ls L k : ls <> [] -> kinv k -> hinv k L -> fits k W -> (forall l, In l ls -> In (litVariable l) W) ->
  kwp (compileLiterals ls) (fun z k' => kinv k' /\ hinv k' (z :: L) /\ kext L k k' /\ fits k' W /\ (forall l, In l ls -> In (litVariable l) (vlist k')) /\
    Denotes k' z (fun b => forallb (litval b) ls)) k.
Proof.
  intros Ne K H F HW. destruct ls as [|l ls]; [congruence|]. cbn [compileLiterals].
  eapply kwp_bind'; [apply (litNode_ok W L); auto; apply HW; left; auto|]. intros o k1 (K1 & H1 & X1 & F1 & (i & Ni & Ro) & _).
  eapply kwp_conseq; [apply (litLoop_ok W ls L k1 o (fun b => litval b l)); auto|].
  - eexists. split; [exact Ro|]. intros x b A. cbn. rewrite (A _ _ Ni). unfold litval. destruct (isPos l), (b (litVariable l)); auto.
  - intros l' Hl'. apply HW. right; auto.
  - intros r k6 (K6 & H7 & X6 & F6 & V6 & D6). split; auto. split; auto. split; [eapply kext_trans; eauto|]. split; auto. split; auto.
    intros l' [<-|Hl']; auto. destruct (x_vl _ _ _ X6) as [w ->]. apply in_app_iff. left. eapply nth_error_In; eauto.
Qed.
