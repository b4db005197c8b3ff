(** * The operations of the interface on handles *)
From Coq Require Import List Bool ZArith NArith Lia.
From Verif Require Import Spec Factory FactoryProofs Bdd BddApi BddTable BddNode BddSem BddQuant BddKernel BddHandles BddCompile BddCanon.
Import ListNotations.
Local Open Scope Z_scope.

(** [res] is a result on [k'] with meaning [q]; the handles of [L] are as before *)
Definition made (W : list formula) (L : list Z) (k : kernel) (q : vasg -> bool) (res : Z) (k' : kernel) : Prop :=
  kinv k' /\ hinv k' (res :: L) /\ kext L k k' /\ fits k' W /\ Denotes k' res q.
Lemma fits_same k k' W : vlist k' = vlist k -> varnum k' = varnum k -> fits k W -> fits k' W.
Proof. intros A B. unfold fits. rewrite A, B. auto. Qed.
Lemma referenced_ok W L k f q m : kinv k -> fits k W -> kwp m (opres L k f) k -> (forall x b, agr k x b -> f x = q b) -> kwp (referenced m) (made W L k q) k.
Proof.
  intros K F H E. unfold referenced. eapply kwp_bind'; [exact H|]. intros z k1 O. pose proof (opres_Denotes _ _ _ _ _ _ O E) as D. destruct O as (K1 & H1 & X1 & V1 & t & R & _).
  eapply kwp_bind'; [eapply addRef_ok; eauto|]. intros x k2 (K2 & S2 & H2 & -> & H3). apply kwp_ret. split; auto. split; auto. split; [eapply kext_trans; [exact X1|apply sameR_kext; auto]|].
  split; [|eapply Denotes_sameR; eauto]. destruct S2 as (r & ->). revert F. apply fits_same; [exact V1|apply X1].
Qed.
Lemma bddNegate_ok W L k n p : kinv k -> hinv k L -> fits k W -> In n L -> Denotes k n p -> kwp (bddNegate n) (made W L k (fun b => negb (p b))) k.
Proof. intros K H F I (t & R & S). eapply referenced_ok; auto; [eapply bnot_ok; eauto|]. intros x b A. cbn. rewrite (S x b A); auto. Qed.
Lemma bddApply_ok o W L k n m p q : kinv k -> hinv k L -> fits k W -> In n L -> In m L -> Denotes k n p -> Denotes k m q ->
  kwp (referenced (apply n m o)) (made W L k (fun b => bsem o (p b) (q b))) k.
Proof. intros K H F I J (t & R & S) (u & R' & S'). eapply referenced_ok; auto; [eapply apply_ok; eauto|]. intros x b A. cbn. rewrite (S x b A), (S' x b A); auto. Qed.

(** ** Restrict *)
Definition levof (k : kernel) (v : formula) : Z := match indexOf v (vlist k) 0 with Some i => var2level k i | None => -1 end.
Lemma levof_index k v : In v (vlist k) -> exists i, nth_error (vlist k) i = Some v /\ levof k v = var2level k (Z.of_nat i).
Proof.
  intros I. unfold levof. destruct (indexOf v (vlist k) 0) as [j|] eqn:E; [|apply indexOf_none in E; contradiction].
  apply indexOf_some in E as [E1 E2]. rewrite Z.sub_0_r in E2. exists (Z.to_nat j). rewrite Z2Nat.id by lia. auto.
Qed.
Lemma levof_agr k x b v : agr k x b -> In v (vlist k) -> x (levof k v) = b v.
Proof. intros A I. destruct (levof_index _ _ I) as (i & E & ->). apply A; auto. Qed.
Lemma levof_nth k i v : kinv k -> nth_error (vlist k) i = Some v -> levof k v = var2level k (Z.of_nat i).
Proof.
  intros K E. destruct (levof_index k v) as (j & Ej & ->); [eapply nth_error_In; eauto|]. destruct (ki_vlist _ K) as [N _]. rewrite NoDup_nth_error in N. f_equal. f_equal.
  apply N; [apply nth_error_Some; congruence|congruence].
Qed.
Lemma levof_inj k v w : kinv k -> In v (vlist k) -> In w (vlist k) -> levof k v = levof k w -> v = w.
Proof.
  intros K Iv Iw E. destruct (levof_index _ _ Iv) as (i & Ei & Hi), (levof_index _ _ Iw) as (j & Ej & Hj). rewrite Hi, Hj in E.
  destruct (ki_perm _ K (Z.of_nat i)) as [_ P]; [eapply vlist_range; eauto|]. destruct (ki_perm _ K (Z.of_nat j)) as [_ Q]; [eapply vlist_range; eauto|]. rewrite E, Q in P.
  apply Nat2Z.inj in P. subst. congruence.
Qed.
Definition lcube (k : kernel) (ls : list formula) : list (Z * bool) := map (fun l => (levof k (litVariable l), isPos l)) ls.
(** no variable with both signs *)
Definition lconsistent (ls : list formula) : Prop := forall l l', In l ls -> In l' ls -> litVariable l = litVariable l' -> isPos l = isPos l'.
Lemma lcube_in k ls l p : kinv k -> (forall l, In l ls -> In (litVariable l) (vlist k)) -> In l (vlist k) ->
  (In (levof k l, p) (lcube k ls) <-> exists l', In l' ls /\ litVariable l' = l /\ isPos l' = p).
Proof.
  intros K HV Il. unfold lcube. rewrite in_map_iff. split.
  - intros (l' & E & I). injection E as E1 E2. exists l'. split; auto. split; auto. eapply levof_inj; eauto.
  - intros (l' & I & <- & <-). exists l'. auto.
Qed.
Lemma lcube_consistent k ls : kinv k -> (forall l, In l ls -> In (litVariable l) (vlist k)) -> lconsistent ls -> consistent (lcube k ls).
Proof.
  intros K HV Co l [A B]. unfold lcube in A, B. apply in_map_iff in A as (u & Eu & Iu), B as (w & Ew & Iw). injection Eu as <- Pu. injection Ew as Ew Pw.
  apply levof_inj in Ew; auto. rewrite (Co u w) in Pu; auto. congruence.
Qed.
Lemma Denotes_cube k n ls t : kinv k -> (forall l, In l ls -> In (litVariable l) (vlist k)) -> Denotes k n (fun b => forallb (litval b) ls) -> Rep k n t ->
  forall x, sem t x = cube (lcube k ls) x.
Proof.
  intros K HV (t' & R' & S) R x. rewrite (Rep_fun _ _ _ R _ R'). rewrite (S x _ (vvals_agr k x K)). unfold cube, lcube. clear S R R'. induction ls as [|l ls IH]; cbn; auto.
  rewrite IH by (intros; apply HV; right; auto). f_equal. unfold litval. rewrite (levof_agr k x (vvals k x)) by (auto using vvals_agr; apply HV; left; auto).
  destruct (isPos l), (vvals k x (litVariable l)); auto.
Qed.
(** the values [b] changed to satisfy the literals *)
Definition boverride (ls : list formula) (b : vasg) : vasg := fun v => match find (fun l => feqb (litVariable l) v) ls with Some l => isPos l | None => b v end.
Lemma override_agr k n ls t x b : kinv k -> (forall l, In l ls -> In (litVariable l) (vlist k)) -> lconsistent ls -> Denotes k n (fun b => forallb (litval b) ls) -> Rep k n t ->
  agr k x b -> agr k (override (plits t) x) (boverride ls b).
Proof.
  intros K HV Co D R A i v Ei. pose proof (Denotes_cube _ _ _ _ K HV D R) as Ec. destruct (Denotes_Rep _ _ _ K D) as (t' & R' & B & _). rewrite <- (Rep_fun _ _ _ R _ R') in B.
  destruct (cube_plits t 0 (lcube k ls) B Ec (lcube_consistent _ _ K HV Co)) as [HP _]. rewrite override_assoc. rewrite <- (levof_nth k i v K Ei). pose proof (nth_error_In _ _ Ei) as Iv.
  unfold boverride. destruct (find (fun l => feqb (litVariable l) v) ls) as [l|] eqn:Ef.
  - apply find_some in Ef as [I E]. destruct (feqb_spec (litVariable l) v) as [E'|]; [|discriminate].
    assert (HA : assoc (levof k v) (plits t) = Some (isPos l)) by (apply HP, lcube_in; eauto). rewrite HA. auto.
  - destruct (assoc (levof k v) (plits t)) as [p|] eqn:Ea.
    + apply HP, lcube_in in Ea as (l & I & E & _); auto. pose proof (find_none _ _ Ef l I) as X. cbn in X. rewrite E in X. rewrite feqb_refl in X. discriminate.
    + apply levof_agr; auto.
Qed.
(** the effect of an operation whose result gets no reference *)
Definition computed (W : list formula) (L : list Z) (k : kernel) (q : vasg -> bool) (res : Z) (k' : kernel) : Prop :=
  kinv k' /\ hinv k' L /\ kext L k k' /\ fits k' W /\ Denotes k' res q.
Lemma bddRestrict_ok W L k n p ls : kinv k -> hinv k L -> fits k W -> In n L -> Denotes k n p -> (forall l, In l ls -> In (litVariable l) W) -> lconsistent ls ->
  kwp (bddRestrict n ls) (computed W L k (fun b => p (boverride ls b))) k.
Proof.
  intros K H F I D HW Co. unfold bddRestrict. destruct ls as [|l0 ls0].
  { cbn [compileLiterals]. apply kwp_bind, kwp_ret. unfold restrict. cbn. split; auto. split; auto. split; [apply kext_refl|]. split; auto. }
  set (ls := l0 :: ls0) in *. eapply kwp_bind'; [apply (compileLiterals_ok W ls L); auto; discriminate|]. intros v k1 (K1 & H1 & X1 & F1 & V1 & D1).
  pose proof (Denotes_ext _ _ _ _ _ X1 I D) as Dn. pose proof Dn as (t & R & S). pose proof D1 as (tv & Rv & _).
  eapply kwp_conseq; [apply (restrict_ok (v :: L)) with (t := t) (tv := tv); auto; cbn; auto|]. intros r k2 O.
  pose proof O as (K2 & H2 & X2 & E2 & _). split; auto. split; [eapply hinv_tl; eauto|]. split; [eapply kext_trans; [exact X1|eapply kext_tl; eauto]|]. split; [revert F1; apply fits_same; [auto|apply X2]|].
  eapply opres_Denotes; [exact O|]. intros x b A. cbn. apply S. eapply override_agr; eauto.
Qed.

(** ** Quantification *)
Lemma quant_or vs : forall f x, exte f -> (quant orb vs f x = true <-> exists y, (forall l, ~ In l vs -> y l = x l) /\ f y = true).
Proof.
  induction vs as [|v vs IH]; cbn [quant]; intros f x E.
  - split; [intros H; exists x; auto|]. intros (y & Hy & H). rewrite (E x y); auto. intros l. symmetry. apply Hy. intros [].
  - rewrite orb_true_iff, !IH by auto. split.
    + intros [(y & Hy & H)|(y & Hy & H)]; exists y; (split; [|auto]); intros l Hl; rewrite Hy by (intros C; apply Hl; right; auto); apply upd2; intros ->; apply Hl; left; auto.
    + intros (y & Hy & H). destruct (y v) eqn:Ev; [right|left]; exists y; (split; [|auto]); intros l Hl; unfold upd; destruct (Z.eqb_spec l v); try congruence; apply Hy; intros [?|?]; congruence.
Qed.
Lemma quant_and vs : forall f x, exte f -> (quant andb vs f x = true <-> forall y, (forall l, ~ In l vs -> y l = x l) -> f y = true).
Proof.
  induction vs as [|v vs IH]; cbn [quant]; intros f x E.
  - split; [intros H y Hy; rewrite (E y x); auto|]. intros H. apply H. auto.
  - rewrite andb_true_iff, !IH by auto. split.
    + intros [H1 H2] y Hy. destruct (y v) eqn:Ev; [apply H2|apply H1]; intros l Hl; unfold upd; destruct (Z.eqb_spec l v); try congruence; apply Hy; intros [?|?]; congruence.
    + intros H. split; intros y Hy; apply H; intros l Hl; (rewrite Hy by (intros C; apply Hl; right; auto)); apply upd2; intros ->; apply Hl; left; auto.
Qed.
(** equal values outside the variables [vs] *)
Definition outside (vs : list formula) (b b' : vasg) : Prop := forall v, ~ In v vs -> b' v = b v.
Definition qspec (e : bool) (vs : list formula) (p q : vasg -> bool) : Prop :=
  forall b, q b = true <-> if e then exists b', outside vs b b' /\ p b' = true else forall b', outside vs b b' -> p b' = true.
Definition vars_only (vs : list formula) : Prop := Forall (fun v => isPos v = true) vs.
Lemma vars_litVariable vs v : vars_only vs -> In v vs -> litVariable v = v /\ isPos v = true.
Proof. intros H I. unfold vars_only in H. rewrite Forall_forall in H. pose proof (H v I) as E. unfold litVariable. rewrite E. auto. Qed.
(** the choices of level values outside the levels and of variable values outside the variables *)
Lemma outside_up k vs tv x b y : kinv k -> vars_only vs -> (forall l, In l vs -> In l (vlist k)) -> agr k x b ->
  (forall l, In l (pvars tv) <-> exists v, In v vs /\ l = levof k v) -> (forall l, ~ In l (pvars tv) -> y l = x l) ->
  exists b', outside vs b b' /\ agr k y b'.
Proof.
  intros K HV Hi A HP Hy. exists (fun v => if in_dec feq_dec v vs then y (levof k v) else b v). split.
  - intros v Hv. destruct (in_dec feq_dec v vs); auto; contradiction.
  - intros i v E. rewrite <- (levof_nth k i v K E). pose proof (nth_error_In _ _ E) as Iv. destruct (in_dec feq_dec v vs) as [|N]; auto. rewrite <- (levof_agr k x b v A Iv). apply Hy.
    intros C. apply HP in C as (w & Iw & Ew). apply levof_inj in Ew; auto. subst. contradiction.
Qed.
Lemma outside_down k vs tv x b b' : kinv k -> vars_only vs -> (forall l, In l vs -> In l (vlist k)) -> agr k x b ->
  (forall l, In l (pvars tv) <-> exists v, In v vs /\ l = levof k v) -> outside vs b b' ->
  exists y, (forall l, ~ In l (pvars tv) -> y l = x l) /\ agr k y b'.
Proof.
  intros K HV Hi A HP Ho. exists (fun l => if in_dec Z.eq_dec l (pvars tv) then lvals k b' l else x l). split.
  - intros l Hl. destruct (in_dec Z.eq_dec l (pvars tv)); auto; contradiction.
  - intros i v E. pose proof (nth_error_In _ _ E) as Iv. destruct (in_dec Z.eq_dec (var2level k (Z.of_nat i)) (pvars tv)) as [C|N]; [apply lvals_agr; auto|].
    rewrite (A i v E). symmetry. apply Ho. intros C. apply N. apply HP. exists v. split; auto. symmetry. apply levof_nth; auto.
Qed.
Lemma Denotes_ext1 k n p : kinv k -> Denotes k n p -> forall b b', (forall v, b v = b' v) -> p b = p b'.
Proof.
  intros K (t & R & S) b b' E. rewrite <- (S (lvals k b) b), <- (S (lvals k b) b'); auto; [intros i v Ei; rewrite <- E; apply lvals_agr; auto|apply lvals_agr; auto].
Qed.
Lemma bddQuant_ok (e : bool) W L k n p vs : kinv k -> hinv k L -> fits k W -> In n L -> Denotes k n p -> (forall l, In l vs -> In l W) -> vars_only vs ->
  kwp (if e then bddExists n vs else bddForAll n vs) (fun r k' => exists q, qspec e vs p q /\ computed W L k q r k') k.
Proof.
  intros K H F I D HW Co.
  assert (Eq : (if e then bddExists n vs else bddForAll n vs) = (v <~ compileLiterals vs; if v <? 2 then kret n else varset2vartable v ~; initRef ~; k <~ get; quantRec (maxdepth k) n (qop e) (qid e v))).
  { destruct e; reflexivity. }
  rewrite Eq. clear Eq. destruct vs as [|l0 ls0].
  { cbn [compileLiterals]. apply kwp_bind, kwp_ret. cbn. exists p. split.
    - pose proof (Denotes_ext1 _ _ _ K D) as Ep. intros b. destruct e.
      + split; [intros Hb; exists b; split; [intros w _; auto|auto]|]. intros (b' & Ho & Hb). rewrite (Ep b b'); auto. intros w. symmetry. apply Ho. auto.
      + split; [intros Hb b' Ho; rewrite (Ep b' b); auto; intros w; apply Ho; auto|]. intros Hb. apply Hb. intros w _. auto.
    - split; auto. split; auto. split; [apply kext_refl|]. split; auto. }
  set (ls := l0 :: ls0) in *. assert (HW' : forall l, In l ls -> In (litVariable l) W) by (intros l Hl; rewrite (proj1 (vars_litVariable ls l Co Hl)); auto).
  eapply kwp_bind'; [apply (compileLiterals_ok W ls L); auto; discriminate|]. intros v k1 (K1 & H1 & X1 & F1 & V1 & D1).
  pose proof (Denotes_ext _ _ _ _ _ X1 I D) as Dn. pose proof Dn as (t & R & S). pose proof D1 as (tv & Rv & _).
  assert (V1' : forall l, In l ls -> In l (vlist k1)). { intros l Hl. pose proof (V1 l Hl) as X. rewrite (proj1 (vars_litVariable ls l Co Hl)) in X. auto. }
  assert (HP : forall l, In l (pvars tv) <-> exists v, In v ls /\ l = levof k1 v).
  { pose proof (Denotes_cube _ _ _ _ K1 V1 D1 Rv) as Ec. destruct (Denotes_Rep _ _ _ K1 D1) as (t' & R' & B & _). rewrite <- (Rep_fun _ _ _ Rv _ R') in B.
    assert (Lc : lconsistent ls) by (intros a b Ha Hb _; rewrite (proj2 (vars_litVariable ls a Co Ha)), (proj2 (vars_litVariable ls b Co Hb)); auto).
    destruct (cube_plits tv 0 (lcube k1 ls) B Ec (lcube_consistent _ _ K1 V1 Lc)) as [_ HQ]. intros l. rewrite HQ.
    - unfold lcube. rewrite in_map_iff. split.
      + intros (w & Ew & Iw). injection Ew as <- _. exists w. rewrite (proj1 (vars_litVariable ls w Co Iw)). auto.
      + intros (w & Iw & ->). exists w. destruct (vars_litVariable ls w Co Iw) as [-> ->]. auto.
    - intros l' Hl'. unfold lcube in Hl'. apply in_map_iff in Hl' as (w & Ew & Iw). injection Ew as _ Ew. rewrite (proj2 (vars_litVariable ls w Co Iw)) in Ew. discriminate. }
  assert (QS : forall x b, agr k1 x b -> (quant (qfun e) (pvars tv) (sem t) x = true <-> if e then exists b', outside ls b b' /\ p b' = true else forall b', outside ls b b' -> p b' = true)).
  { intros x b A. destruct e; cbn [qfun].
    - rewrite quant_or by apply sem_exte. split.
      + intros (y & Hy & Ey). destruct (outside_up k1 ls tv x b y) as (b' & Ho & Ab); auto. exists b'. split; auto. rewrite <- (S y b' Ab). auto.
      + intros (b' & Ho & Eb). destruct (outside_down k1 ls tv x b b') as (y & Hy & Ay); auto. exists y. split; auto. rewrite (S y b' Ay). auto.
    - rewrite quant_and by apply sem_exte. split.
      + intros Hq b' Ho. destruct (outside_down k1 ls tv x b b') as (y & Hy & Ay); auto. rewrite <- (S y b' Ay). auto.
      + intros Hb y Hy. destruct (outside_up k1 ls tv x b y) as (b' & Ho & Ab); auto. rewrite (S y b' Ab). auto. }
  eapply kwp_conseq; [apply (quant_ok e (v :: L)) with (t := t) (tv := tv); auto; cbn; auto|]. intros r k2 O.
  pose proof O as (K2 & H2 & X2 & E2 & _). exists (fun b => quant (qfun e) (pvars tv) (sem t) (lvals k1 b)). split.
  { intros b. apply QS. apply lvals_agr; auto. }
  split; auto. split; [eapply hinv_tl; eauto|]. split; [eapply kext_trans; [exact X1|eapply kext_tl; eauto]|]. split; [revert F1; apply fits_same; [auto|apply X2]|].
  eapply opres_Denotes; [exact O|]. intros x b A. apply eq_true_iff_eq. rewrite (QS x b A), (QS _ b (lvals_agr k1 b K1)). tauto.
Qed.
