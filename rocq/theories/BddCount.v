(** * Counting models and paths *)
From Coq Require Import String List Bool ZArith NArith Lia Permutation.
From Verif Require Import Spec Factory Bdd BddApi BddQuery BddTable BddNode BddSem BddQuant BddKernel BddHandles BddCompile BddCanon BddPaths.
Import ListNotations.
Local Open Scope Z_scope.

(** ** Numbers of assignments *)
Definition b2z (b : bool) : Z := if b then 1 else 0.
Fixpoint cntF (ls : list Z) (f : (Z -> bool) -> bool) : Z :=
  match ls with [] => b2z (f (fun _ => false)) | l :: r => cntF r (fun x => f (Bdd.upd x l false)) + cntF r (fun x => f (Bdd.upd x l true)) end.
Definition fext (f : (Z -> bool) -> bool) : Prop := forall x y, (forall l, x l = y l) -> f x = f y.
Lemma cntF_ext ls : forall f g, (forall x, f x = g x) -> cntF ls f = cntF ls g.
Proof. induction ls as [|l ls IH]; intros f g H; cbn; [rewrite H; auto|]. f_equal; apply IH; auto. Qed.
Lemma fext_upd f l b : fext f -> fext (fun x => f (Bdd.upd x l b)).
Proof. intros H x y E. apply H. intros m. unfold Bdd.upd. destruct (m =? l); auto. Qed.
Lemma cntF_perm ls ls' : Permutation ls ls' -> forall f, fext f -> cntF ls f = cntF ls' f.
Proof.
  induction 1 as [|l ls ls' P IH|a b ls|l1 l2 l3 P1 IH1 P2 IH2]; intros f Hf; cbn; auto.
  - rewrite !IH by (apply fext_upd; auto). auto.
  - assert (E : forall v w, cntF ls (fun x => f (Bdd.upd (Bdd.upd x b v) a w)) + cntF ls (fun x => f (Bdd.upd (Bdd.upd x b w) a v)) =
                            cntF ls (fun x => f (Bdd.upd (Bdd.upd x a v) b w)) + cntF ls (fun x => f (Bdd.upd (Bdd.upd x a w) b v))).
    { intros v w. destruct (Z.eq_dec a b) as [->|N]; [reflexivity|]. rewrite Z.add_comm. f_equal; apply cntF_ext; intros x; apply Hf; intros m; unfold Bdd.upd; destruct (Z.eqb_spec m a), (Z.eqb_spec m b); auto; congruence. }
    assert (E2 : forall v, cntF ls (fun x => f (Bdd.upd (Bdd.upd x b v) a v)) = cntF ls (fun x => f (Bdd.upd (Bdd.upd x a v) b v))).
    { intros v. apply cntF_ext; intros x; apply Hf; intros m; unfold Bdd.upd; destruct (Z.eqb_spec m a), (Z.eqb_spec m b); auto. }
    pose proof (E true false) as E1. rewrite !E2. lia.
  - rewrite IH1 by auto. apply IH2; auto.
Qed.
Lemma cntF_nodep rest : forall ls f, (forall l x b, In l rest -> f (Bdd.upd x l b) = f x) -> cntF (rest ++ ls) f = 2 ^ Z.of_nat (List.length rest) * cntF ls f.
Proof.
  induction rest as [|l rest IH]; intros ls f H; cbn [app cntF List.length]; [change (2 ^ Z.of_nat 0) with 1; lia|].
  rewrite (cntF_ext _ (fun x => f (Bdd.upd x l false)) f) by (intros x; apply H; left; auto). rewrite (cntF_ext _ (fun x => f (Bdd.upd x l true)) f) by (intros x; apply H; left; auto).
  rewrite IH by (intros m x b Hm; apply H; right; auto). rewrite Nat2Z.inj_succ, Z.pow_succ_r by lia. lia.
Qed.
Fixpoint zseq (lo : Z) (n : nat) : list Z := match n with O => [] | S c => lo :: zseq (lo + 1) c end.
Lemma zseq_in n : forall lo l, In l (zseq lo n) <-> lo <= l < lo + Z.of_nat n.
Proof. induction n as [|n IH]; intros lo l; cbn [zseq In]; [lia|]. rewrite IH. lia. Qed.
Lemma zseq_nodup n : forall lo, NoDup (zseq lo n).
Proof. induction n as [|n IH]; intros lo; cbn; constructor; auto. rewrite zseq_in. lia. Qed.
Lemma zseq_len n : forall lo, List.length (zseq lo n) = n.
Proof. induction n as [|n IH]; intros lo; cbn; auto. Qed.
Lemma zseq_app n : forall m lo, zseq lo (n + m) = zseq lo n ++ zseq (lo + Z.of_nat n) m.
Proof. induction n as [|n IH]; intros m lo; [cbn; f_equal; lia|]. cbn [zseq Nat.add app]. rewrite IH. do 2 f_equal. f_equal. lia. Qed.

Section Tree.
Variable vn : Z.
(** the number of assignments of the levels from that of the root *)
Fixpoint cntT (t : bt) : Z := match t with Lf b => b2z b | Nd l a b => 2 ^ (toplev vn a - l - 1) * cntT a + 2 ^ (toplev vn b - l - 1) * cntT b end.
Fixpoint tle (t : bt) : Prop := match t with Lf _ => True | Nd l a b => l < toplev vn a /\ l < toplev vn b /\ l < vn /\ tle a /\ tle b end.
Lemma sem_fext t : fext (sem t).
Proof. induction t; intros x y E; cbn; auto. rewrite E. rewrite (IHt1 x y E), (IHt2 x y E). auto. Qed.
Lemma tle_top t : tle t -> toplev vn t <= vn.
Proof. destruct t; cbn; [lia|]. intros (_ & _ & H & _). lia. Qed.
Lemma sem_above t : tle t -> forall l b x, l < toplev vn t -> sem t (Bdd.upd x l b) = sem t x.
Proof.
  induction t as [v|l0 a IHa b IHb]; cbn; auto. intros (H1 & H2 & H3 & Ha & Hb) l c x Hl. rewrite IHa, IHb by (auto; lia). unfold Bdd.upd. destruct (Z.eqb_spec l0 l); auto; lia.
Qed.
Lemma cntF_tree t : tle t -> forall lo n, lo <= toplev vn t -> lo + Z.of_nat n = vn -> cntF (zseq lo n) (sem t) = 2 ^ (toplev vn t - lo) * cntT t.
Proof.
  induction t as [v|l a IHa b IHb]; intros T lo n Hlo Hn.
  - cbn [toplev] in *. rewrite <- (app_nil_r (zseq lo n)). rewrite cntF_nodep by auto. rewrite zseq_len. cbn. f_equal. f_equal. lia.
  - cbn [toplev tle] in *. destruct T as (H1 & H2 & H3 & Ta & Tb).
    replace n with (Z.to_nat (l - lo) + S (Z.to_nat (vn - l - 1)))%nat by lia. rewrite zseq_app. rewrite cntF_nodep.
    2:{ intros m x c Hm. apply zseq_in in Hm. cbn [sem]. rewrite !sem_above by (auto; lia). unfold Bdd.upd. destruct (Z.eqb_spec l m); auto; lia. }
    rewrite zseq_len, !Z2Nat.id by lia. f_equal. cbn [zseq cntF cntT]. replace (lo + (l - lo) + 1) with (l + 1) by lia.
    rewrite (cntF_ext _ _ (sem a)). 2:{ intros x. cbn. unfold Bdd.upd at 1. replace (lo + (l - lo)) with l by lia. rewrite Z.eqb_refl. apply sem_above; auto; lia. }
    rewrite (cntF_ext _ (fun x => sem (Nd l a b) (Bdd.upd x (lo + (l - lo)) true)) (sem b)). 2:{ intros x. cbn. unfold Bdd.upd at 1. replace (lo + (l - lo)) with l by lia. rewrite Z.eqb_refl. apply sem_above; auto; lia. }
    pose proof (tle_top _ Ta). pose proof (tle_top _ Tb). rewrite IHa, IHb by (auto; lia). f_equal; f_equal; f_equal; lia.
Qed.
End Tree.
Lemma Rep_tle vn k : core vn k -> forall n t, Rep k n t -> tle vn t.
Proof.
  intros C n t R. induction R as [| |n a b L Ra IHa Rb IHb]; cbn; auto. destruct (c_node _ _ C n L) as (N1 & N2 & N3 & N4 & N5 & N6).
  rewrite (Rep_toplev vn _ _ _ Ra) in N5. rewrite (Rep_toplev vn _ _ _ Rb) in N6. split; auto. split; auto. split; [lia|auto].
Qed.

(** ** The computation of the number *)
Definition satok (k : kernel) : Prop := forall i, let e := misccache k i in e_a e <> -1 -> e_c e = cacheidSatcou ->
  exists t, Rep k (e_a e) t /\ bigs k (e_big e) = cntT (varnum k) t /\ e_big e < bignext k.
(** only entries with the identification [c] and the heap of numbers differ *)
Definition counted (c : Z) (k k' : kernel) : Prop :=
  k' = with_bignext (bignext k') (with_bigs (bigs k') (with_misccache (misccache k') k)) /\
  (forall i, misccache k' i = misccache k i \/ e_c (misccache k' i) = c) /\ bignext k <= bignext k'.
Lemma counted_refl c k : counted c k k.
Proof. split; [destruct k; reflexivity|]. split; auto. lia. Qed.
Lemma counted_trans c k1 k2 k3 : counted c k1 k2 -> counted c k2 k3 -> counted c k1 k3.
Proof.
  intros (E1 & H1 & L1) (E2 & H2 & L2). split; [rewrite E2; rewrite E1; reflexivity|]. split; [|lia]. intros i. destruct (H2 i) as [E|E]; [|auto]. rewrite E. destruct (H1 i) as [E'|E']; auto.
Qed.
Lemma counted_Rep c k k' n t : counted c k k' -> Rep k n t -> Rep k' n t.
Proof. intros (E & _). rewrite E. apply Rep_ext; reflexivity. Qed.
Lemma counted_kinv c k k' : counted c k k' -> (forall v, c <> 8 * v + 1) -> kinv k -> kinv k'.
Proof.
  intros (E & H & _) Hc K. pose proof K as [A B P1 P2 P3 P4 P5]. rewrite E. set (k1 := with_misccache (misccache k') k).
  assert (O1 : opinv (varnum k) k1). { revert A. apply opinv_cache; auto; intros i; cbn; auto. destruct (H i) as [-> |X]; auto. right. intros N v Ev. elim (Hc v). congruence. }
  constructor; auto.
  - destruct O1 as [A1 A2 A3 A4]. constructor; auto.
    + pose proof (c_stack _ _ A1) as St. revert A1. apply core_ext; try reflexivity; auto.
    + revert A2. apply tab_ext; reflexivity.
    + revert A3. apply caches_ext; reflexivity.
Qed.
Lemma newBig_ok c x k : kwp (newBig x) (fun p k' => counted c k k' /\ p = bignext k /\ bignext k' = bignext k + 1 /\ bigs k' = Bdd.upd (bigs k) p x /\ misccache k' = misccache k) k.
Proof. unfold kwp, newBig. split; [|auto]. split; [destruct k; reflexivity|]. split; [auto|]. cbn. lia. Qed.
Definition satPost (t : bt) (k : kernel) (p : Z) (k' : kernel) : Prop :=
  counted cacheidSatcou k k' /\ satok k' /\ bigs k' p = cntT (varnum k) t /\ p < bignext k' /\ forall q, q < bignext k -> bigs k' q = bigs k q.
Lemma counted_fields c k k' : counted c k k' -> lows k' = lows k /\ highs k' = highs k /\ levels k' = levels k /\ nodesize k' = nodesize k /\ varnum k' = varnum k /\ cachesize k' = cachesize k.
Proof. intros (E & _). rewrite E. repeat split; reflexivity. Qed.
Lemma id_odd2 v : cacheidSatcou <> 8 * v + 1. Proof. unfold cacheidSatcou. lia. Qed.
Lemma satok_fresh k k' : satok k -> counted cacheidSatcou k k' -> misccache k' = misccache k -> (forall q, q < bignext k -> bigs k' q = bigs k q) -> satok k'.
Proof.
  intros S C Em Hq i. cbn. rewrite Em. intros N Ec. destruct (S i N Ec) as (t & R & E & L). exists t. split; [eapply counted_Rep; eauto|].
  destruct (counted_fields _ _ _ C) as (_ & _ & _ & _ & -> & _). split; [rewrite Hq; auto|]. destruct C as (_ & _ & Le). lia.
Qed.
Lemma satCountRec_ok : forall t d r k, kinv k -> satok k -> Rep k r t -> varnum k - toplev (varnum k) t < Z.of_nat d -> kwp (satCountRec d r) (satPost t k) k.
Proof.
  induction t as [w|l0 a IHa b IHb]; intros d r k K S R Hd.
  - destruct d as [|d]; [cbn in Hd; lia|]. cbn [satCountRec]. assert (Er : r = b2z w) by (inversion R; subst; auto). replace (r <? 2) with true by (subst; destruct w; auto).
    eapply kwp_conseq; [apply (newBig_ok cacheidSatcou)|]. intros p k' (Co & -> & En & Eb & Em).
    assert (Hq : forall q, q < bignext k -> bigs k' q = bigs k q). { intros q Hq. rewrite Eb. unfold Bdd.upd. destruct (Z.eqb_spec q (bignext k)); auto; lia. }
    split; auto. split; [eapply satok_fresh; eauto|]. split; [rewrite Eb; unfold Bdd.upd; rewrite Z.eqb_refl; subst; auto|]. split; [lia|auto].
  - pose proof (o_core _ _ (ki_op _ K)) as C. pose proof R as R0. inversion R0 as [| |n' a' b' L Ra Rb E1 E2]. subst n' a' b'. clear R0. rewrite ?E2. destruct (c_node _ _ C r L) as (N1 & N2 & N3 & N4 & N5 & N6). cbn [toplev] in Hd.
    destruct d as [|d]; [lia|]. cbn [satCountRec]. assert (Hr : 0 <= r < nodesize k) by (eapply valid_range; eauto; right; right; auto). pose proof L as [L2 L3].
    replace (r <? 2) with false by (symmetry; apply Z.ltb_ge; lia). apply kwp_bind, kwp_gets. apply kwp_bind, kwp_gets. set (i := cacheIndex k r).
    destruct (Z.eqb_spec (e_a (misccache k i)) r) as [Ea|Ea]; [destruct (Z.eqb_spec (e_c (misccache k i)) cacheidSatcou) as [Ec|Ec]|]; cbn [andb].
    { apply kwp_ret. destruct (S i) as (t' & R' & Eb & Lb); [rewrite Ea; lia|auto|]. rewrite Ea in R'. 
      rewrite <- (Rep_fun _ _ _ R _ R') in Eb. split; [apply counted_refl|]. split; [exact S|]. split; [exact Eb|]. split; [exact Lb|]. intros q Hq; reflexivity. }
    all: rewrite (Rep_toplev (varnum k) _ _ _ Ra) in N5; rewrite (Rep_toplev (varnum k) _ _ _ Rb) in N6.
    all: pose proof (valid_range _ _ _ C N2) as V2; pose proof (valid_range _ _ _ C N3) as V3.
    all: apply kwp_bind, kwp_rd; [exact Hr|]; apply kwp_bind, kwp_rd; [exact V2|]; rewrite (level_eq k K (lows k r) N2), (Rep_toplev _ _ _ _ Ra); apply kwp_bind, kwp_rd; [exact Hr|].
    all: eapply kwp_bind'; [apply IHa; [exact K|exact S|exact Ra|lia]|]; intros p k1 (C1 & S1 & B1 & P1 & Q1); pose proof (counted_fields _ _ _ C1) as (F1 & F2 & F3 & F4 & F5 & F6).
    all: pose proof (counted_kinv _ _ _ C1 id_odd2 K) as K1; assert (R1 : Rep k1 (highs k r) b) by (eapply counted_Rep; eauto).
    all: apply kwp_bind, kwp_gets; apply kwp_bind, kwp_rd; [rewrite F4; exact Hr|]; rewrite F2; apply kwp_bind, kwp_rd; [rewrite F4; exact V3|]; rewrite F3, (level_eq k K (highs k r) N3), (Rep_toplev _ _ _ _ Rb); apply kwp_bind, kwp_rd; [rewrite F4; exact Hr|]; rewrite F3.
    all: eapply kwp_bind'; [apply IHb; [exact K1|exact S1|exact R1|rewrite F5; lia]|]; intros q k2 (C2 & S2 & B2 & P2 & Q2); pose proof (counted_fields _ _ _ C2) as (G1 & G2 & G3 & G4 & G5 & G6).
    all: apply kwp_bind, kwp_gets; eapply kwp_bind'; [apply (newBig_ok cacheidSatcou)|]; intros z k3 (C3 & Ez & En & Eb & Em).
    all: pose proof (counted_trans _ _ _ _ C1 (counted_trans _ _ _ _ C2 C3)) as C03; pose proof (counted_fields _ _ _ C3) as (H1 & H2 & H3 & H4 & H5 & H6).
    all: pose proof (proj2 (proj2 C1)) as M1; pose proof (proj2 (proj2 C2)) as M2; pose proof (proj2 (proj2 C3)) as M3.
    all: assert (Hq : forall x, x < bignext k2 -> bigs k3 x = bigs k2 x) by (intros x Hx; rewrite Eb; unfold Bdd.upd; destruct (Z.eqb_spec x z); auto; lia).
    all: pose proof (satok_fresh _ _ S2 C3 Em Hq) as S3.
    all: assert (Val : bigs k3 z = cntT (varnum k) (Nd l0 a b)) by (rewrite Eb; unfold Bdd.upd; rewrite Z.eqb_refl, B1, B2, F5; cbn [cntT]; rewrite E2; reflexivity).
    all: unfold setMisc; apply kwp_bind, kwp_modify; apply kwp_ret; set (e := Entry r _ _ _ _); set (k4 := with_misccache _ k3).
    all: assert (C34 : counted cacheidSatcou k3 k4) by (split; [unfold k4; destruct k3; reflexivity|]; split; [|cbn; lia]; intros j; cbn; unfold Bdd.upd; destruct (j =? i); auto).
    all: split; [eapply counted_trans; eauto|]; split; [|split; [exact Val|split; [cbn; lia|intros x Hx; change (bigs k3 x = bigs k x); rewrite Hq, Q2, Q1 by lia; auto]]].
    all: intros j; cbn; unfold Bdd.upd; destruct (Z.eqb_spec j i) as [->|Nj]; [intros _ _; cbn; exists (Nd l0 a b); split; [apply (counted_Rep _ _ _ _ _ C34), (counted_Rep _ _ _ _ _ C03); exact R|split; [rewrite Val, H5, G5, F5; auto|lia]]|].
    all: intros N Ec'; destruct (S3 j N Ec') as (t' & R' & Eb' & L'); exists t'; split; [apply (counted_Rep _ _ _ _ _ C34); exact R'|auto].
Qed.
Lemma satCount_ok k r t : kinv k -> satok k -> Rep k r t ->
  kwp (bddModelCount r) (fun x k' => counted cacheidSatcou k k' /\ x = cntF (zseq 0 (Z.to_nat (varnum k))) (sem t)) k.
Proof.
  intros K S R. pose proof (o_core _ _ (ki_op _ K)) as C. pose proof (Rep_valid _ _ _ R) as V. pose proof (lv_range _ _ _ C V) as Lr. rewrite (Rep_toplev _ _ _ _ R) in Lr.
  unfold bddModelCount, satCount. apply kwp_bind. apply kwp_bind, kwp_rd; [exact (valid_range _ _ _ C V)|]. rewrite (level_eq k K r V), (Rep_toplev _ _ _ _ R). apply kwp_bind, kwp_get.
  pose proof (c_vn _ _ C). eapply kwp_bind'; [apply (satCountRec_ok t); auto|].
  { unfold maxdepth. rewrite (c_cap _ _ C). rewrite Z2Nat.id; lia. }
  intros p k1 (C1 & S1 & B1 & P1 & Q1). apply kwp_bind, kwp_gets. apply kwp_bind, kwp_modify. apply kwp_ret. unfold bigOf, kwp, gets. cbn. unfold Bdd.upd. rewrite Z.eqb_refl. split.
  - eapply counted_trans; [exact C1|]. split; [destruct k1; reflexivity|]. split; auto. cbn. lia.
  - rewrite B1. rewrite (cntF_tree (varnum k) t (Rep_tle _ _ C _ _ R)) by lia. rewrite Z.sub_0_r. lia.
Qed.

Lemma NoDup_map_inj {A B} (f : A -> B) l : (forall x y, In x l -> In y l -> f x = f y -> x = y) -> NoDup l -> NoDup (map f l).
Proof.
  intros H N. induction N as [|x l Hx N IH]; cbn; constructor.
  - intros Hi. apply in_map_iff in Hi as (y & E & Hy). elim Hx. rewrite <- (H y x); cbn; auto.
  - apply IH. intros; apply H; cbn; auto.
Qed.
Lemma NoDup_app_intro {A} (l m : list A) : NoDup l -> NoDup m -> (forall x, In x l -> ~ In x m) -> NoDup (l ++ m).
Proof.
  intros N M H. induction N as [|x l Hx N IH]; cbn; auto. constructor; [rewrite in_app_iff; intros [?|?]; [auto|eapply H; cbn; eauto]|]. apply IH. intros y Hy. apply H. cbn; auto.
Qed.
(** ** The number of models over names *)
Definition aset (a : asg) (x : string) (b : bool) : asg := fun y => if String.eqb y x then b else a y.
(** the number of assignments to the names [xs], false elsewhere, that satisfy [P] *)
Fixpoint models (xs : list string) (P : asg -> bool) : Z :=
  match xs with [] => b2z (P (fun _ => false)) | x :: r => models r (fun a => P (aset a x false)) + models r (fun a => P (aset a x true)) end.
Section Names.
Variable k : kernel.
Hypothesis K : kinv k.
Variable nm : formula -> string.
Hypothesis inj : forall v w, In v (vlist k) -> In w (vlist k) -> nm v = nm w -> v = w.
Definition levOf (v : formula) : Z := match indexOf v (vlist k) 0 with Some i => var2level k i | None => -1 end.
Lemma levOf_nth i v : nth_error (vlist k) i = Some v -> levOf v = var2level k (Z.of_nat i).
Proof.
  intros E. unfold levOf. destruct (indexOf v (vlist k) 0) as [j|] eqn:Ej.
  - apply indexOf_some in Ej as [H1 H2]. rewrite Z.sub_0_r in H2. destruct (ki_vlist _ K) as [N _]. rewrite NoDup_nth_error in N.
    assert (i = Z.to_nat j). { apply N; [apply nth_error_Some; congruence|congruence]. } subst i. rewrite Z2Nat.id by lia. auto.
  - apply indexOf_none in Ej. elim Ej. eapply nth_error_In; eauto.
Qed.
Lemma levOf_inj v w : In v (vlist k) -> In w (vlist k) -> levOf v = levOf w -> v = w.
Proof.
  intros Hv Hw E. apply In_nth_error in Hv as [i Hi], Hw as [j Hj]. rewrite (levOf_nth _ _ Hi), (levOf_nth _ _ Hj) in E.
  pose proof (vlist_range _ _ _ K Hi) as R1. pose proof (vlist_range _ _ _ K Hj) as R2. destruct (ki_perm _ K _ R1) as [_ A], (ki_perm _ K _ R2) as [_ B]. rewrite E, B in A. apply Nat2Z.inj in A. congruence.
Qed.
Lemma levOf_range v : In v (vlist k) -> 0 <= levOf v < varnum k.
Proof. intros H. apply In_nth_error in H as [i Hi]. rewrite (levOf_nth _ _ Hi). apply (ki_perm _ K). eapply vlist_range; eauto. Qed.
Lemma cntF_models vs : forall f P, incl vs (vlist k) -> (forall x a, (forall v, In v (vlist k) -> x (levOf v) = a (nm v)) -> f x = P a) ->
  cntF (map levOf vs) f = models (map nm vs) P.
Proof.
  induction vs as [|v vs IH]; intros f P Hi H; cbn; [rewrite (H (fun _ => false) (fun _ => false)); auto|].
  assert (Hv : In v (vlist k)) by (apply Hi; left; auto).
  assert (G : forall b x a, (forall v, In v (vlist k) -> x (levOf v) = a (nm v)) -> f (Bdd.upd x (levOf v) b) = P (aset a (nm v) b)).
  { intros b x a Hx. apply H. intros w Hw. unfold Bdd.upd, aset. destruct (Z.eqb_spec (levOf w) (levOf v)) as [E|E].
    - rewrite (levOf_inj w v Hw Hv E), String.eqb_refl. auto.
    - destruct (String.eqb_spec (nm w) (nm v)) as [E'|]; [elim E; rewrite (inj w v Hw Hv E'); auto|auto]. }
  assert (Hi' : incl vs (vlist k)) by (intros w Hw; apply Hi; right; auto). rewrite (IH _ (fun a => P (aset a (nm v) false))), (IH _ (fun a => P (aset a (nm v) true))); auto.
Qed.
Lemma count_names n p t P : Denotes k n p -> Rep k n t -> (forall a b, (forall v, In v (vlist k) -> b v = a (nm v)) -> p b = P a) ->
  cntF (zseq 0 (Z.to_nat (varnum k))) (sem t) = 2 ^ (varnum k - Z.of_nat (List.length (vlist k))) * models (map nm (vlist k)) P.
Proof.
  intros D R HP. destruct D as (t' & R' & S). rewrite <- (Rep_fun _ _ _ R _ R') in S. clear R' t'. destruct (ki_vlist _ K) as [Nd Le]. pose proof (c_vn _ _ (o_core _ _ (ki_op _ K))) as Hv.
  set (all := zseq 0 (Z.to_nat (varnum k))). set (named := map levOf (vlist k)). set (rest := filter (fun l => negb (existsb (Z.eqb l) named)) all).
  assert (Nn : NoDup named). { unfold named. apply NoDup_map_inj; [|exact Nd]. intros v w Hv' Hw. apply levOf_inj; auto. }
  assert (Ha : forall l, In l all <-> 0 <= l < varnum k) by (intros l; unfold all; rewrite zseq_in; lia).
  assert (Hr : forall l, In l rest <-> In l all /\ ~ In l named).
  { intros l. unfold rest. rewrite filter_In. split; intros [A B]; (split; [auto|]).
    - intros C. apply negb_true_iff in B. rewrite <- not_true_iff_false in B. apply B. apply existsb_exists. exists l. split; auto. apply Z.eqb_refl.
    - apply negb_true_iff. rewrite <- not_true_iff_false. rewrite existsb_exists. intros (m & C & E). apply Z.eqb_eq in E. subst. auto. }
  assert (Pm : Permutation all (rest ++ named)).
  { apply NoDup_Permutation; [apply zseq_nodup| |].
    - apply NoDup_app_intro; [apply NoDup_filter, zseq_nodup|exact Nn|]. intros l H1 H2. apply Hr in H1. tauto.
    - intros l. rewrite in_app_iff, Hr. split; [intros H; destruct (in_dec Z.eq_dec l named); auto|]. intros [[H _]|H]; auto. apply in_map_iff in H as (v & <- & Hv'). apply Ha. apply levOf_range; auto. }
  rewrite (cntF_perm _ _ Pm) by apply sem_fext. rewrite cntF_nodep.
  - pose proof (Permutation_length Pm) as Lp. rewrite app_length in Lp. unfold all in Lp. rewrite zseq_len in Lp. unfold named in Lp at 1. rewrite map_length in Lp.
    replace (Z.of_nat (List.length rest)) with (varnum k - Z.of_nat (List.length (vlist k))) by lia. f_equal. unfold named. apply cntF_models; [apply incl_refl|].
    intros x a Hx. rewrite (S x (vvals k x)) by (apply vvals_agr; auto). apply HP. intros v Hv'. rewrite <- Hx by auto. apply In_nth_error in Hv' as [i Hi]. rewrite <- (vvals_agr k x K i v Hi). rewrite (levOf_nth _ _ Hi). auto.
  - intros l x b Hl. apply Hr in Hl as [_ Hl]. assert (A : agr k x (vvals k x)) by (apply vvals_agr; auto). rewrite (S x _ A). apply S.
    intros i v Ei. rewrite <- (A i v Ei). unfold Bdd.upd. destruct (Z.eqb_spec (var2level k (Z.of_nat i)) l) as [E|]; auto. elim Hl. rewrite <- E, <- (levOf_nth _ _ Ei). apply in_map. eapply nth_error_In; eauto.
Qed.
End Names.

(** ** Paths *)
(** a path: the nodes with the direction taken at each *)
Inductive pathTo (k : kernel) : Z -> list (Z * bool) -> bool -> Prop :=
| pt_false : pathTo k 0 [] false
| pt_true : pathTo k 1 [] true
| pt_node n (d : bool) ph v : 2 <= n -> pathTo k (if d then highs k n else lows k n) ph v -> pathTo k n ((n, d) :: ph) v.
(** exactly [c] paths lead from [n] to the terminal [v] *)
Definition pathsNumber (k : kernel) (n : Z) (v : bool) (c : Z) : Prop :=
  exists l, NoDup l /\ (forall ph, In ph l <-> pathTo k n ph v) /\ Z.of_nat (List.length l) = c.
(** the directions [q] lead from [n] to the inner node [m] *)
Inductive way (k : kernel) : Z -> list bool -> Z -> Prop :=
| way_here n : 2 <= n -> way k n [] n
| way_down n (d : bool) q m : 2 <= n -> way k (if d then highs k n else lows k n) q m -> way k n (d :: q) m.
(** there is only one way to each inner node: the diagram is a tree *)
Definition unshared (k : kernel) (n : Z) : Prop := forall q q' m, way k n q m -> way k n q' m -> q = q'.
Fixpoint cntP (v : bool) (t : bt) : Z := match t with Lf w => b2z (Bool.eqb w v) | Nd _ a b => cntP v a + cntP v b end.
Lemma Rep_paths k v : forall t n, Rep k n t -> pathsNumber k n v (cntP v t).
Proof.
  induction t as [w|l a IHa b IHb]; intros n R.
  - assert (En : n = b2z w) by (inversion R; auto). subst n. exists (if Bool.eqb w v then [[] : list (Z * bool)] else []). split; [destruct (Bool.eqb w v); repeat constructor; auto|]. split; [|destruct w, v; auto].
    intros ph. split.
    + destruct (Bool.eqb w v) eqn:E; [|intros []]. apply eqb_prop in E. subst. intros [<-|[]]. destruct v; constructor.
    + intros P. destruct w, v; inversion P; subst; cbn; auto; try (cbn in *; lia).
  - inversion R as [| |n' a' b' L Ra Rb E1 E2]. subst n' a' b'. destruct (IHa _ Ra) as (la & A1 & A2 & A3), (IHb _ Rb) as (lb & B1 & B2 & B3).
    exists (map (cons (n, false)) la ++ map (cons (n, true)) lb). split; [|split].
    + apply NoDup_app_intro; [apply NoDup_map_inj; auto; congruence|apply NoDup_map_inj; auto; congruence|]. intros x Hx Hy. apply in_map_iff in Hx as (y & <- & _), Hy as (z & E & _). congruence.
    + intros ph. rewrite in_app_iff, !in_map_iff. split.
      * intros [(y & <- & Hy)|(y & <- & Hy)]; constructor; try (destruct L; lia); [apply A2|apply B2]; auto.
      * intros P. inversion P as [E|E|n' d ph' v' Hn P' E3]; [destruct L; lia|destruct L; lia|]. subst. destruct d; [right|left]; exists ph'; (split; [auto|]); [apply B2|apply A2]; auto.
    + rewrite app_length, !map_length, Nat2Z.inj_add, A3, B3. auto.
Qed.

Fixpoint bnodes (k : kernel) (t : bt) (n : Z) : list Z := match t with Lf _ => [] | Nd _ a b => n :: bnodes k a (lows k n) ++ bnodes k b (highs k n) end.
Lemma bnodes_way k : forall t n m, Rep k n t -> In m (bnodes k t n) -> exists q, way k n q m.
Proof.
  induction t as [w|l a IHa b IHb]; intros n m R Hm; [destruct Hm|]. inversion R as [| |n' a' b' L Ra Rb E1 E2]. subst. pose proof L as [[L1 _] _]. destruct Hm as [<-|H0]; [exists []; constructor; auto|].
  apply in_app_iff in H0 as [H|H]; [destruct (IHa _ _ Ra H) as (q & W); exists (false :: q)|destruct (IHb _ _ Rb H) as (q & W); exists (true :: q)]; constructor; auto.
Qed.
Lemma unshared_nodup vn k : core vn k -> forall t n, Rep k n t -> unshared k n -> NoDup (bnodes k t n).
Proof.
  intros C. induction t as [w|l a IHa b IHb]; intros n R U; [constructor|]. inversion R as [| |n' a' b' L Ra Rb E1 E2]. subst. pose proof L as [[L1 _] _].
  cbn. constructor.
  - intros H. apply in_app_iff in H as [H|H]; [destruct (bnodes_way _ _ _ _ Ra H) as (q & W); assert (X : [] = false :: q)|destruct (bnodes_way _ _ _ _ Rb H) as (q & W); assert (X : [] = true :: q)]; try discriminate X; apply (U _ _ n); constructor; auto.
  - apply NoDup_app_intro.
    + apply IHa; auto. intros q q' m W W'. assert (X : false :: q = false :: q') by (apply (U _ _ m); constructor; auto). congruence.
    + apply IHb; auto. intros q q' m W W'. assert (X : true :: q = true :: q') by (apply (U _ _ m); constructor; auto). congruence.
    + intros m H H'. destruct (bnodes_way _ _ _ _ Ra H) as (q & W), (bnodes_way _ _ _ _ Rb H') as (q' & W'). assert (X : false :: q = true :: q') by (apply (U _ _ m); constructor; auto). congruence.
Qed.
(** entries of the kind [c] belong to the nodes in [ns] *)
Definition cacheOf (c : Z) (ns : list Z) (k : kernel) : Prop := forall i, e_a (misccache k i) <> -1 -> e_c (misccache k i) = c -> In (e_a (misccache k i)) ns.
Definition pathPost (c : Z) (tgt : bool) (t : bt) (ns : list Z) (k : kernel) (p : Z) (k' : kernel) : Prop :=
  counted c k k' /\ cacheOf c ns k' /\ bigs k' p = cntP tgt t /\ bignext k <= p < bignext k' /\ forall q, q < bignext k -> bigs k' q = bigs k q.
Lemma bnodes_ext k k' : lows k' = lows k -> highs k' = highs k -> forall t n, bnodes k' t n = bnodes k t n.
Proof. intros E1 E2. induction t as [|l a IHa b IHb]; intros n; cbn; auto. rewrite IHa, IHb, E1, E2. auto. Qed.
Lemma pathCountRec_ok tgt c : c = cacheidPathcou (b2z tgt) -> forall t d r ns k, kinv k -> cacheOf c ns k -> NoDup (bnodes k t r) -> (forall n, In n (bnodes k t r) -> ~ In n ns) ->
  Rep k r t -> varnum k - toplev (varnum k) t < Z.of_nat d -> kwp (pathCountRec d (b2z tgt) r) (pathPost c tgt t (bnodes k t r ++ ns) k) k.
Proof.
  intros Ec. assert (Hodd : forall v, c <> 8 * v + 1) by (intros v; rewrite Ec; destruct tgt; [change (cacheidPathcou (b2z true)) with 4|change (cacheidPathcou (b2z false)) with 8]; lia).
  induction t as [w|l0 a IHa b IHb]; intros d r ns k K S Nd Dj R Hd.
  - destruct d as [|d]; [cbn in Hd; lia|]. cbn [pathCountRec]. assert (Er : r = b2z w) by (inversion R; subst; auto).
    assert (G : kwp (newBig (b2z (Bool.eqb w tgt))) (pathPost c tgt (Lf w) (bnodes k (Lf w) r ++ ns) k) k).
    { eapply kwp_conseq; [apply (newBig_ok c)|]. intros p k' (Co & -> & En & Eb & Em). split; auto. split; [intros i; rewrite Em; apply S|]. split; [rewrite Eb; unfold Bdd.upd; rewrite Z.eqb_refl; auto|]. split; [lia|].
      intros q Hq. rewrite Eb. unfold Bdd.upd. destruct (Z.eqb_spec q (bignext k)); auto; lia. }
    subst r. destruct w, tgt; exact G.
  - pose proof (o_core _ _ (ki_op _ K)) as C. pose proof R as R0. inversion R0 as [| |n' a' b' L Ra Rb E1 E2]. subst n' a' b'. clear R0. rewrite ?E2. destruct (c_node _ _ C r L) as (N1 & N2 & N3 & N4 & N5 & N6). cbn [toplev] in Hd.
    destruct d as [|d]; [lia|]. cbn [pathCountRec]. assert (Hr : 0 <= r < nodesize k) by (eapply valid_range; eauto; right; right; auto). pose proof L as [L2 L3].
    replace (isZero r) with false by (symmetry; apply Z.eqb_neq; lia). replace (isOne r) with false by (symmetry; apply Z.eqb_neq; lia).
    apply kwp_bind, kwp_gets. apply kwp_bind, kwp_gets. set (i := cacheIndex k r). rewrite <- Ec.
    replace ((e_a (misccache k i) =? r) && (e_c (misccache k i) =? c)) with false.
    2: { symmetry. apply not_true_iff_false. intros X. apply andb_true_iff in X as [X Y]. apply Z.eqb_eq in X, Y. apply (Dj r); [left; auto|]. rewrite <- X. apply S; auto. lia. }
    rewrite (Rep_toplev (varnum k) _ _ _ Ra) in N5. rewrite (Rep_toplev (varnum k) _ _ _ Rb) in N6. cbn [bnodes] in Nd, Dj. apply NoDup_cons_iff in Nd as [Nr Nd].
    assert (Na : NoDup (bnodes k a (lows k r)) /\ NoDup (bnodes k b (highs k r)) /\ forall n, In n (bnodes k b (highs k r)) -> ~ In n (bnodes k a (lows k r))).
    { clear -Nd. induction (bnodes k a (lows k r)) as [|x l IH]; cbn in *; [repeat split; auto; constructor|]. apply NoDup_cons_iff in Nd as [X Y]. destruct (IH Y) as (A & B & D). rewrite in_app_iff in X. split; [constructor; tauto|]. split; auto. intros n Hn [<-|Hx]; [tauto|]. eapply D; eauto. }
    destruct Na as (Na & Nb & Dab).
    apply kwp_bind, kwp_rd; [exact Hr|]. eapply kwp_bind'; [apply (IHa d (lows k r) ns k); auto; [intros n Hn; apply Dj; right; apply in_app_iff; auto|lia]|].
    intros p k1 (C1 & S1 & B1 & P1 & Q1). pose proof (counted_fields _ _ _ C1) as (F1 & F2 & F3 & F4 & F5 & F6). pose proof (counted_kinv _ _ _ C1 Hodd K) as K1.
    apply kwp_bind, kwp_rd; [rewrite F4; exact Hr|]. rewrite F2.
    eapply kwp_bind'; [apply (IHb d (highs k r) (bnodes k a (lows k r) ++ ns) k1); auto|].
    { rewrite (bnodes_ext k k1); auto. }
    { rewrite (bnodes_ext k k1); auto. intros n Hn Hi. apply in_app_iff in Hi as [Hi|Hi]; [eapply Dab; eauto|]. eapply Dj; eauto. right. apply in_app_iff; auto. }
    { eapply counted_Rep; eauto. }
    { rewrite F5. lia. }
    intros q k2 (C2 & S2 & B2 & P2 & Q2). apply kwp_bind, kwp_gets. apply kwp_bind, kwp_gets. unfold setBig, setMisc. apply kwp_bind, kwp_modify. apply kwp_bind, kwp_modify. apply kwp_ret.
    rewrite (bnodes_ext k k1) in S2 by auto. pose proof (counted_trans _ _ _ _ C1 C2) as C02. set (k4 := with_misccache _ _).
    assert (C24 : counted c k2 k4) by (split; [unfold k4; destruct k2; reflexivity|]; split; [|cbn; lia]; intros j; cbn; unfold Bdd.upd; destruct (j =? i); auto).
    split; [eapply counted_trans; eauto|]. split; [|split; [|split]].
    + intros j. cbn. unfold Bdd.upd. destruct (Z.eqb_spec j i) as [->|Nj]; [cbn; auto|]. intros X Y. specialize (S2 j X Y). right. rewrite !in_app_iff in *. tauto.
    + cbn. unfold Bdd.upd. rewrite Z.eqb_refl, B2, Q2, B1 by lia. auto.
    + cbn. destruct C2 as (_ & _ & ?). lia.
    + intros x Hx. cbn. unfold Bdd.upd. destruct (Z.eqb_spec x p); [lia|]. rewrite Q2, Q1; auto. lia.
Qed.
Lemma pathCount_ok tgt c k r t : c = cacheidPathcou (b2z tgt) -> kinv k -> cacheOf c [] k -> Rep k r t -> unshared k r ->
  kwp (p <~ pathCount (b2z tgt) r; bigOf p) (fun x k' => counted c k k' /\ pathsNumber k r tgt x) k.
Proof.
  intros Ec K S R U. pose proof (o_core _ _ (ki_op _ K)) as C. unfold pathCount. apply kwp_bind, kwp_bind, kwp_get.
  eapply kwp_conseq; [apply (pathCountRec_ok tgt c Ec t _ r [] k K S); auto|].
  - eapply unshared_nodup; eauto.
  - pose proof (Rep_valid _ _ _ R) as V. pose proof (lv_range _ _ _ C V) as Lr. rewrite (Rep_toplev _ _ _ _ R) in Lr. pose proof (c_vn _ _ C). unfold maxdepth. rewrite (c_cap _ _ C). rewrite Z2Nat.id; lia.
  - intros p k' (C1 & _ & B & _). apply kwp_gets. split; auto. rewrite B. apply Rep_paths; auto.
Qed.
