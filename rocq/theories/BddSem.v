(** * Meaning of BDD nodes; operation caches; not and apply *)
From Coq Require Import List Bool ZArith Lia.
From Verif Require Import Spec Factory Bdd BddTable BddNode.
Import ListNotations.
Local Open Scope Z_scope.

(** ** Decision trees *)
Inductive bt := Lf (v : bool) | Nd (l : Z) (lo hi : bt).
(** value under an assignment of the levels *)
Fixpoint sem (t : bt) (b : Z -> bool) : bool :=
  match t with Lf v => v | Nd l lo hi => if b l then sem hi b else sem lo b end.
(** node [n] of the table represents the tree [t] *)
Inductive Rep (k : kernel) : Z -> bt -> Prop :=
| Rep_false : Rep k 0 (Lf false)
| Rep_true : Rep k 1 (Lf true)
| Rep_node n a b : live k n -> Rep k (lows k n) a -> Rep k (highs k n) b -> Rep k n (Nd (levels k n) a b).

Lemma Rep_valid k n t : Rep k n t -> valid k n.
Proof. destruct 1; unfold valid; auto. Qed.
Lemma Rep_fun k n t : Rep k n t -> forall t', Rep k n t' -> t = t'.
Proof.
  induction 1 as [| |n a b Hl Ha IHa Hb IHb]; intros t' H; inversion H as [|E|m x y H1 H2 H3]; subst; auto; try (destruct H1; lia); try (destruct Hl; lia).
  f_equal; auto.
Qed.
Lemma Rep_total vn k : core vn k -> forall n, valid k n -> exists t, Rep k n t.
Proof.
  intros C. assert (H : forall d n, valid k n -> (Z.to_nat (vn - lv vn k n) < d)%nat -> exists t, Rep k n t).
  { induction d as [|d IH]; intros n V Hd; [lia|]. destruct V as [->|[->|L]]; [exists (Lf false); constructor|exists (Lf true); constructor|].
    destruct (c_node _ _ C n L) as (R & V1 & V2 & _ & O1 & O2). pose proof (lv_range _ _ _ C V1). pose proof (lv_range _ _ _ C V2).
    assert (E : lv vn k n = levels k n). { unfold lv. destruct L as [L _]. destruct (Z.ltb_spec n 2); auto; lia. }
    destruct (IH _ V1) as [a Ha]; [lia|]. destruct (IH _ V2) as [b Hb]; [lia|]. exists (Nd (levels k n) a b). constructor; auto. }
  intros n V. eapply H; eauto.
Qed.
Lemma Rep_keep k k' : forall n t, Rep k n t -> (forall m, live k m -> live k' m /\ same_node k k' m) -> Rep k' n t.
Proof.
  intros n t H HK. induction H as [| |n a b Hl Ha IHa Hb IHb]; try constructor. destruct (HK n Hl) as (L & E1 & E2 & E3).
  rewrite <- E1. constructor; auto; [rewrite E2|rewrite E3]; auto.
Qed.
Lemma Rep_ext k k' n t : lows k' = lows k -> highs k' = highs k -> levels k' = levels k -> nodesize k' = nodesize k -> Rep k n t -> Rep k' n t.
Proof. intros A B C D H. eapply Rep_keep; eauto. intros m [L1 L2]. unfold live, same_node. rewrite A, B, C, D. auto. Qed.

(** ** The frame with a growing reference stack *)
Definition static0 (k : kernel) := static (with_refstack [] k).
Record fr (k k' : kernel) : Prop := {
  fr_static : static0 k' = static0 k; fr_stack : incl (refstack k) (refstack k'); fr_ref : forall n, refcou k' n = refcou k n;
  fr_const : forall n, n < 2 -> same_node k k' n;
  fr_prot : forall n, prot k n -> live k' n /\ same_node k k' n }.
Lemma frame_fr k k' : frame k k' -> fr k k'.
Proof.
  intros F. constructor; try apply F.
  - pose proof (f_static _ _ F) as E. unfold static0, static in *. cbn. injection E as E1 E2 E3 E4 E5 E6 E7 E8 E9 E10 E11 E12 E13 E14.
    rewrite E1, E2, E3, E4, E6, E7, E8, E9, E10, E11, E12, E13, E14. auto.
  - rewrite (frame_stack _ _ F). apply incl_refl.
Qed.
Lemma fr_prot_mono k k' : fr k k' -> forall n, prot k n -> prot k' n.
Proof.
  intros F n H. induction H as [n H1 H2|n Hp IH H2|n Hp IH H2].
  - apply p_root; [apply F; apply p_root; auto|]. destruct H2 as [H2|H2]; [left; apply (fr_stack _ _ F); auto|right; rewrite (fr_ref _ _ F); auto].
  - destruct (fr_prot _ _ F _ Hp) as (_ & _ & E & _). rewrite <- E. apply p_low; auto. rewrite E; auto.
  - destruct (fr_prot _ _ F _ Hp) as (_ & _ & _ & E). rewrite <- E. apply p_high; auto. rewrite E; auto.
Qed.
Lemma fr_pv k k' : fr k k' -> forall n, pv k n -> pv k' n.
Proof. intros F n [?|[?|?]]; unfold pv; auto. right; right. eapply fr_prot_mono; eauto. Qed.
Lemma fr_trans k1 k2 k3 : fr k1 k2 -> fr k2 k3 -> fr k1 k3.
Proof.
  intros F G. constructor.
  - rewrite (fr_static _ _ G). apply F.
  - eapply incl_tran; [apply F|apply G].
  - intros n. rewrite (fr_ref _ _ G). apply F.
  - intros n Hn. destruct (fr_const _ _ F n Hn) as (A & B & D), (fr_const _ _ G n Hn) as (A' & B' & D'). unfold same_node. split; [|split]; congruence.
  - intros n Hn. destruct (fr_prot _ _ F n Hn) as (_ & A & B & D), (fr_prot _ _ G n (fr_prot_mono _ _ F n Hn)) as (L & A' & B' & D'). split; auto. unfold same_node. split; [|split]; congruence.
Qed.
Definition push (n : Z) (k : kernel) : kernel := with_refstack (n :: refstack k) k.
Definition pops (k0 k : kernel) : kernel := with_refstack (refstack k0) k.
Lemma fr_push vn k n : core vn k -> fr k (push n k).
Proof.
  intros C. constructor; cbn; auto.
  - intros x Hx. right; auto.
  - unfold same_node; auto.
  - intros m Hm. pose proof (prot_live _ _ _ C Hm) as L. split; [exact L|]. unfold same_node; auto.
Qed.
Lemma fr_pops k k' : fr k k' -> frame k (pops k k').
Proof.
  intros F. pose proof (fr_static _ _ F) as E. unfold static0, static in E. cbn in E. injection E as E1 E2 E3 E4 E6 E7 E8 E9 E10 E11 E12 E13 E14.
  constructor; cbn.
  - unfold static. cbn. rewrite E1, E2, E3, E4, E6, E7, E8, E9, E10, E11, E12, E13, E14. auto.
  - apply F.
  - apply F.
  - apply F.
Qed.
Lemma Rep_fr k k' n t : fr k k' -> pv k n -> Rep k n t -> Rep k' n t.
Proof.
  intros F P H. induction H as [| |n a b Hl Ha IHa Hb IHb]; try constructor.
  destruct P as [?|[?|P]]; try (destruct Hl; lia). destruct (fr_prot _ _ F n P) as (L & E1 & E2 & E3).
  assert (HP : forall x t, Rep k x t -> (2 <= x -> prot k x) -> pv k x). { intros x t Hr Hx. inversion Hr as [| |? ? ? L']; unfold pv; auto. right; right. apply Hx. destruct L'; lia. }
  rewrite <- E1. constructor; auto.
  - rewrite E2. apply IHa. eapply HP; eauto. apply p_low; auto.
  - rewrite E3. apply IHb. eapply HP; eauto. apply p_high; auto.
Qed.
Lemma fr_lv vn k k' n : fr k k' -> pv k n -> lv vn k' n = lv vn k n.
Proof. intros F H. unfold lv. destruct (Z.ltb_spec n 2); auto. destruct H as [?|[?|H]]; try lia. apply (fr_prot _ _ F n H). Qed.
Lemma pv_push k n x : pv k x -> pv (push n k) x.
Proof.
  intros [?|[?|H]]; unfold pv; auto. right; right. induction H as [m H1 H2|m Hp IH H2|m Hp IH H2].
  - apply p_root; auto. destruct H2; [left; right; auto|right; auto].
  - apply (p_low (push n k) m); auto.
  - apply (p_high (push n k) m); auto.
Qed.
Lemma pv_top k n : valid k n -> pv (push n k) n.
Proof. intros [?|[?|H]]; unfold pv; auto. right; right. apply p_root; auto. left; left; auto. Qed.
Lemma Rep_push k n x t : Rep (push n k) x t <-> Rep k x t.
Proof. split; apply Rep_ext; reflexivity. Qed.
Lemma Rep_pops k0 k x t : Rep (pops k0 k) x t <-> Rep k x t.
Proof. split; apply Rep_ext; reflexivity. Qed.

(** ** Soundness of the operation caches *)
Definition bsem (o : bop) (x y : bool) : bool :=
  match o with BAnd => x && y | BOr => x || y | BImp => implb x y | BEquiv => Bool.eqb x y end.
(** the literals of a conjunction of literals, read like construction.go 204-212 *)
Fixpoint plits (t : bt) : list (Z * bool) :=
  match t with
  | Lf _ => []
  | Nd l (Lf false) hi => (l, true) :: plits hi
  | Nd l lo _ => (l, false) :: plits lo
  end.
(** its variables, read like construction.go 224-227 *)
Fixpoint pvars (t : bt) : list Z := match t with Lf _ => [] | Nd l _ hi => l :: pvars hi end.
(** the assignment [b] changed to satisfy the literals [ls] *)
Fixpoint override (ls : list (Z * bool)) (b : Z -> bool) : Z -> bool :=
  match ls with [] => b | (l, p) :: r => fun x => if x =? l then p else override r b x end.
(** combining the values of [f] over all values of the levels [vs] *)
Fixpoint quant (o : bool -> bool -> bool) (vs : list Z) (f : (Z -> bool) -> bool) (b : Z -> bool) : bool :=
  match vs with [] => f b | v :: r => o (quant o r f (upd b v false)) (quant o r f (upd b v true)) end.

Definition bin_entry vn k o a b r : Prop := exists ta tb tr, Rep k a ta /\ Rep k b tb /\ Rep k r tr /\
  (forall x, sem tr x = bsem o (sem ta x) (sem tb x)) /\ Z.min (lv vn k a) (lv vn k b) <= lv vn k r.
Definition un_entry vn k (g : ((Z -> bool) -> bool) -> (Z -> bool) -> bool) a r : Prop := exists ta tr, Rep k a ta /\ Rep k r tr /\
  (forall x, sem tr x = g (sem ta) x) /\ lv vn k a <= lv vn k r.
Definition okA vn k (e : entry) : Prop := e_a e <> -1 ->
  (forall o, e_c e = opv o -> bin_entry vn k o (e_a e) (e_b e) (e_res e)) /\
  (e_c e = notv -> un_entry vn k (fun f x => negb (f x)) (e_a e) (e_res e)).
Definition okM vn k (e : entry) : Prop := e_a e <> -1 -> forall v, e_c e = 8 * v + 1 ->
  exists tv, Rep k v tv /\ un_entry vn k (fun f x => f (override (plits tv) x)) (e_a e) (e_res e).
Definition okQ vn k (e : entry) : Prop := e_a e <> -1 -> forall v,
  (e_c e = 8 * v -> exists tv, Rep k v tv /\ un_entry vn k (fun f x => quant orb (pvars tv) f x) (e_a e) (e_res e)) /\
  (e_c e = 8 * v + 1 -> exists tv, Rep k v tv /\ un_entry vn k (fun f x => quant andb (pvars tv) f x) (e_a e) (e_res e)).
Record caches (vn : Z) (k : kernel) : Prop := {
  ca_apply : forall i, okA vn k (applycache k i);
  ca_misc : forall i, okM vn k (misccache k i);
  ca_quant : forall i, okQ vn k (quantcache k i) }.

Lemma lv_keep vn k k' n t : Rep k n t -> (forall m, live k m -> live k' m /\ same_node k k' m) -> lv vn k' n = lv vn k n.
Proof. intros H HK. unfold lv. destruct (Z.ltb_spec n 2); auto. apply HK. apply valid_ge2; auto. eapply Rep_valid; eauto. Qed.
Lemma bin_keep vn k k' o a b r : (forall m, live k m -> live k' m /\ same_node k k' m) -> bin_entry vn k o a b r -> bin_entry vn k' o a b r.
Proof.
  intros HK (ta & tb & tr & A & B & C & D & E). exists ta, tb, tr. rewrite (lv_keep _ _ _ _ _ A HK), (lv_keep _ _ _ _ _ B HK), (lv_keep _ _ _ _ _ C HK).
  split; [|split; [|split]]; auto; eapply Rep_keep; eauto.
Qed.
Lemma un_keep vn k k' g a r : (forall m, live k m -> live k' m /\ same_node k k' m) -> un_entry vn k g a r -> un_entry vn k' g a r.
Proof.
  intros HK (ta & tr & A & C & D & E). exists ta, tr. rewrite (lv_keep _ _ _ _ _ A HK), (lv_keep _ _ _ _ _ C HK).
  split; [|split]; auto; eapply Rep_keep; eauto.
Qed.
Lemma okA_keep vn k k' e : (forall m, live k m -> live k' m /\ same_node k k' m) -> okA vn k e -> okA vn k' e.
Proof. intros HK H N. destruct (H N) as [A B]. split; [intros o E; eapply bin_keep; eauto|intros E; eapply un_keep; eauto]. Qed.
Lemma okM_keep vn k k' e : (forall m, live k m -> live k' m /\ same_node k k' m) -> okM vn k e -> okM vn k' e.
Proof. intros HK H N v E. destruct (H N v E) as (tv & A & B). exists tv. split; [eapply Rep_keep; eauto|eapply un_keep; eauto]. Qed.
Lemma okQ_keep vn k k' e : (forall m, live k m -> live k' m /\ same_node k k' m) -> okQ vn k e -> okQ vn k' e.
Proof.
  intros HK H N v. destruct (H N v) as [A B].
  split; intros E; [destruct (A E) as (tv & A1 & B1)|destruct (B E) as (tv & A1 & B1)]; exists tv; (split; [eapply Rep_keep; eauto|eapply un_keep; eauto]).
Qed.
Lemma caches_kept vn k k' : kept k k' -> caches vn k -> caches vn k'.
Proof.
  intros [(HK & E1 & E2 & E3)|HC] [A B C].
  - constructor; rewrite ?E1, ?E2, ?E3; intros i; [eapply okA_keep|eapply okM_keep|eapply okQ_keep]; eauto.
  - constructor; intros i N; destruct (HC i) as (X & Y & Z); contradiction.
Qed.
Lemma caches_ext vn k k' : lows k' = lows k -> highs k' = highs k -> levels k' = levels k -> nodesize k' = nodesize k ->
  applycache k' = applycache k -> quantcache k' = quantcache k -> misccache k' = misccache k -> caches vn k -> caches vn k'.
Proof.
  intros A B C D E F G. apply caches_kept. left. split; auto. intros m [L1 L2]. unfold live, same_node. rewrite A, B, C, D. auto.
Qed.

(** the invariant between and during operations *)
Record opinv (vn : Z) (k : kernel) : Prop := {
  o_core : core vn k; o_tab : tab 2 k; o_caches : caches vn k; o_lev : levels k 0 = vn /\ levels k 1 = vn }.

Lemma core_ext vn k k' : nodesize k' = nodesize k -> cap k' = cap k -> lows k' = lows k -> highs k' = highs k -> levels k' = levels k -> marks k' = marks k ->
  refcou k' = refcou k -> grow k' = grow k -> cachesize k' = cachesize k -> Forall (valid k) (refstack k') -> core vn k -> core vn k'.
Proof.
  intros E1 E2 E3 E4 E5 E6 E7 E8 E9 HS [A1 A2 A3 A4 A5 A6 A7 A8 A9 A10 A11 A12].
  assert (L : forall n, live k' n <-> live k n) by (intros n; unfold live; rewrite E1, E3; tauto).
  assert (Va : forall n, valid k' n <-> valid k n) by (intros n; unfold valid; rewrite L; tauto).
  assert (LV : forall n, lv vn k' n = lv vn k n) by (intros n; unfold lv; rewrite E5; auto).
  constructor; rewrite ?E1, ?E2, ?E3, ?E4, ?E5, ?E6, ?E7, ?E8, ?E9; auto.
  - intros n Hn. rewrite !LV, !Va. apply A5, L; auto.
  - intros n Hn Hl. apply A7; auto. rewrite <- L; auto.
  - intros n m Hn Hm. apply A9; apply L; auto.
  - eapply Forall_impl; [|exact HS]. intros n. apply Va.
Qed.
Lemma opinv_push vn k n : opinv vn k -> valid k n -> opinv vn (push n k).
Proof.
  intros [A B C D] V. constructor; auto.
  - pose proof (c_stack _ _ A) as S. revert A. apply core_ext; auto. cbn. constructor; auto.
  - revert B. apply tab_ext; reflexivity.
  - revert C. apply caches_ext; reflexivity.
Qed.
Lemma opinv_pops vn k0 k : opinv vn k -> incl (refstack k0) (refstack k) -> opinv vn (pops k0 k).
Proof.
  intros [A B C D] V. constructor; auto.
  - pose proof (c_stack _ _ A) as S. revert A. apply core_ext; auto. cbn. rewrite Forall_forall in *. auto.
  - revert B. apply tab_ext; reflexivity.
  - revert C. apply caches_ext; reflexivity.
Qed.
(** replacing one cache entry by a sound one *)
Lemma opinv_cache vn k k' : lows k' = lows k -> highs k' = highs k -> levels k' = levels k -> nodesize k' = nodesize k ->
  marks k' = marks k -> refcou k' = refcou k -> hashes k' = hashes k -> nexts k' = nexts k -> freepos k' = freepos k -> freenum k' = freenum k -> static k' = static k ->
  (forall i, applycache k' i = applycache k i \/ okA vn k (applycache k' i)) ->
  (forall i, misccache k' i = misccache k i \/ okM vn k (misccache k' i)) ->
  (forall i, quantcache k' i = quantcache k i \/ okQ vn k (quantcache k' i)) -> opinv vn k -> opinv vn k'.
Proof.
  intros E1 E2 E3 E4 E5 E6 E7 E8 E9 E10 ES HA HM HQ [A B C D].
  assert (HK : forall m, live k m -> live k' m /\ same_node k k' m) by (intros m L; unfold live, same_node in *; rewrite E1, E2, E3, E4; auto).
  unfold static in ES. constructor.
  - pose proof (c_stack _ _ A) as S. revert A. apply core_ext; auto; try congruence.
  - revert B. apply tab_ext; auto.
  - destruct C as [C1 C2 C3]. constructor; intros i; [eapply okA_keep|eapply okM_keep|eapply okQ_keep]; eauto.
    + destruct (HA i) as [->|X]; auto.
    + destruct (HM i) as [->|X]; auto.
    + destruct (HQ i) as [->|X]; auto.
  - rewrite E3. auto.
Qed.
Lemma opinv_apply vn k i e : opinv vn k -> okA vn k e -> opinv vn (with_applycache (upd (applycache k) i e) k).
Proof. intros O H. revert O. apply opinv_cache; auto; intros j; cbn; auto. unfold upd. destruct (j =? i); auto. Qed.
Lemma opinv_misc vn k i e : opinv vn k -> okM vn k e -> opinv vn (with_misccache (upd (misccache k) i e) k).
Proof. intros O H. revert O. apply opinv_cache; auto; intros j; cbn; auto. unfold upd. destruct (j =? i); auto. Qed.
Lemma opinv_quant vn k i e : opinv vn k -> okQ vn k e -> opinv vn (with_quantcache (upd (quantcache k) i e) k).
Proof. intros O H. revert O. apply opinv_cache; auto; intros j; cbn; auto. unfold upd. destruct (j =? i); auto. Qed.

(** the result of an operation: a node for [f] whose level is at least [m] *)
Definition post vn k (f : (Z -> bool) -> bool) (m res : Z) (k' : kernel) : Prop :=
  opinv vn k' /\ frame k k' /\ (exists t, Rep k' res t /\ forall x, sem t x = f x) /\ m <= lv vn k' res.
Lemma opinv_fr vn k k' : core vn k' -> tab 2 k' -> fr k k' -> kept k k' -> opinv vn k -> opinv vn k'.
Proof.
  intros C T F Kp [A B D E]. constructor; auto; [eapply caches_kept; eauto|].
  destruct (fr_const _ _ F 0) as (E0 & _); [lia|]. destruct (fr_const _ _ F 1) as (E1 & _); [lia|]. rewrite E0, E1. auto.
Qed.
Lemma fr_cap k k' : fr k k' -> cap k' = cap k.
Proof. intros F. pose proof (fr_static _ _ F) as E. unfold static0, static in E. cbn in E. congruence. Qed.
Lemma lv_Rep vn k n t l : core vn k -> Rep k n t -> l <= lv vn k n -> forall lo hi m, t = Nd m lo hi -> l <= m.
Proof. intros C H Hl lo hi m ->. inversion H as [| |? ? ? L]; subst. unfold lv in Hl. destruct L as [L _]. destruct (Z.ltb_spec n 2); lia. Qed.

(** the common end of the operations: build the node from the two results on the stack *)
Lemma build_seq {B} vn k k2 n1 n2 x lvl (cont : Z -> Z -> Z -> K B) (Q : B -> kernel -> Prop) : opinv vn k2 -> fr k k2 -> refstack k2 = n1 :: refstack k -> valid k2 n2 ->
  prot k x -> levels k x = lvl -> Z.of_nat (List.length (refstack k)) + 2 <= cap k ->
  kwp (cont lvl n1 n2) Q (push n2 k2) ->
  kwp (pushRef n2 ~; lv <~ level x; a <~ readRef 2; b <~ readRef 1; cont lv a b) Q k2.
Proof.
  intros O F St V2 Px El Cap HQ.
  apply kwp_bind, kwp_push. { rewrite St, (fr_cap _ _ F). cbn [List.length]. lia. }
  fold (push n2 k2). pose proof (opinv_push _ _ _ O V2) as O2. pose proof (fr_trans _ _ _ F (fr_push _ _ n2 (o_core _ _ O))) as F2.
  pose proof (fr_pv _ _ F2 x (or_intror (or_intror Px))) as Px2. pose proof (pv_valid _ _ _ (o_core _ _ O2) Px2) as Vx.
  apply kwp_bind, kwp_rd; [eapply valid_range; [apply O2|auto]|].
  assert (Ex : levels (push n2 k2) x = lvl). { destruct (fr_prot _ _ F2 x Px) as (_ & E & _). congruence. }
  rewrite Ex. apply kwp_bind. unfold kwp at 1, readRef at 1. cbn [push refstack with_refstack]. rewrite St. cbn [nth_error Nat.sub].
  apply kwp_bind. unfold kwp at 1, readRef at 1. cbn [push refstack with_refstack]. cbn [nth_error Nat.sub]. exact HQ.
Qed.
Lemma build_ok vn k k2 n1 n2 t1 t2 lvl : opinv vn k2 -> fr k k2 -> refstack k2 = n1 :: refstack k -> Rep k2 n1 t1 -> Rep k2 n2 t2 ->
  0 <= lvl < vn -> lvl < lv vn k2 n1 -> lvl < lv vn k2 n2 ->
  kwp (makeNode lvl n1 n2)
    (fun res k3 => opinv vn k3 /\ fr k k3 /\ refstack k3 = n2 :: n1 :: refstack k /\
      (exists t, Rep k3 res t /\ forall b, sem t b = if b lvl then sem t2 b else sem t1 b) /\ lvl <= lv vn k3 res) (push n2 k2).
Proof.
  intros O F St R1 R2 Rl L1 L2. pose proof (Rep_valid _ _ _ R1) as V1. pose proof (Rep_valid _ _ _ R2) as V2.
  pose proof (opinv_push _ _ _ O V2) as O2. pose proof (fr_trans _ _ _ F (fr_push _ _ n2 (o_core _ _ O))) as F2.
  assert (P2 : pv (push n2 k2) n2) by (apply pv_top; auto).
  assert (P1 : pv (push n2 k2) n1). { apply pv_push. destruct V1 as [?|[?|V1]]; unfold pv; auto. right; right. apply p_root; auto. left. rewrite St. left; auto. }
  eapply kwp_conseq; [apply makeNode_ok with (vn := vn); [apply O2|apply O2|auto|exact P1|exact P2|exact L1|exact L2]|].
  intros res k3 (C3 & T3 & F3 & K3 & N3).
  assert (O3 : opinv vn k3). { eapply opinv_fr; [exact C3|exact T3|apply frame_fr; exact F3|exact K3|exact O2]. }
  pose proof (Rep_fr _ _ _ _ (frame_fr _ _ F3) P1 (proj2 (Rep_push _ n2 _ _) R1)) as R1'.
  pose proof (Rep_fr _ _ _ _ (frame_fr _ _ F3) P2 (proj2 (Rep_push _ n2 _ _) R2)) as R2'.
  split; auto. split; [eapply fr_trans; [exact F2|apply frame_fr; exact F3]|]. split; [rewrite (frame_stack _ _ F3); cbn; rewrite St; auto|].
  destruct N3 as [[-> ->]|(Ne & L & E1 & E2 & E3)].
  - split; [exists t2; split; auto; intros b; rewrite (Rep_fun _ _ _ R1' _ R2'); destruct (b lvl); auto|].
    rewrite (frame_lv _ _ _ _ F3 P2). change (lvl <= lv vn k2 n2). lia.
  - split; [exists (Nd lvl t1 t2); split; auto; rewrite <- E1; constructor; auto; congruence|].
    unfold lv. destruct (Z.ltb_spec res 2); [destruct L; lia|rewrite E1; lia].
Qed.

(** first recursive call: push its result *)
Lemma first_ok vn k f m n1 k1 : opinv vn k -> post vn k f m n1 k1 -> exists t1,
  opinv vn (push n1 k1) /\ fr k (push n1 k1) /\ refstack (push n1 k1) = n1 :: refstack k /\ Rep (push n1 k1) n1 t1 /\ (forall x, sem t1 x = f x) /\ m <= lv vn (push n1 k1) n1 /\
  pv (push n1 k1) n1.
Proof.
  intros O (O1 & F1 & (t1 & R1 & S1) & M1). exists t1. pose proof (Rep_valid _ _ _ R1) as V1.
  split; [apply opinv_push; auto|]. split; [eapply fr_trans; [apply frame_fr; eauto|eapply fr_push; apply O1]|].
  split; [cbn; rewrite (frame_stack _ _ F1); auto|]. split; [apply Rep_push; auto|]. split; auto. split; auto. apply pv_top; auto.
Qed.
Lemma second_ok vn k k1 n1 t1 f m n2 k2 : fr k k1 -> refstack k1 = n1 :: refstack k -> pv k1 n1 -> Rep k1 n1 t1 -> post vn k1 f m n2 k2 ->
  fr k k2 /\ refstack k2 = n1 :: refstack k /\ Rep k2 n1 t1 /\ lv vn k2 n1 = lv vn k1 n1.
Proof.
  intros F St P R (O2 & F2 & _). pose proof (frame_fr _ _ F2) as F2'. split; [eapply fr_trans; eauto|]. split; [rewrite (frame_stack _ _ F2); auto|].
  split; [eapply Rep_fr; eauto|]. apply fr_lv; auto.
Qed.
Lemma pop_ok vn k k3 : opinv vn k3 -> fr k k3 -> opinv vn (pops k k3) /\ frame k (pops k k3).
Proof. intros O F. split; [apply opinv_pops; auto; apply F|apply fr_pops; auto]. Qed.

(** a cache update leaves the nodes and the frame alone *)
Lemma frame_apply k k' c : frame k k' -> frame k (with_applycache c k').
Proof. intros [A B C D]. constructor; auto. Qed.
Lemma frame_quant k k' c : frame k k' -> frame k (with_quantcache c k').
Proof. intros [A B C D]. constructor; auto. Qed.
Lemma frame_misc k k' c : frame k k' -> frame k (with_misccache c k').
Proof. intros [A B C D]. constructor; auto. Qed.

Lemma Rep_apply k c n t : Rep k n t -> Rep (with_applycache c k) n t.
Proof. apply Rep_ext; reflexivity. Qed.
Lemma Rep_quant k c n t : Rep k n t -> Rep (with_quantcache c k) n t.
Proof. apply Rep_ext; reflexivity. Qed.
Lemma Rep_misc k c n t : Rep k n t -> Rep (with_misccache c k) n t.
Proof. apply Rep_ext; reflexivity. Qed.
Lemma Rep_inv vn k n t : core vn k -> Rep k n t -> 2 <= n -> exists a b, t = Nd (levels k n) a b /\ Rep k (lows k n) a /\ Rep k (highs k n) b /\ live k n /\
  0 <= levels k n < vn /\ levels k n < lv vn k (lows k n) /\ levels k n < lv vn k (highs k n) /\ lv vn k n = levels k n.
Proof.
  intros C H Hn. inversion H as [| |? a b L Ha Hb]; subst; try lia. destruct (c_node _ _ C n L) as (X1 & X2 & X3 & X4 & X5 & X6). exists a, b.
  do 7 (split; auto). unfold lv. destruct (Z.ltb_spec n 2); auto; lia.
Qed.
Lemma pv_ge2 k n : pv k n -> 2 <= n -> prot k n.
Proof. intros [?|[?|H]] ?; auto; lia. Qed.

Lemma opv_not o : opv o <> notv. Proof. destruct o; discriminate. Qed.
Lemma opv_inj o o' : opv o = opv o' -> o = o'. Proof. destruct o, o'; auto; discriminate. Qed.

Lemma notRec_ok vn : forall d r k t, opinv vn k -> pv k r -> Rep k r t -> Z.of_nat (List.length (refstack k)) + 2 * (vn - lv vn k r) <= cap k ->
  vn - lv vn k r < Z.of_nat d -> kwp (notRec d r) (post vn k (fun x => negb (sem t x)) (lv vn k r)) k.
Proof.
  induction d as [|d IH]; intros r k t O P R Cap Hd.
  { pose proof (lv_range _ _ _ (o_core _ _ O) (Rep_valid _ _ _ R)). lia. }
  cbn [notRec]. unfold isZero, isOne. pose proof (o_core _ _ O) as C.
  destruct (Z.eqb_spec r 0) as [->|N0].
  { apply kwp_ret. split; auto. split; [eapply frame_refl; eauto|]. inversion R; subst; try (destruct H; lia).
    split; [exists (Lf true); split; [constructor|auto]|]. unfold lv; cbn; lia. }
  destruct (Z.eqb_spec r 1) as [->|N1].
  { apply kwp_ret. split; auto. split; [eapply frame_refl; eauto|]. inversion R; subst; try (destruct H; lia).
    split; [exists (Lf false); split; [constructor|auto]|]. unfold lv; cbn; lia. }
  assert (H2 : 2 <= r) by (pose proof (valid_range _ _ _ C (Rep_valid _ _ _ R)); lia).
  apply kwp_bind, kwp_gets. apply kwp_bind, kwp_gets. set (i := cacheIndex k r).
  destruct ((e_a (applycache k i) =? r) && (e_c (applycache k i) =? notv)) eqn:Ec.
  { apply andb_true_iff in Ec. destruct Ec as [E1 E2]. apply Z.eqb_eq in E1, E2. apply kwp_ret.
    destruct (ca_apply _ _ (o_caches _ _ O) i) as [_ X]; [lia|]. destruct (X E2) as (ta & tr & Ra & Rr & Sr & Lr).
    rewrite E1 in Ra, Lr. rewrite (Rep_fun _ _ _ R _ Ra). split; auto. split; [eapply frame_refl; eauto|]. split; auto. exists tr; auto. }
  clear Ec. pose proof R as R0. destruct (Rep_inv _ _ _ _ C R H2) as (ta & tb & -> & Ra & Rb & L & Rg & La & Lb & Er). pose proof (pv_ge2 _ _ P H2) as Pr.
  destruct L as [Rr Nl]. apply kwp_bind, kwp_rd; [lia|].
  assert (Pa : pv k (lows k r)) by (eapply pv_low; eauto). assert (Pb : pv k (highs k r)) by (eapply pv_high; eauto).
  eapply kwp_bind'; [apply IH; [exact O|exact Pa|exact Ra|lia|lia]|]. intros n1 k1 H1.
  destruct (first_ok _ _ _ _ _ _ O H1) as (t1 & O1 & F1 & St1 & R1 & S1 & M1 & P1).
  apply kwp_bind, kwp_push. { destruct H1 as (_ & G & _). rewrite (frame_stack _ _ G), (fr_cap _ _ (frame_fr _ _ G)). lia. }
  fold (push n1 k1). set (k1' := push n1 k1) in *. clearbody k1'. clear H1.
  destruct (fr_prot _ _ F1 r Pr) as ([Rr1 _] & _ & _ & Eh). apply kwp_bind, kwp_rd; [lia|]. rewrite Eh.
  pose proof (fr_pv _ _ F1 _ Pb) as Pb1. pose proof (Rep_fr _ _ _ _ F1 Pb Rb) as Rb1. pose proof (fr_lv vn _ _ _ F1 Pb) as Lb1.
  eapply kwp_bind'; [apply IH; [exact O1|exact Pb1|exact Rb1|rewrite St1, (fr_cap _ _ F1); cbn [List.length]; lia|lia]|]. intros n2 k2 H2'.
  destruct (second_ok _ _ _ _ _ _ _ _ _ F1 St1 P1 R1 H2') as (F2 & St2 & R1' & Lv1). destruct H2' as (O2 & _ & (t2 & R2 & S2) & M2).
  eapply build_seq; [exact O2|exact F2|exact St2|eapply Rep_valid; eauto|exact Pr|reflexivity|lia|].
  eapply kwp_bind'; [eapply build_ok; [exact O2|exact F2|exact St2|exact R1'|exact R2|lia|lia|lia]|].
  intros res k3 (O3 & F3 & St3 & (t3 & R3 & S3) & M3). apply kwp_bind. unfold popref. apply kwp_modify. rewrite St3. cbn [skipn].
  fold (pops k k3). destruct (pop_ok _ _ _ O3 F3) as (O4 & F4). apply (Rep_pops k) in R3. change (levels k r <= lv vn (pops k k3) res) in M3.
  set (k4 := pops k k3) in *. clearbody k4. apply kwp_bind, kwp_modify, kwp_ret.
  assert (Sm : forall x, sem t3 x = negb (sem (Nd (levels k r) ta tb) x)). { intros x. rewrite S3, S1, S2. cbn. destruct (x (levels k r)); auto. }
  split; [|split; [apply frame_apply; auto|split; [exists t3; split; auto; apply Rep_apply; exact R3|rewrite Er; exact M3]]].
  apply opinv_apply; auto. intros _. split; [intros o E; cbn in E; symmetry in E; destruct (opv_not o); auto|]. intros _. cbn [e_a e_res].
  exists (Nd (levels k r) ta tb), t3. split; [eapply Rep_fr; [apply frame_fr; eauto|exact P|exact R0]|]. split; auto. split; auto.
  rewrite (frame_lv _ _ _ _ F4 P). lia.
Qed.

(** ** apply *)
Lemma applyShort_ok vn k l r o res tl tr : core vn k -> Rep k l tl -> Rep k r tr -> applyShort l r o = Some res ->
  exists t, Rep k res t /\ (forall x, sem t x = bsem o (sem tl x) (sem tr x)) /\ Z.min (lv vn k l) (lv vn k r) <= lv vn k res.
Proof.
  intros C Rl Rr H. pose proof (lv_range _ _ _ C (Rep_valid _ _ _ Rl)) as Bl. pose proof (lv_range _ _ _ C (Rep_valid _ _ _ Rr)) as Br.
  assert (L0 : lv vn k 0 = vn) by reflexivity. assert (L1 : lv vn k 1 = vn) by reflexivity.
  assert (Z0 : forall t, Rep k 0 t -> t = Lf false) by (intros t Ht; eapply Rep_fun; eauto; constructor).
  assert (Z1 : forall t, Rep k 1 t -> t = Lf true) by (intros t Ht; eapply Rep_fun; eauto; constructor).
  unfold applyShort, isZero, isOne in H.
  destruct o; try discriminate;
  repeat match type of H with
  | (if ?a =? ?b then _ else _) = _ => destruct (Z.eqb_spec a b); subst
  | (if (?a =? ?b) || (?c =? ?d) then _ else _) = _ => destruct (Z.eqb_spec a b), (Z.eqb_spec c d); subst; cbn in H
  end; try discriminate; injection H as <-;
  try (apply Z0 in Rl; subst); try (apply Z1 in Rl; subst); try (apply Z0 in Rr; subst); try (apply Z1 in Rr; subst);
  try (rewrite (Rep_fun _ _ _ Rl _ Rr));
  first [exists tr; split; [assumption|split; [intros x; cbn; destruct (sem tr x); reflexivity|lia]]
        |exists tl; split; [assumption|split; [intros x; cbn; destruct (sem tl x); reflexivity|lia]]
        |exists (Lf false); split; [constructor|split; [intros x; cbn; try (destruct (sem tr x)); try (destruct (sem tl x)); reflexivity|lia]]
        |exists (Lf true); split; [constructor|split; [intros x; cbn; try (destruct (sem tr x)); try (destruct (sem tl x)); reflexivity|lia]]].
Qed.

Section Apply.
Variables (vn : Z) (d : nat) (o : bop).
Definition applySpec := forall l r k tl tr, opinv vn k -> pv k l -> pv k r -> Rep k l tl -> Rep k r tr ->
  Z.of_nat (List.length (refstack k)) + 2 * (vn - Z.min (lv vn k l) (lv vn k r)) <= cap k ->
  vn - Z.min (lv vn k l) (lv vn k r) < Z.of_nat d ->
  kwp (applyRec d l r o) (post vn k (fun x => bsem o (sem tl x) (sem tr x)) (Z.min (lv vn k l) (lv vn k r))) k.
Hypothesis IH : applySpec.
Lemma apply_first {B} k x y tx ty m (cont : K B) (Q : B -> kernel -> Prop) : opinv vn k -> pv k x -> pv k y -> Rep k x tx -> Rep k y ty ->
  m < lv vn k x -> m < lv vn k y -> 0 <= m < vn -> Z.of_nat (List.length (refstack k)) + 2 * (vn - m) <= cap k -> vn - m < Z.of_nat (S d) ->
  (forall n1 k1 t1, opinv vn k1 -> fr k k1 -> refstack k1 = n1 :: refstack k -> Rep k1 n1 t1 -> (forall b, sem t1 b = bsem o (sem tx b) (sem ty b)) -> m < lv vn k1 n1 -> pv k1 n1 -> kwp cont Q k1) ->
  kwp (n1 <~ applyRec d x y o; pushRef n1 ~; cont) Q k.
Proof.
  intros O Px Py Rx Ry Lx Ly Hm Cap Hd H.
  eapply kwp_bind'; [apply IH; [exact O|exact Px|exact Py|exact Rx|exact Ry|lia|lia]|]. intros n1 k1 H1.
  destruct (first_ok _ _ _ _ _ _ O H1) as (t1 & O1 & F1 & St1 & R1 & S1 & M1 & P1).
  apply kwp_bind, kwp_push. { destruct H1 as (_ & G & _). rewrite (frame_stack _ _ G), (fr_cap _ _ (frame_fr _ _ G)). lia. }
  fold (push n1 k1). apply (H n1 (push n1 k1) t1); auto. lia.
Qed.
Lemma apply_second k k1 n1 t1 x y z tx ty m : opinv vn k1 -> fr k k1 -> refstack k1 = n1 :: refstack k -> pv k1 n1 -> Rep k1 n1 t1 -> m < lv vn k1 n1 ->
  pv k x -> pv k y -> Rep k x tx -> Rep k y ty -> m < lv vn k x -> m < lv vn k y -> 0 <= m < vn -> prot k z -> levels k z = m ->
  Z.of_nat (List.length (refstack k)) + 2 * (vn - m) <= cap k -> vn - m < Z.of_nat (S d) ->
  kwp (n2 <~ applyRec d x y o; pushRef n2 ~; lv <~ level z; a <~ readRef 2; b <~ readRef 1; makeNode lv a b)
    (fun res k3 => opinv vn k3 /\ fr k k3 /\ (exists n2, refstack k3 = n2 :: n1 :: refstack k) /\
      (exists t, Rep k3 res t /\ forall b, sem t b = if b m then bsem o (sem tx b) (sem ty b) else sem t1 b) /\ m <= lv vn k3 res) k1.
Proof.
  intros O1 F1 St1 P1 R1 M1 Px Py Rx Ry Lx Ly Hm Pz Ez Cap Hd.
  pose proof (fr_pv _ _ F1 _ Px) as Px1. pose proof (Rep_fr _ _ _ _ F1 Px Rx) as Rx1. pose proof (fr_lv vn _ _ _ F1 Px) as Lx1.
  pose proof (fr_pv _ _ F1 _ Py) as Py1. pose proof (Rep_fr _ _ _ _ F1 Py Ry) as Ry1. pose proof (fr_lv vn _ _ _ F1 Py) as Ly1.
  eapply kwp_bind'; [apply IH; [exact O1|exact Px1|exact Py1|exact Rx1|exact Ry1|rewrite St1, (fr_cap _ _ F1); cbn [List.length]; lia|lia]|]. intros n2 k2 H2'.
  destruct (second_ok _ _ _ _ _ _ _ _ _ F1 St1 P1 R1 H2') as (F2 & St2 & R1' & Lv1). destruct H2' as (O2 & _ & (t2 & R2 & S2) & M2).
  eapply build_seq; [exact O2|exact F2|exact St2|eapply Rep_valid; eauto|exact Pz|exact Ez|lia|].
  eapply kwp_conseq; [eapply build_ok; [exact O2|exact F2|exact St2|exact R1'|exact R2|lia|lia|lia]|].
  intros res k3 (O3 & F3 & St3 & (t3 & R3 & S3) & M3). split; auto. split; auto. split; [exists n2; auto|]. split; auto.
  exists t3. split; auto. intros b. rewrite S3, S2. auto.
Qed.
End Apply.

Lemma bsem_ite o (c x y x' y' : bool) : bsem o (if c then x else y) (if c then x' else y') = if c then bsem o x x' else bsem o y y'.
Proof. destruct c; auto. Qed.

Lemma applyRec_ok vn o : forall d, applySpec vn d o.
Proof.
  induction d as [|d IH]; intros l r k tl tr O Pl Pr Rl Rr Cap Hd.
  { pose proof (lv_range _ _ _ (o_core _ _ O) (Rep_valid _ _ _ Rl)). lia. }
  cbn [applyRec]. pose proof (o_core _ _ O) as C. pose proof (lv_range _ _ _ C (Rep_valid _ _ _ Rl)) as Bl. pose proof (lv_range _ _ _ C (Rep_valid _ _ _ Rr)) as Br.
  destruct (applyShort l r o) as [res|] eqn:Es.
  { apply kwp_ret. destruct (applyShort_ok _ _ _ _ _ _ _ _ C Rl Rr Es) as (t & Rt & St & Lt). split; auto. split; [eapply frame_refl; eauto|]. split; eauto. }
  clear Es. pose proof (valid_range _ _ _ C (Rep_valid _ _ _ Rl)) as Vl. pose proof (valid_range _ _ _ C (Rep_valid _ _ _ Rr)) as Vr.
  destruct (isConst l && isConst r) eqn:Ec.
  { apply andb_true_iff in Ec. destruct Ec as [E1 E2]. apply Z.ltb_lt in E1, E2.
    assert (Hl : l = 0 \/ l = 1) by lia. assert (Hr : r = 0 \/ r = 1) by lia. clear E1 E2 Cap Hd Bl Br.
    assert (Z0 : forall t, Rep k 0 t -> t = Lf false) by (intros t Ht; eapply Rep_fun; eauto; constructor).
    assert (Z1 : forall t, Rep k 1 t -> t = Lf true) by (intros t Ht; eapply Rep_fun; eauto; constructor).
    destruct Hl as [-> | ->], Hr as [-> | ->]; first [apply Z0 in Rl|apply Z1 in Rl]; first [apply Z0 in Rr|apply Z1 in Rr]; subst;
    destruct o; (apply kwp_ret; split; [auto|split; [eapply frame_refl; eauto|split; [eexists; split; [constructor|reflexivity]|unfold lv; cbn; lia]]]). }
  apply kwp_bind, kwp_gets. apply kwp_bind, kwp_gets. set (i := cacheIndex k _).
  destruct ((e_a (applycache k i) =? l) && (e_b (applycache k i) =? r) && (e_c (applycache k i) =? opv o)) eqn:Eh.
  { apply andb_true_iff in Eh. destruct Eh as [Eh E3]. apply andb_true_iff in Eh. destruct Eh as [E1 E2]. apply Z.eqb_eq in E1, E2, E3. apply kwp_ret.
    destruct (ca_apply _ _ (o_caches _ _ O) i) as [X _]; [lia|]. destruct (X o E3) as (ta & tb & t & Ra & Rb & Rt & St & Lt).
    rewrite E1 in Ra, Lt. rewrite E2 in Rb, Lt. rewrite (Rep_fun _ _ _ Rl _ Ra), (Rep_fun _ _ _ Rr _ Rb). split; auto. split; [eapply frame_refl; eauto|]. split; eauto. }
  clear Eh. apply kwp_bind, kwp_rd; auto. apply kwp_bind, kwp_rd; auto. destruct (o_lev _ _ O) as [Lv0 Lv1].
  assert (LV : forall n t, Rep k n t -> levels k n = lv vn k n).
  { intros n t Hn. unfold lv. destruct (Z.ltb_spec n 2); auto. pose proof (valid_range _ _ _ C (Rep_valid _ _ _ Hn)). assert (n = 0 \/ n = 1) as [->| ->] by lia; auto. }
  pose proof (LV _ _ Rl) as El. pose proof (LV _ _ Rr) as Er. set (m := Z.min (lv vn k l) (lv vn k r)) in *.
  assert (G : forall n, lv vn k n < vn -> 2 <= n) by (intros n Hn; unfold lv in Hn; destruct (Z.ltb_spec n 2); lia).
  assert (Hm : m < vn). { unfold isConst in Ec. unfold m. apply andb_false_iff in Ec. destruct Ec as [Ec|Ec]; apply Z.ltb_ge in Ec;
    [destruct (Rep_inv _ _ _ _ C Rl Ec) as (_ & _ & _ & _ & _ & _ & X & _)|destruct (Rep_inv _ _ _ _ C Rr Ec) as (_ & _ & _ & _ & _ & _ & X & _)]; lia. }
  eapply kwp_bind' with (P := fun res k3 => opinv vn k3 /\ fr k k3 /\ (exists n1 n2, refstack k3 = n2 :: n1 :: refstack k) /\
      (exists t, Rep k3 res t /\ forall b, sem t b = bsem o (sem tl b) (sem tr b)) /\ m <= lv vn k3 res).
  { destruct (Z.eqb_spec (levels k l) (levels k r)) as [E|NE].
    - assert (Hl : 2 <= l) by (apply G; lia). assert (Hr : 2 <= r) by (apply G; lia). pose proof (pv_ge2 _ _ Pl Hl) as Pl'. pose proof (pv_ge2 _ _ Pr Hr) as Pr'.
      destruct (Rep_inv _ _ _ _ C Rl Hl) as (la & lb & -> & Rla & Rlb & _ & Rg & Lla & Llb & El').
      destruct (Rep_inv _ _ _ _ C Rr Hr) as (ra & rb & -> & Rra & Rrb & _ & Rg' & Lra & Lrb & Er').
      apply kwp_bind, kwp_rd; auto. apply kwp_bind, kwp_rd; auto.
      apply (apply_first vn d o IH) with (tx := la) (ty := ra) (m := m); auto; try lia; try (eapply pv_low; eauto).
      intros n1 k1 t1 O1 F1 St1 R1 S1 M1 P1.
      destruct (fr_prot _ _ F1 l Pl') as ([Rl1 _] & _ & _ & Ehl). destruct (fr_prot _ _ F1 r Pr') as ([Rr1 _] & _ & _ & Ehr).
      apply kwp_bind, kwp_rd; [lia|]. apply kwp_bind, kwp_rd; [lia|]. rewrite Ehl, Ehr.
      eapply kwp_conseq; [eapply (apply_second vn d o IH) with (k := k) (tx := lb) (ty := rb) (m := m); eauto; try lia; try (eapply pv_high; eauto)|].
      intros res k3 (O3 & F3 & (n2 & St3) & (t3 & R3 & S3) & M3). split; auto. split; auto. split; eauto. split; auto. exists t3. split; auto.
      intros b. rewrite S3, S1. cbn [sem]. replace (levels k l) with m by lia. replace (levels k r) with m by lia. rewrite bsem_ite. auto.
    - destruct (Z.ltb_spec (levels k l) (levels k r)) as [E|E].
      + assert (Hl : 2 <= l) by (apply G; lia). pose proof (pv_ge2 _ _ Pl Hl) as Pl'.
        destruct (Rep_inv _ _ _ _ C Rl Hl) as (la & lb & -> & Rla & Rlb & _ & Rg & Lla & Llb & El').
        apply kwp_bind, kwp_rd; auto.
        apply (apply_first vn d o IH) with (tx := la) (ty := tr) (m := m); auto; try lia; try (eapply pv_low; eauto).
        intros n1 k1 t1 O1 F1 St1 R1 S1 M1 P1.
        destruct (fr_prot _ _ F1 l Pl') as ([Rl1 _] & _ & _ & Ehl).
        apply kwp_bind, kwp_rd; [lia|]. rewrite Ehl.
        eapply kwp_conseq; [eapply (apply_second vn d o IH) with (k := k) (tx := lb) (ty := tr) (m := m); eauto; try lia; try (eapply pv_high; eauto)|].
        intros res k3 (O3 & F3 & (n2 & St3) & (t3 & R3 & S3) & M3). split; auto. split; auto. split; eauto. split; auto. exists t3. split; auto.
        intros b. rewrite S3, S1. cbn [sem]. replace (levels k l) with m by lia. destruct (b m); auto.
      + assert (Hr : 2 <= r) by (apply G; lia). pose proof (pv_ge2 _ _ Pr Hr) as Pr'.
        destruct (Rep_inv _ _ _ _ C Rr Hr) as (ra & rb & -> & Rra & Rrb & _ & Rg & Lra & Lrb & Er').
        apply kwp_bind, kwp_rd; auto.
        apply (apply_first vn d o IH) with (tx := tl) (ty := ra) (m := m); auto; try lia; try (eapply pv_low; eauto).
        intros n1 k1 t1 O1 F1 St1 R1 S1 M1 P1.
        destruct (fr_prot _ _ F1 r Pr') as ([Rr1 _] & _ & _ & Ehr).
        apply kwp_bind, kwp_rd; [lia|]. rewrite Ehr.
        eapply kwp_conseq; [eapply (apply_second vn d o IH) with (k := k) (tx := tl) (ty := rb) (m := m); eauto; try lia; try (eapply pv_high; eauto)|].
        intros res k3 (O3 & F3 & (n2 & St3) & (t3 & R3 & S3) & M3). split; auto. split; auto. split; eauto. split; auto. exists t3. split; auto.
        intros b. rewrite S3, S1. cbn [sem]. replace (levels k r) with m by lia. destruct (b m); auto. }
  intros res k3 (O3 & F3 & (n1 & n2 & St3) & (t3 & R3 & S3) & M3). apply kwp_bind. unfold popref. apply kwp_modify. rewrite St3. cbn [skipn].
  fold (pops k k3). destruct (pop_ok _ _ _ O3 F3) as (O4 & F4). apply (Rep_pops k) in R3. change (m <= lv vn (pops k k3) res) in M3.
  set (k4 := pops k k3) in *. clearbody k4. apply kwp_bind, kwp_modify, kwp_ret.
  split; [|split; [apply frame_apply; auto|split; [exists t3; split; auto; apply Rep_apply; exact R3|exact M3]]].
  apply opinv_apply; auto. intros _. split; [|intros E; cbn in E; destruct (opv_not o); auto]. intros o' E. cbn [e_c] in E. apply opv_inj in E. subst o'. cbn [e_a e_b e_res].
  exists tl, tr, t3. split; [eapply Rep_fr; [apply frame_fr; eauto|exact Pl|exact Rl]|]. split; [eapply Rep_fr; [apply frame_fr; eauto|exact Pr|exact Rr]|].
  split; auto. split; auto. rewrite (frame_lv _ _ _ _ F4 Pl), (frame_lv _ _ _ _ F4 Pr). exact M3.
Qed.
