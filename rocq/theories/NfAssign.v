(** * Proofs about assignments: Evaluate, Restrict, EvaluatesToTrue/False *)
From Coq Require Import String Ascii List Bool ZArith NArith Lia.
From Verif Require Import Spec Factory FactoryProofs FactoryProofs2 FactoryProofs3 FactoryApi FactoryProps Assign NormalForm NfBase.
Import ListNotations.
Local Open Scope N_scope.

(** ** Operations that only use the constructors of the factory *)
Definition pstep (s s' : state) : Prop := good s s' /\ (cnfk s -> cnfk s') /\ samenames s s'.
Lemma pstep_refl s : wf s -> pstep s s.
Proof. intros H. split; [apply good_refl; auto|]. split; auto. apply samenames_refl. Qed.
Lemma pstep_trans a b c : pstep a b -> pstep b c -> pstep a c.
Proof.
  intros (G1 & K1 & N1) (G2 & K2 & N2). split; [eapply good_trans; eauto|]. split; auto. intros x Hx. auto.
Qed.
Lemma pstep_wf s s' : pstep s s' -> wf s'. Proof. intros [[H _] _]; auto. Qed.
Lemma pstep_ext s s' : pstep s s' -> ext s s'. Proof. intros [(_ & H & _) _]; auto. Qed.

Definition rp {A} (m : nat -> M A) (s : state) (Q : A -> state -> Prop) : Prop :=
  exists n0 a s', (forall n, (n0 <= n)%nat -> m n s = Some (a, s')) /\ pstep s s' /\ Q a s'.

Lemma rp_conseq {A} (m : nat -> M A) s Q (R : A -> state -> Prop) : rp m s Q ->
  (forall a s', pstep s s' -> Q a s' -> R a s') -> rp m s R.
Proof. intros (n0 & a & s' & H & I & HQ) HR. exists n0, a, s'. auto 6. Qed.
Lemma rp_ret {A} (a : A) s (Q : A -> state -> Prop) : wf s -> Q a s -> rp (fun _ => ret a) s Q.
Proof. intros I H. exists O, a, s. split; [reflexivity|]. split; auto. apply pstep_refl; auto. Qed.
Lemma rp_bind {A B} (m : nat -> M A) (k : nat -> A -> M B) s Q (R : B -> state -> Prop) : rp m s Q ->
  (forall a s', pstep s s' -> Q a s' -> rp (fun n => k n a) s' R) -> rp (fun n => bind (m n) (k n)) s R.
Proof.
  intros (n0 & a & s' & H & X & HQ) HR. destruct (HR a s' X HQ) as (n1 & b & s2 & H1 & X1 & HR1).
  exists (Nat.max n0 n1), b, s2. split.
  - intros n Hn. unfold bind. rewrite H; [|lia]. apply H1. lia.
  - split; auto. eapply pstep_trans; eauto.
Qed.
Lemma rp_S {A} (m : nat -> M A) s Q : rp (fun n => m (S n)) s Q -> rp m s Q.
Proof.
  intros (n0 & a & s' & H & R). exists (S n0), a, s'. split; auto. intros [|n] Hn; [lia|]. apply H. lia.
Qed.
Lemma rp_ext {A} (m m' : nat -> M A) s Q : (forall n, m n s = m' n s) -> rp m s Q -> rp m' s Q.
Proof. intros E (n0 & a & s' & H & R). exists n0, a, s'. split; auto. intros n Hn. rewrite <- E. auto. Qed.
Lemma rp_get {A B} (g : state -> A) (k : nat -> A -> M B) s R :
  rp (fun n => k n (g s)) s R -> rp (fun n => bind (get g) (k n)) s R.
Proof. intros H. exact H. Qed.
Lemma rp_up {A} (g : state -> A * state) s (Q : A -> state -> Prop) a s' : g s = (a, s') -> pstep s s' -> Q a s' ->
  rp (fun _ => up g) s Q.
Proof. intros H P HQ. exists O, a, s'. split; auto. intros n _. unfold up. rewrite H. auto. Qed.

Lemma rp_wp {A} (m : nat -> M A) s V Q : winv s V -> rp m s Q -> wp m s V (fun a s' V' => V' = V /\ Q a s').
Proof.
  intros I (n0 & a & s' & H & (G & K & N) & HQ).
  destruct (winv_good s V s' I G) as [I' X']; auto.
  - apply K. apply I.
  - exists n0, a, s', V. auto 6.
Qed.

Lemma rp_not f t s : wf s -> Den s f t -> rp (fun _ => up (Not f)) s (fun r s' => exists u, Den s' r u /\ is_neg_of t u).
Proof.
  intros Hw Hd. destruct (Not f s) as [r s'] eqn:H. destruct (Not_spec s f t r s' Hw Hd H) as (G & N & D & _).
  eapply rp_up; eauto. split; auto. split; auto. intros; eapply same3_cnfk; [eapply Not_same3; eauto|auto].
Qed.
Lemma rp_and ops ts s : wf s -> Forall2 (Den s) ops ts ->
  rp (fun _ => up (And ops)) s (fun r s' => exists u, Den s' r u /\ equiv u (TAnd ts) /\ and_shape ts u).
Proof.
  intros Hw Hd. destruct (And ops s) as [r s'] eqn:H. destruct (And_spec s ops ts r s' Hw Hd H) as (G & N & D & _).
  eapply rp_up; eauto. split; auto. split; auto. intros; eapply And_cnfk; eauto.
Qed.
Lemma rp_or ops ts s : wf s -> Forall2 (Den s) ops ts ->
  rp (fun _ => up (Or ops)) s (fun r s' => exists u, Den s' r u /\ equiv u (TOr ts) /\ or_shape ts u).
Proof.
  intros Hw Hd. destruct (Or ops s) as [r s'] eqn:H. destruct (Or_spec s ops ts r s' Hw Hd H) as (G & N & D & _).
  eapply rp_up; eauto. split; auto. split; auto. intros; eapply Or_cnfk; eauto.
Qed.
Lemma rp_impl a b ta tb s : wf s -> Den s a ta -> Den s b tb ->
  rp (fun _ => up (Implication a b)) s (fun r s' => exists u, Den s' r u /\ equiv u (TImpl ta tb) /\ impl_shape ta tb u).
Proof.
  intros Hw Ha Hb. destruct (Implication a b s) as [r s'] eqn:H. destruct (Implication_spec s a b ta tb r s' Hw Ha Hb H) as (G & N & D).
  eapply rp_up; eauto. split; auto. split; auto. intros; eapply same3_cnfk; [eapply Implication_same3; eauto|auto].
Qed.
Lemma rp_equiv a b ta tb s : wf s -> Den s a ta -> Den s b tb ->
  rp (fun _ => up (Equivalence a b)) s (fun r s' => exists u, Den s' r u /\ equiv u (TEquiv ta tb) /\ equiv_shape ta tb u).
Proof.
  intros Hw Ha Hb. destruct (Equivalence a b s) as [r s'] eqn:H. destruct (Equivalence_spec s a b ta tb r s' Hw Ha Hb H) as (G & N & D).
  eapply rp_up; eauto. split; auto. split; auto. intros; eapply same3_cnfk; [eapply Equivalence_same3; eauto|auto].
Qed.
Lemma rp_pbc c rhs ls cs ns s : wf s -> Forall2 (litDen s) ls ns -> length cs = length ls ->
  rp (fun _ => up (PBC c rhs ls cs)) s (fun r s' => Den s' r (pb_tree c rhs ns cs)).
Proof.
  intros Hw Hl Hn. destruct (PBC c rhs ls cs s) as [r s'] eqn:H. destruct (PBC_spec s c rhs ls cs ns r s' Hw Hl Hn H) as (G & N & D).
  eapply rp_up; eauto. split; auto. split; auto. intros; eapply same3_cnfk; [eapply PBC_same3; eauto|auto].
Qed.
Lemma rp_lit n p s : wf s -> names s n -> rp (fun _ => up (Lit n p)) s (fun r s' => litDen s' r (n, p)).
Proof.
  intros Hw Hn. destruct (Lit n p s) as [r s'] eqn:H. destruct (Lit_spec s n p r s' Hw H) as (G & D & N).
  eapply rp_up; eauto. split; auto. split.
  - intros; eapply same3_cnfk; [eapply Lit_same3; eauto|auto].
  - intros x Hx. apply N in Hx. destruct Hx as [Hx| ->]; auto.
Qed.
Lemma rp_negateLit l n p s : wf s -> litDen s l (n, p) ->
  rp (fun _ => up (negateLit l)) s (fun r s' => litDen s' r (n, negb p)).
Proof.
  intros Hw Hl. pose proof Hw as [W T].
  apply (rp_ext (fun _ => up (Lit n (negb p)))).
  - intros _. unfold up, negateLit, LitNamePhase. assert (E : literals s l = Some (n, p)) by (apply node_lit; auto). rewrite E. reflexivity.
  - apply rp_lit; auto. apply (lit_name s l (n, p) Hw Hl).
Qed.

Lemma binOp_impl l r : binOp SImpl l r = up (Implication l r). Proof. reflexivity. Qed.
Lemma binOp_equiv l r : binOp SEquiv l r = up (Equivalence l r). Proof. reflexivity. Qed.
Lemma naryOp_and l : naryOp SAnd l = up (And l). Proof. reflexivity. Qed.
Lemma naryOp_or l : naryOp SOr l = up (Or l). Proof. reflexivity. Qed.

Lemma rp_mapM {A B C} (h : nat -> A -> M B) (P : state -> A -> C -> Prop) (Q : state -> B -> C -> Prop) :
  (forall s s', pstep s s' -> forall a c, P s a c -> P s' a c) ->
  (forall s s', pstep s s' -> forall a c, Q s a c -> Q s' a c) ->
  forall l cs s,
  (forall a c, In a l -> In c cs -> forall s', pstep s s' -> P s' a c -> rp (fun n => h n a) s' (fun b s2 => Q s2 b c)) ->
  wf s -> Forall2 (P s) l cs ->
  rp (fun n => mapM (h n) l) s (fun bs s' => Forall2 (Q s') bs cs).
Proof.
  intros HP HQ l. induction l as [|a l IH]; intros cs s Hh I HF; inversion HF; subst.
  - apply rp_ret; auto.
  - simpl. eapply rp_bind.
    + apply (Hh a y); simpl; auto. apply pstep_refl; auto.
    + intros b s1 X1 Hb. simpl. eapply rp_bind.
      * apply (IH l' s1); auto.
        -- intros a' c' Ha Hc s2 X2 H'. apply Hh; simpl; auto. eapply pstep_trans; eauto.
        -- eapply pstep_wf; eauto.
        -- eapply Forall2_impl; [|eassumption]. intros; eapply HP; eauto.
      * intros bs s2 X2 Hbs. apply rp_ret; [eapply pstep_wf; eauto|]. constructor; auto. eapply HQ; eauto.
Qed.

(** ** Variables of results *)
Lemma occurs_list x ts : (fix go (l : list tree) : Prop := match l with [] => False | t :: r => occurs x t \/ go r end) ts
  <-> exists t, In t ts /\ occurs x t.
Proof.
  induction ts as [|t ts IH]; simpl.
  - split; [tauto|intros (t & [] & _)].
  - rewrite IH. split.
    + intros [H|(u & Hu & H)]; [exists t; auto|exists u; auto].
    + intros (u & [->|Hu] & H); auto. right. exists u; auto.
Qed.
Lemma occurs_and x ts : occurs x (TAnd ts) <-> exists t, In t ts /\ occurs x t. Proof. apply occurs_list. Qed.
Lemma occurs_or x ts : occurs x (TOr ts) <-> exists t, In t ts /\ occurs x t. Proof. apply occurs_list. Qed.
Lemma is_neg_occurs t u x : is_neg_of t u -> (occurs x u <-> occurs x t).
Proof. destruct t; simpl; try (intros ->; simpl; tauto). destruct l; intros ->; simpl; tauto. Qed.
Lemma flatA_occurs x ts u : In u (flatA ts) -> occurs x u -> exists t, In t ts /\ occurs x t.
Proof.
  unfold flatA. intros H Ho. apply in_flat_map in H. destruct H as (t & Ht & H). exists t. split; auto.
  destruct t; simpl in H; try (destruct H as [<-|[]]; auto; fail). apply occurs_and. eauto.
Qed.
Lemma flatO_occurs x ts u : In u (flatO ts) -> occurs x u -> exists t, In t ts /\ occurs x t.
Proof.
  unfold flatO. intros H Ho. apply in_flat_map in H. destruct H as (t & Ht & H). exists t. split; auto.
  destruct t; simpl in H; try (destruct H as [<-|[]]; auto; fail). apply occurs_or. eauto.
Qed.
Lemma and_shape_occurs x ts u : and_shape ts u -> occurs x u -> exists t, In t ts /\ occurs x t.
Proof.
  intros [->|[->|[[H _]|(us & -> & Hi & _)]]] Ho; try (destruct Ho; fail).
  - eapply flatA_occurs; eauto.
  - apply occurs_and in Ho. destruct Ho as (v & Hv & Ho). eapply flatA_occurs; eauto.
Qed.
Lemma or_shape_occurs x ts u : or_shape ts u -> occurs x u -> exists t, In t ts /\ occurs x t.
Proof.
  intros [->|[->|[[H _]|(us & -> & Hi & _)]]] Ho; try (destruct Ho; fail).
  - eapply flatO_occurs; eauto.
  - apply occurs_or in Ho. destruct Ho as (v & Hv & Ho). eapply flatO_occurs; eauto.
Qed.
Lemma impl_shape_occurs x a b u : impl_shape a b u -> occurs x u -> occurs x a \/ occurs x b.
Proof.
  intros [->|[->|[H| ->]]] Ho; simpl in Ho; try tauto. rewrite (is_neg_occurs _ _ x H) in Ho. auto.
Qed.
Lemma equiv_shape_occurs x a b u : equiv_shape a b u -> occurs x u -> occurs x a \/ occurs x b.
Proof.
  intros [->|[->|[->|[->|[H|[H| ->]]]]]] Ho; simpl in Ho; try tauto; rewrite (is_neg_occurs _ _ x H) in Ho; auto.
Qed.
Lemma pb_tree_occurs x c rhs ls cs : occurs x (pb_tree c rhs ls cs) -> exists p, In (x, p) ls.
Proof.
  unfold pb_tree, trivial_pbc. destruct ls as [|l ls]; [destruct (cmp_holds c 0 rhs); intros []|].
  destruct (_ && _); simpl; auto.
Qed.

(** ** Assignments *)
Definition lit_eqb (l k : lit) : bool := String.eqb (fst l) (fst k) && Bool.eqb (snd l) (snd k).
(** the value that a list of literals gives to a variable *)
Definition amap (ns : list lit) (x : string) : option bool :=
  if existsb (lit_eqb (x, true)) ns then Some true
  else if existsb (lit_eqb (x, false)) ns then Some false else None.
Definition over (m : string -> option bool) (b : asg) : asg := fun x => match m x with Some v => v | None => b x end.

Lemma lit_eqb_spec l k : reflect (l = k) (lit_eqb l k).
Proof.
  destruct l as [a p], k as [b q]; unfold lit_eqb; simpl.
  destruct (String.eqb_spec a b), (Bool.eqb_spec p q); simpl; constructor; congruence.
Qed.
Lemma existsb_lit l ns : existsb (lit_eqb l) ns = true <-> In l ns.
Proof.
  rewrite existsb_exists. split.
  - intros (k & Hk & E). destruct (lit_eqb_spec l k); [subst; auto|discriminate].
  - intros H. exists l. split; auto. destruct (lit_eqb_spec l l); congruence.
Qed.

Definition consistent (ns : list lit) : Prop := forall x, ~ (In (x, true) ns /\ In (x, false) ns).

Definition iso (v : option bool) (p : bool) : bool := match v with Some q => Bool.eqb p q | None => false end.

Lemma litpos s l n p : wf s -> litDen s l (n, p) -> isPos l = p.
Proof. intros [W T] H. destruct (w_ok s W _ _ H) as (H1 & _). unfold isPos. auto. Qed.
Lemma negvar s l n : wf s -> litDen s l (n, false) -> exists v, litDen s v (n, true) /\ fid l = negId (fid v).
Proof. intros [W T] H. destruct (w_ok s W _ _ H) as (_ & _ & H1). destruct (H1 eq_refl) as (v & Hv & E). exists v; auto. Qed.
Lemma lit_fid_inj s l k : wf s -> forall a b, litDen s l a -> litDen s k b -> fid l = fid k -> a = b.
Proof.
  intros [W T] a b Ha Hb E. assert (l = k).
  { apply (w_inj s W); auto; unfold known, litDen in *; eauto. }
  subst. unfold litDen in *. rewrite Ha in Hb. inversion Hb. destruct a, b; simpl in *; congruence.
Qed.

Record asnFor (s : state) (a : assignment) (ns : list lit) : Prop := {
  n_pos : forall v x, litDen s v (x, true) -> memN (fid v) (a_pos a) = existsb (lit_eqb (x, true)) ns;
  n_neg : forall v x, litDen s v (x, true) -> memN (negId (fid v)) (a_neg a) = existsb (lit_eqb (x, false)) ns
}.

Lemma memN_cons i j l : memN i (j :: l) = (i =? j) || memN i l. Proof. reflexivity. Qed.
Lemma existsb_ext_app l ns n : existsb (lit_eqb l) (ns ++ [n]) = lit_eqb l n || existsb (lit_eqb l) ns.
Proof. rewrite existsb_app. simpl. rewrite orb_false_r, orb_comm. auto. Qed.

Lemma consistent_app ns x p : consistent ns -> ~ In (x, negb p) ns -> consistent (ns ++ [(x, p)]).
Proof.
  intros C H y [H1 H2]. apply in_app_iff in H1, H2. simpl in *.
  destruct H1 as [H1|[H1|[]]], H2 as [H2|[H2|[]]]; try (inversion H1; inversion H2; subst; discriminate).
  - apply (C y); auto.
  - inversion H2; subst. auto.
  - inversion H1; subst. auto.
Qed.

Lemma addLit_spec s a ns l n p : wf s -> asnFor s a ns -> consistent ns -> litDen s l (n, p) ->
  match addLit a l with
  | Some a' => asnFor s a' (ns ++ [(n, p)]) /\ consistent (ns ++ [(n, p)])
  | None => In (n, negb p) ns
  end.
Proof.
  intros Hw [A1 A2] C Hl. unfold addLit. rewrite (litpos s l n p Hw Hl). destruct p.
  - rewrite (A2 l n Hl). destruct (existsb (lit_eqb (n, false)) ns) eqn:E; [apply existsb_lit; auto|].
    split.
    + constructor; intros v x Hv; simpl a_pos; simpl a_neg; rewrite existsb_ext_app.
      * rewrite memN_cons. f_equal; auto. destruct (N.eqb_spec (fid v) (fid l)) as [Ef|Ef]; destruct (lit_eqb_spec (x, true) (n, true)) as [El|El]; auto.
        -- elim El. eapply lit_fid_inj; eauto.
        -- inversion El; subst. elim Ef. f_equal. destruct Hw as [W T]. apply (w_uniq s W _ _ _ Hv Hl).
      * rewrite (A2 v x Hv). destruct (lit_eqb_spec (x, false) (n, true)); [congruence|auto].
    + apply consistent_app; auto. intros H. apply existsb_lit in H. simpl in H. congruence.
  - destruct (negvar s l n Hw Hl) as (v0 & Hv0 & Ef0). rewrite Ef0, negId_invol, (A1 v0 n Hv0).
    destruct (existsb (lit_eqb (n, true)) ns) eqn:E; [apply existsb_lit; auto|].
    split.
    + constructor; intros v x Hv; simpl a_pos; simpl a_neg; rewrite existsb_ext_app.
      * rewrite (A1 v x Hv). destruct (lit_eqb_spec (x, true) (n, false)); [congruence|auto].
      * rewrite memN_cons. f_equal; auto. destruct (N.eqb_spec (negId (fid v)) (negId (fid v0))) as [Ef|Ef]; destruct (lit_eqb_spec (x, false) (n, false)) as [El|El]; auto.
        -- elim El. apply negId_inj in Ef. assert (H : (x, true) = (n, true)) by (eapply lit_fid_inj; eauto). congruence.
        -- inversion El; subst. elim Ef. do 2 f_equal. destruct Hw as [W T]. apply (w_uniq s W _ _ _ Hv Hv0).
    + apply consistent_app; auto. intros H. apply existsb_lit in H. simpl in H. congruence.
Qed.

Lemma addLits_spec s : wf s -> forall ls ks a ns, asnFor s a ns -> consistent ns -> Forall2 (litDen s) ls ks ->
  match addLits a ls with
  | Some a' => asnFor s a' (ns ++ ks) /\ consistent (ns ++ ks)
  | None => ~ consistent (ns ++ ks)
  end.
Proof.
  intros Hw. induction ls as [|l ls IH]; intros ks a ns A C H; inversion H; subst; simpl.
  - rewrite app_nil_r. auto.
  - destruct y as [n p]. pose proof (addLit_spec s a ns l n p Hw A C H2) as HA. destruct (addLit a l) as [a'|].
    + destruct HA as [A' C']. specialize (IH l' a' (ns ++ [(n, p)]) A' C' H4). rewrite <- app_assoc in IH. exact IH.
    + intros C'. apply (C' n). destruct p; simpl in *; split; apply in_app_iff; simpl; auto.
Qed.
Lemma asnFor_empty s : asnFor s emptyAssignment [].
Proof. constructor; reflexivity. Qed.
Lemma newAssignment_spec s ls ns : wf s -> Forall2 (litDen s) ls ns ->
  match newAssignment ls with
  | Some a => asnFor s a ns /\ consistent ns
  | None => ~ consistent ns
  end.
Proof.
  intros Hw H. apply (addLits_spec s Hw ls ns emptyAssignment []); auto.
  - apply asnFor_empty.
  - intros x [[] _].
Qed.

(** [asnIs s a ns]: the assignment was created from literals of the factory *)
Definition asnIs (s : state) (a : assignment) (ns : list lit) : Prop :=
  exists ls, newAssignment ls = Some a /\ Forall2 (litDen s) ls ns.
Lemma asnIs_ext s s' a ns : ext s s' -> asnIs s a ns -> asnIs s' a ns.
Proof. intros E (ls & H & HF). exists ls. split; auto. eapply litDen_ext; eauto. Qed.
Lemma asnIs_for s a ns : wf s -> asnIs s a ns -> asnFor s a ns /\ consistent ns.
Proof. intros Hw (ls & H & HF). pose proof (newAssignment_spec s ls ns Hw HF) as HS. rewrite H in HS. auto. Qed.

Lemma amap_inv ns : consistent ns -> forall x p, existsb (lit_eqb (x, p)) ns = iso (amap ns x) p.
Proof.
  intros C x p. unfold amap. destruct (existsb (lit_eqb (x, true)) ns) eqn:E1, (existsb (lit_eqb (x, false)) ns) eqn:E2; destruct p; simpl; auto.
  apply existsb_lit in E1, E2. elim (C x); auto.
Qed.

(** ** Evaluate *)
(** variables that are not assigned are false *)
Definition closed (ns : list lit) : asg := fun x => existsb (lit_eqb (x, true)) ns.

Lemma evaluateLiteral_ok s a ns l np : wf s -> asnIs s a ns -> litDen s l np -> evaluateLiteral a l = eval_lit (closed ns) np.
Proof.
  intros Hw Ha Hl. destruct (asnIs_for s a ns Hw Ha) as [[A1 A2] C]. destruct np as [n p].
  unfold evaluateLiteral, eval_lit, closed. rewrite (litpos _ _ _ _ Hw Hl). simpl. destruct p.
  - apply A1; auto.
  - unfold evaluateNegativeLiteral. destruct (negvar s l n Hw Hl) as (v & Hv & ->). rewrite negId_invol, (A1 v n Hv), (A2 v n Hv).
    destruct (existsb (lit_eqb (n, false)) ns) eqn:E1, (existsb (lit_eqb (n, true)) ns) eqn:E2; simpl; auto.
    apply existsb_lit in E1, E2. elim (C n); auto.
Qed.
Lemma evaluateLhs_ok s a ns : wf s -> asnIs s a ns -> forall ls ks cs, Forall2 (litDen s) ls ks ->
  evaluateLhs a ls cs = wsum (closed ns) ks cs.
Proof.
  intros Hw Ha ls ks cs H. unfold evaluateLhs.
  assert (G : forall z, fold_left (fun acc q => if evaluateLiteral a (fst q) then (acc + snd q)%Z else acc) (combine ls cs) z
     = (z + wsum (closed ns) ks cs)%Z).
  { revert cs. induction H; intros [|c cs] z; simpl; try lia. rewrite IHForall2.
    rewrite (evaluateLiteral_ok s a ns x y); auto. destruct (eval_lit (closed ns) y); lia. }
  rewrite G. lia.
Qed.
Lemma evaluateComparator_ok c l r : evaluateComparator l r c = cmp_holds c l r.
Proof. destruct c; simpl; auto; [rewrite Z.geb_leb|rewrite Z.gtb_ltb]; auto. Qed.

Lemma evaluate_ok s a ns : wf s -> asnIs s a ns -> forall t f, Den s f t ->
  exists n0, forall n, (n0 <= n)%nat -> evaluate n s a f = Some (eval (closed ns) t).
Proof.
  intros Hw Ha. induction t using tree_ind'; intros f Hd; pose proof (Den_sort _ _ _ Hd) as Hs.
  - exists 1%nat. intros [|n] Hn; [lia|]. simpl. rewrite Hs. auto.
  - exists 1%nat. intros [|n] Hn; [lia|]. simpl. rewrite Hs. auto.
  - exists 1%nat. intros [|n] Hn; [lia|]. simpl. rewrite Hs. f_equal. eapply evaluateLiteral_ok; eauto. apply Den_litt_inv; auto.
  - destruct (IHt (opNot f s)) as [n0 Hn0]; [apply opNot_den; auto|].
    exists (S n0). intros [|n] Hn; [lia|]. simpl. rewrite Hs, Hn0; [auto|lia].
  - pose proof (opNary_and s f ts Hw Hd) as Hops.
    assert (G : exists n0, forall n, (n0 <= n)%nat ->
       (fix go l := match l with [] => Some true | op :: r => match evaluate n s a op with Some true => go r | x => x end end) (opNary f s)
       = Some (forallb (eval (closed ns)) ts)).
    { clear Hs Hd. induction Hops as [|op t ops ts Hd Hops IH]; [exists O; auto|]. inversion H; subst.
      destruct (IH H3) as [n1 Hn1]. destruct (H2 op Hd) as [n2 Hn2]. exists (Nat.max n1 n2). intros n Hn. rewrite Hn2; [|lia]. simpl.
      destruct (eval (closed ns) t); simpl; auto. apply Hn1. lia. }
    destruct G as [n0 Hn0]. exists (S n0). intros [|n] Hn; [lia|]. cbn [evaluate]. rewrite Hs. simpl eval. apply Hn0. lia.
  - pose proof (opNary_or s f ts Hw Hd) as Hops.
    assert (G : exists n0, forall n, (n0 <= n)%nat ->
       (fix go l := match l with [] => Some false | op :: r => match evaluate n s a op with Some false => go r | x => x end end) (opNary f s)
       = Some (existsb (eval (closed ns)) ts)).
    { clear Hs Hd. induction Hops as [|op t ops ts Hd Hops IH]; [exists O; auto|]. inversion H; subst.
      destruct (IH H3) as [n1 Hn1]. destruct (H2 op Hd) as [n2 Hn2]. exists (Nat.max n1 n2). intros n Hn. rewrite Hn2; [|lia]. simpl.
      destruct (eval (closed ns) t); simpl; auto. apply Hn1. lia. }
    destruct G as [n0 Hn0]. exists (S n0). intros [|n] Hn; [lia|]. cbn [evaluate]. rewrite Hs. simpl eval. apply Hn0. lia.
  - destruct (opBin_impl s f t1 t2 Hw Hd) as [H1 H2]. destruct (IHt1 _ H1) as [n1 Hn1]. destruct (IHt2 _ H2) as [n2 Hn2].
    exists (S (Nat.max n1 n2)). intros [|n] Hn; [lia|]. simpl. rewrite Hs. destruct (opBin f s) as [l r] eqn:Eo. simpl in *.
    rewrite Hn1, Hn2; try lia. destruct (eval (closed ns) t1); auto.
  - destruct (opBin_equiv s f t1 t2 Hw Hd) as [H1 H2]. destruct (IHt1 _ H1) as [n1 Hn1]. destruct (IHt2 _ H2) as [n2 Hn2].
    exists (S (Nat.max n1 n2)). intros [|n] Hn; [lia|]. simpl. rewrite Hs. destruct (opBin f s) as [l r] eqn:Eo. simpl in *.
    rewrite Hn1, Hn2; try lia. auto.
  - destruct (opPbc_den s f k c r ls cs Hw Hd) as (Hl & Hcs & Hr & Hc & _).
    exists 1%nat. intros [|n] Hn; [lia|]. simpl.
    assert (E : evaluateComparator (evaluateLhs a (p_lits (opPbc f s)) (p_coeffs (opPbc f s))) (p_rhs (opPbc f s)) (p_cmp (opPbc f s)) =
       cmp_holds c (wsum (closed ns) ls cs) r).
    { rewrite (evaluateLhs_ok s a ns Hw Ha _ _ _ Hl), evaluateComparator_ok. congruence. }
    rewrite E, Hs. destruct k; auto.
Qed.

(** ** Restrict *)
Lemma restrictLit_ok s a ns l n p : wf s -> asnIs s a ns -> litDen s l (n, p) ->
  restrictLit a l = match amap ns n with Some v => Constant (Bool.eqb p v) | None => l end.
Proof.
  intros Hw Ha Hl. destruct (asnIs_for s a ns Hw Ha) as [[A1 A2] C].
  unfold restrictLit. rewrite (litpos _ _ _ _ Hw Hl). destruct p.
  - unfold restrictVariable. rewrite (A1 l n Hl), (A2 l n Hl), !(amap_inv ns C). destruct (amap ns n) as [[|]|]; auto.
  - unfold restrictNegativeLiteral. destruct (negvar s l n Hw Hl) as (v & Hv & ->). rewrite negId_invol, (A1 v n Hv), (A2 v n Hv), !(amap_inv ns C).
    destruct (amap ns n) as [[|]|]; auto.
Qed.

Definition restricted (m : string -> option bool) (t u : tree) : Prop :=
  (forall b, eval b u = eval (over m b) t) /\ forall x, occurs x u -> occurs x t /\ m x = None.

Lemma restrictLoop_ok s a ns : wf s -> asnIs s a ns -> forall ls ks cs, Forall2 (litDen s) ls ks -> length cs = length ls ->
  let '(ls', cs', fixed, mn, mx) := restrictLoop a (combine ls cs) in
  exists ks', Forall2 (litDen s) ls' ks' /\ length cs' = length ls' /\
    (forall x p, In (x, p) ks' -> In (x, p) ks /\ amap ns x = None) /\
    forall b, wsum (over (amap ns) b) ks cs = (wsum b ks' cs' + fixed)%Z /\ (mn <= wsum b ks' cs' <= mx)%Z.
Proof.
  intros Hw Ha ls ks cs H. revert cs. induction H as [|l [n p] ls ks Hl HF IH]; intros [|c cs] Hn; try discriminate; simpl.
  - exists []. repeat split; auto; try (intros; lia); simpl; try lia; contradiction.
  - specialize (IH cs). destruct (restrictLoop a (combine ls cs)) as [[[[ls' cs'] fx] mn] mx].
    destruct IH as (ks' & H1 & H2 & H3 & H4); [simpl in Hn; lia|].
    rewrite (restrictLit_ok s a ns l n p Hw Ha Hl).
    assert (EL : forall b, eval_lit (over (amap ns) b) (n, p) = match amap ns n with Some v => Bool.eqb p v | None => eval_lit b (n, p) end).
    { intros b. unfold eval_lit, over; simpl. destruct (amap ns n) as [v|]; auto. destruct p, v; auto. }
    destruct (amap ns n) as [v|] eqn:Em.
    + destruct (Bool.eqb p v) eqn:Ev; simpl.
      * exists ks'. split; auto. split; auto. split; [intros x q Hq; apply H3 in Hq; tauto|]. intros b. destruct (H4 b). rewrite EL. lia.
      * exists ks'. split; auto. split; auto. split; [intros x q Hq; apply H3 in Hq; tauto|]. intros b. destruct (H4 b). rewrite EL. lia.
    + assert (Hsl : srt l = SLit) by apply (node_sort _ _ _ Hl). rewrite Hsl.
      exists ((n, p) :: ks'). split; [constructor; auto|]. split; [simpl; lia|]. split.
      * intros x q [Hq|Hq]; [inversion Hq; subst; auto|]. apply H3 in Hq. tauto.
      * intros b. destruct (H4 b). rewrite EL. simpl. destruct (0 <? c)%Z eqn:Ec; [apply Z.ltb_lt in Ec|apply Z.ltb_ge in Ec]; destruct (eval_lit b (n, p)); lia.
Qed.

Lemma evaluateCoeffs_ok mn mx rhs c v w : c <> EQ -> evaluateCoeffs mn mx rhs c = Some v -> (mn <= w <= mx)%Z -> cmp_holds c w rhs = v.
Proof.
  intros Hne H Hw. unfold evaluateCoeffs in H.
  destruct (Z.leb_spec mn rhs), (Z.ltb_spec mn rhs), (Z.leb_spec mx rhs), (Z.ltb_spec mx rhs); try lia;
  destruct c; simpl in H; try congruence; inversion H; subst; simpl;
  (apply Z.leb_le || apply Z.leb_gt || apply Z.ltb_lt || apply Z.ltb_ge); lia.
Qed.

Lemma restrictPbc_ok s a ns k c r ls cs f : wf s -> asnIs s a ns -> Den s f (TPBC k c r ls cs) ->
  rp (fun _ => restrictPbc (opPbc f s) a) s (fun g s' => exists u, Den s' g u /\ restricted (amap ns) (TPBC k c r ls cs) u).
Proof.
  intros Hw Ha Hd. destruct (opPbc_den s f k c r ls cs Hw Hd) as (Hl & Hcs & Hr & Hc & Hlen & Hne & _).
  unfold restrictPbc. rewrite Hcs, Hr, Hc.
  assert (Hlen' : length cs = length (p_lits (opPbc f s))) by (rewrite Hlen; symmetry; eapply Forall2_length; eauto).
  pose proof (restrictLoop_ok s a ns Hw Ha _ _ cs Hl Hlen') as HL.
  destruct (restrictLoop a _) as [[[[ls' cs'] fx] mn] mx]. destruct HL as (ks' & H1 & H2 & H3 & H4).
  assert (C : forall v, Den s (Constant v) (if v then TTrue else TFalse)) by (intros v; destruct v; [apply Den_true|apply Den_false]).
  destruct ls' as [|l0 ls'].
  - inversion H1; subst. apply rp_ret; auto. eexists. split; [apply C|].
    split.
    + intros b. destruct (H4 b) as [E _]. simpl in *. destruct cs'; [|discriminate]. rewrite evaluateComparator_ok. rewrite E. simpl.
      destruct (cmp_holds (p_cmp (opPbc f s)) fx (p_rhs (opPbc f s))); auto.
    + intros x Hx. destruct (evaluateComparator _ _ _); destruct Hx.
  - destruct (if cmp_eqb c EQ then None else evaluateCoeffs mn mx (r - fx) c) as [v|] eqn:Ev.
    + apply rp_ret; auto. eexists. split; [apply C|]. split; [|intros x Hx; destruct v; destruct Hx].
      intros b. destruct (H4 b) as [E Hb]. simpl. rewrite E.
      assert (G : cmp_holds c (wsum b ks' cs' + fx) r = v).
      { destruct (cmp_eqb c EQ) eqn:Ec; [discriminate|]. rewrite <- (evaluateCoeffs_ok mn mx (r - fx) c v (wsum b ks' cs')); auto.
        - clear. generalize (wsum b ks' cs'). intros w.
          destruct c; simpl; [destruct (Z.eqb_spec (w + fx) r), (Z.eqb_spec w (r - fx))
             |destruct (Z.leb_spec (w + fx) r), (Z.leb_spec w (r - fx))
             |destruct (Z.ltb_spec (w + fx) r), (Z.ltb_spec w (r - fx))
             |destruct (Z.leb_spec r (w + fx)), (Z.leb_spec (r - fx) w)
             |destruct (Z.ltb_spec r (w + fx)), (Z.ltb_spec (r - fx) w)]; auto; lia.
        - destruct c; discriminate. }
      rewrite G. destruct v; auto.
    + eapply rp_conseq; [apply rp_pbc; eauto|]. intros g s' P Hg. eexists. split; [exact Hg|]. split.
      * intros b. rewrite pb_tree_equiv. simpl. destruct (H4 b) as [E _]. rewrite E. generalize (wsum b ks' cs'). intros w. clear.
        destruct c; simpl; [destruct (Z.eqb_spec (w + fx) r), (Z.eqb_spec w (r - fx))
             |destruct (Z.leb_spec (w + fx) r), (Z.leb_spec w (r - fx))
             |destruct (Z.ltb_spec (w + fx) r), (Z.ltb_spec w (r - fx))
             |destruct (Z.leb_spec r (w + fx)), (Z.leb_spec (r - fx) w)
             |destruct (Z.ltb_spec r (w + fx)), (Z.ltb_spec (r - fx) w)]; auto; lia.
      * intros x Hx. apply pb_tree_occurs in Hx. destruct Hx as [q Hq]. apply H3 in Hq. destruct Hq as [Hq Hm]. split; auto. simpl. eauto.
Qed.

Lemma restricted_const m v t : (forall b, eval (over m b) t = v) -> restricted m t (if v then TTrue else TFalse).
Proof. intros H. split; [intros b; rewrite H; destruct v; auto|intros x Hx; destruct v; destruct Hx]. Qed.

Lemma restrict_ok a ns : forall t s f, wf s -> asnIs s a ns -> Den s f t ->
  rp (fun n => restrict n a f) s (fun g s' => exists u, Den s' g u /\ restricted (amap ns) t u).
Proof.
  induction t using tree_ind'; intros s f Hw Ha Hd; pose proof (Den_sort _ _ _ Hd) as Hs; apply rp_S; cbn [restrict]; rewrite Hs.
  - apply rp_ret; auto. exists TFalse. split; auto. split; auto. intros x [].
  - apply rp_ret; auto. exists TTrue. split; auto. split; auto. intros x [].
  - destruct l as [n p]. pose proof (Den_litt_inv _ _ _ Hd) as Hl. apply rp_ret; auto. rewrite (restrictLit_ok s a ns f n p Hw Ha Hl).
    destruct (amap ns n) as [v|] eqn:Em.
    + exists (if Bool.eqb p v then TTrue else TFalse). split; [destruct (Bool.eqb p v); [apply Den_true|apply Den_false]|].
      apply restricted_const. intros b. simpl. unfold eval_lit, over; simpl. rewrite Em. destruct p, v; auto.
    + exists (TLit (n, p)). split; auto. split.
      * intros b. simpl. unfold eval_lit, over; simpl. rewrite Em. auto.
      * intros x Hx. simpl in *. subst. auto.
  - apply rp_get. eapply rp_bind; [apply IHt; eauto; apply opNot_den; auto|]. intros g s1 P1 (u & Hg & Hu & Ho).
    eapply rp_conseq; [apply (rp_not g u); [eapply pstep_wf; eauto|auto]|]. intros r s2 P2 (w & Hr & Hn). exists w. split; auto. split.
    + intros b. rewrite (is_neg_of_eval _ _ b Hn). simpl. rewrite Hu. auto.
    + intros x Hx. rewrite (is_neg_occurs _ _ x Hn) in Hx. apply Ho in Hx. auto.
  - apply rp_get. eapply rp_bind.
    + apply (rp_mapM (fun n => restrict n a) (fun s f t => Den s f t /\ asnIs s a ns) (fun s g t => exists u, Den s g u /\ restricted (amap ns) t u))
        with (cs := ts).
      * intros s1 s2 P a0 c (H1 & H2). apply pstep_ext in P. split; eauto using ext_Den, asnIs_ext.
      * intros s1 s2 P a0 c (u & H1 & H2). apply pstep_ext in P. exists u. split; eauto using ext_Den.
      * intros a0 c Hin Hc s1 P (H1 & H2). rewrite Forall_forall in H. apply H; auto. eapply pstep_wf; eauto.
      * auto.
      * eapply Forall2_impl; [|apply (opNary_and s f ts Hw Hd)]. simpl. auto.
    + simpl. intros nops s1 P1 Hn.
      assert (Hus : exists us, Forall2 (Den s1) nops us /\ Forall2 (fun t u => restricted (amap ns) t u) ts us).
      { clear -Hn. induction Hn; [exists []; auto|]. destruct IHHn as (us & ? & ?). destruct H as (u & ? & ?). exists (u :: us). split; constructor; auto. }
      destruct Hus as (us & Hus & Hr).
      rewrite naryOp_and. eapply rp_conseq; [apply (rp_and nops us); [eapply pstep_wf; eauto|auto]|]. intros r s2 P2 (w & Hw2 & Heq & Hsh).
      exists w. split; auto. split.
      * intros b. rewrite Heq. simpl. clear -Hr. induction Hr; simpl; auto. rewrite IHHr. f_equal. apply H.
      * intros x Hx. apply (and_shape_occurs x us w) in Hx; auto. destruct Hx as (u & Hu & Hx).
        destruct (Forall2_in_r _ _ _ _ Hr Hu) as (t & Ht & Hrt). destruct (proj2 Hrt x Hx) as [Ho Hm]. split; auto. apply occurs_and. eauto.
  - apply rp_get. eapply rp_bind.
    + apply (rp_mapM (fun n => restrict n a) (fun s f t => Den s f t /\ asnIs s a ns) (fun s g t => exists u, Den s g u /\ restricted (amap ns) t u))
        with (cs := ts).
      * intros s1 s2 P a0 c (H1 & H2). apply pstep_ext in P. split; eauto using ext_Den, asnIs_ext.
      * intros s1 s2 P a0 c (u & H1 & H2). apply pstep_ext in P. exists u. split; eauto using ext_Den.
      * intros a0 c Hin Hc s1 P (H1 & H2). rewrite Forall_forall in H. apply H; auto. eapply pstep_wf; eauto.
      * auto.
      * eapply Forall2_impl; [|apply (opNary_or s f ts Hw Hd)]. simpl. auto.
    + simpl. intros nops s1 P1 Hn.
      assert (Hus : exists us, Forall2 (Den s1) nops us /\ Forall2 (fun t u => restricted (amap ns) t u) ts us).
      { clear -Hn. induction Hn; [exists []; auto|]. destruct IHHn as (us & ? & ?). destruct H as (u & ? & ?). exists (u :: us). split; constructor; auto. }
      destruct Hus as (us & Hus & Hr).
      rewrite naryOp_or. eapply rp_conseq; [apply (rp_or nops us); [eapply pstep_wf; eauto|auto]|]. intros r s2 P2 (w & Hw2 & Heq & Hsh).
      exists w. split; auto. split.
      * intros b. rewrite Heq. simpl. clear -Hr. induction Hr; simpl; auto. rewrite IHHr. f_equal. apply H.
      * intros x Hx. apply (or_shape_occurs x us w) in Hx; auto. destruct Hx as (u & Hu & Hx).
        destruct (Forall2_in_r _ _ _ _ Hr Hu) as (t & Ht & Hrt). destruct (proj2 Hrt x Hx) as [Ho Hm]. split; auto. apply occurs_or. eauto.
  - apply rp_get. destruct (opBin_impl s f t1 t2 Hw Hd) as [D1 D2].
    eapply rp_bind; [apply IHt1; eauto|]. intros l s1 P1 (u1 & Hl & Hu1 & Ho1).
    eapply rp_bind; [apply IHt2; [eapply pstep_wf; eauto|eapply asnIs_ext; eauto using pstep_ext|eauto using ext_Den, pstep_ext]|].
    intros r s2 P2 (u2 & Hr & Hu2 & Ho2).
    rewrite binOp_impl. eapply rp_conseq; [apply (rp_impl l r u1 u2); [eapply pstep_wf; eauto|eauto using ext_Den, pstep_ext|auto]|].
    intros g s3 P3 (w & Hg & Heq & Hsh). exists w. split; auto. split.
    + intros b. rewrite Heq. simpl. rewrite Hu1, Hu2. auto.
    + intros x Hx. apply (impl_shape_occurs x u1 u2 w Hsh) in Hx. simpl. destruct Hx as [Hx|Hx]; [apply Ho1 in Hx|apply Ho2 in Hx]; tauto.
  - apply rp_get. destruct (opBin_equiv s f t1 t2 Hw Hd) as [D1 D2].
    eapply rp_bind; [apply IHt1; eauto|]. intros l s1 P1 (u1 & Hl & Hu1 & Ho1).
    eapply rp_bind; [apply IHt2; [eapply pstep_wf; eauto|eapply asnIs_ext; eauto using pstep_ext|eauto using ext_Den, pstep_ext]|].
    intros r s2 P2 (u2 & Hr & Hu2 & Ho2).
    rewrite binOp_equiv. eapply rp_conseq; [apply (rp_equiv l r u1 u2); [eapply pstep_wf; eauto|eauto using ext_Den, pstep_ext|auto]|].
    intros g s3 P3 (w & Hg & Heq & Hsh). exists w. split; auto. split.
    + intros b. rewrite Heq. simpl. rewrite Hu1, Hu2. auto.
    + intros x Hx. apply (equiv_shape_occurs x u1 u2 w Hsh) in Hx. simpl. destruct Hx as [Hx|Hx]; [apply Ho1 in Hx|apply Ho2 in Hx]; tauto.
  - assert (G : rp (fun n => bind (get (opPbc f)) (fun p => restrictPbc p a)) s (fun g s' => exists u, Den s' g u /\ restricted (amap ns) (TPBC k c r ls cs) u)).
    { apply rp_get. apply restrictPbc_ok; auto. }
    destruct k; exact G.
Qed.

(** ** EvaluatesToTrue / EvaluatesToFalse *)
Definition K (v : bool) : tree := if v then TTrue else TFalse.
Lemma Den_Constant s v : Den s (Constant v) (K v).
Proof. destruct v; [apply Den_true|apply Den_false]. Qed.
Lemma Den_K s f v : wf s -> Den s f (K v) -> f = Constant v.
Proof. intros Hw H. apply (Den_inj s Hw (K v)); auto. apply Den_Constant. Qed.

(** every formula of a factory is a constant or mentions a variable *)
Lemma feqb_neq a b : feqb a b = false -> a <> b.
Proof. destruct (feqb_spec a b); congruence. Qed.
Lemma constant_or_variable s t : wf s -> forall f, Den s f t -> (exists v, t = K v) \/ exists x, occurs x t.
Proof.
  intros Hw. pose proof Hw as [W T].
  assert (HK : forall g v, Den s g (K v) -> (g = ffalse \/ g = ftrue)).
  { intros g v Hg. apply Den_K in Hg; auto. destruct v; subst; auto. }
  induction t using tree_ind'; intros f Hd.
  - left. exists false; auto.
  - left. exists true; auto.
  - right. exists (fst l). simpl. auto.
  - apply Den_not_inv in Hd. destruct Hd as (g & Hn & Hg). destruct (w_ok s W _ _ Hn) as (_ & Hng & _).
    destruct (IHt g Hg) as [[v ->]|[x Hx]]; [|right; exists x; auto].
    destruct (HK _ _ Hg) as [->| ->]; discriminate.
  - apply Den_and_inv in Hd. destruct Hd as (l & Hn & Hl). destruct (w_ok s W _ _ Hn) as (_ & Hlen & Hi).
    destruct l as [|g l]; [simpl in Hlen; lia|]. inversion Hl as [|? t0 ? ? H2 H3]; subst. inversion H as [|? ? H4 H5]; subst. inversion Hi; subst.
    destruct (H4 g H2) as [[v ->]|[x Hx]]; [|right; exists x; simpl; auto].
    destruct (HK _ _ H2) as [->| ->]; discriminate.
  - apply Den_or_inv in Hd. destruct Hd as (l & Hn & Hl). destruct (w_ok s W _ _ Hn) as (_ & Hlen & Hi).
    destruct l as [|g l]; [simpl in Hlen; lia|]. inversion Hl as [|? t0 ? ? H2 H3]; subst. inversion H as [|? ? H4 H5]; subst. inversion Hi; subst.
    destruct (H4 g H2) as [[v ->]|[x Hx]]; [|right; exists x; simpl; auto].
    destruct (HK _ _ H2) as [->| ->]; discriminate.
  - apply Den_impl_inv in Hd. destruct Hd as (a & b & Hn & Ha & Hb). destruct (w_ok s W _ _ Hn) as (_ & Hi).
    destruct (IHt1 a Ha) as [[v ->]|[x Hx]]; [|right; exists x; simpl; auto].
    destruct (HK _ _ Ha) as [->| ->]; unfold implTriv in Hi; simpl in Hi; try rewrite !orb_true_r in Hi; discriminate.
  - apply Den_equiv_inv in Hd. destruct Hd as (a & b & Hn & Ha & Hb). destruct (w_ok s W _ _ Hn) as (_ & Hi).
    destruct (IHt1 a Ha) as [[v ->]|[x Hx]]; [|right; exists x; simpl; auto].
    destruct (HK _ _ Ha) as [->| ->]; unfold equivTriv in Hi; simpl in Hi; try rewrite !orb_true_r in Hi; discriminate.
  - destruct (opPbc_den s f k c r ls cs Hw Hd) as (_ & _ & _ & _ & _ & Hne & _). right. destruct ls as [|[x p] ls]; [congruence|].
    exists x. simpl. exists p; auto.
Qed.

Lemma isConstant_den s f t : Den s f t -> isConstant f = match t with TTrue | TFalse => true | _ => false end.
Proof. intros H. unfold isConstant. rewrite (Den_sort _ _ _ H). destruct t; auto. destruct cc; auto. Qed.
Lemma isVerum_den s f t : Den s f t -> isVerum f = match t with TTrue => true | _ => false end.
Proof. intros H. unfold isVerum. rewrite (Den_sort _ _ _ H). destruct t; auto. destruct cc; auto. Qed.
Lemma isFalsum_den s f t : Den s f t -> isFalsum f = match t with TFalse => true | _ => false end.
Proof. intros H. unfold isFalsum. rewrite (Den_sort _ _ _ H). destruct t; auto. destruct cc; auto. Qed.
Lemma isConstant_K s f t : Den s f t -> isConstant f = true -> exists v, t = K v /\ isVerum f = v /\ isFalsum f = negb v.
Proof.
  intros H. rewrite (isConstant_den _ _ _ H), (isVerum_den _ _ _ H), (isFalsum_den _ _ _ H).
  destruct t; try discriminate; intros _; [exists false|exists true]; auto.
Qed.

Record mapIs (s : state) (m : mapping) (ns : list lit) : Prop := {
  mi_den : Forall2 (fun e np => litDen s (fst e) (fst np, true) /\ snd e = snd np) m ns;
  mi_dup : NoDup (map fst ns)
}.
Lemma mapIs_ext s s' m ns : ext s s' -> mapIs s m ns -> mapIs s' m ns.
Proof. intros E [H D]. constructor; auto. eapply Forall2_impl; [|exact H]. simpl. intros a b [H1 H2]. split; auto. apply E; auto. Qed.

Lemma amap_nodup ns : NoDup (map fst ns) -> forall x v, amap ns x = Some v <-> In (x, v) ns.
Proof.
  intros D x v. assert (C : forall v w, In (x, v) ns -> In (x, w) ns -> v = w).
  { clear v. induction ns as [|[y q] ns IH]; intros v w; [intros []|]. simpl in D. inversion D; subst. simpl.
    intros [H|H] [H'|H'].
    - congruence.
    - inversion H; subst. elim H1. apply in_map_iff. exists (x, w); auto.
    - inversion H'; subst. elim H1. apply in_map_iff. exists (x, v); auto.
    - eauto. }
  unfold amap. destruct (existsb (lit_eqb (x, true)) ns) eqn:E1; [|destruct (existsb (lit_eqb (x, false)) ns) eqn:E2].
  - apply existsb_lit in E1. split; intros H; [inversion H; subst; auto|f_equal; eapply C; eauto].
  - apply existsb_lit in E2. split; intros H; [inversion H; subst; auto|f_equal; eapply C; eauto].
  - split; [discriminate|]. intros H. apply existsb_lit in H. destruct v; congruence.
Qed.

Lemma lookupMap_ok s m ns v x : wf s -> mapIs s m ns -> litDen s v (x, true) -> lookupMap m v = amap ns x.
Proof.
  intros Hw [H D] Hv. pose proof Hw as [W T].
  assert (G : forall w, amap ns x = Some w <-> In (x, w) ns) by (apply amap_nodup; auto).
  assert (G2 : lookupMap m v = match find (fun np => String.eqb (fst np) x) ns with Some np => Some (snd np) | None => None end).
  { clear D G. unfold lookupMap. induction H as [|[k q] [y w] m ns [H1 H2] HF IH]; auto. cbn [find fst snd] in *. subst.
    destruct (feqb_spec k v), (String.eqb_spec y x); auto.
    - subst. elim n. unfold litDen in *. simpl in *. rewrite H1 in Hv. inversion Hv; auto.
    - subst. elim n. apply (w_uniq s W _ _ _ H1 Hv). }
  rewrite G2. clear G2. change (string * bool)%type with lit. destruct (find (fun np : lit => String.eqb (fst np) x) ns) as [[y w]|] eqn:Ef.
  - apply find_some in Ef. simpl in Ef. destruct Ef as [Hi He]. apply String.eqb_eq in He. subst. simpl. symmetry. apply G. auto.
  - destruct (amap ns x) as [w|] eqn:Em; auto. pose proof (proj1 (G w) eq_refl) as Hi. apply (find_none _ _ Ef) in Hi. rename Hi into Em'. simpl in Em'. rewrite String.eqb_refl in Em'. discriminate.
Qed.

Lemma litVariable_den s l n p : wf s -> litDen s l (n, p) -> litDen s (litVariable l) (n, true).
Proof.
  intros Hw H. unfold litVariable. rewrite (litpos _ _ _ _ Hw H). destruct p; auto.
  destruct (negvar s l n Hw H) as (v & Hv & E). rewrite E, negId_invol.
  assert (Hs : srt v = SLit) by apply (node_sort _ _ _ Hv). destruct v as [sv iv]. simpl in Hs. subst sv. exact Hv.
Qed.

Definition constSpec (e top : bool) (m : string -> option bool) (t u : tree) : Prop :=
  if top then (u = K e -> forall b, eval (over m b) t = e) /\
              ((forall x, occurs x t -> m x <> None) -> forall b, u = K (eval (over m b) t))
  else restricted m t u.

Lemma K_inj v w : K v = K w -> v = w. Proof. destruct v, w; simpl; congruence. Qed.
Lemma eval_K b v : eval b (K v) = v. Proof. destruct v; auto. Qed.
Lemma exact_const s f e top m t u : wf s -> Den s f u -> restricted m t u -> constSpec e top m t u.
Proof.
  intros Hw Hd [H1 H2]. destruct top; simpl; [|split; auto]. split.
  - intros -> b. rewrite <- H1. apply eval_K.
  - intros HT b. destruct (constant_or_variable s u Hw f Hd) as [[v ->]|[x Hx]].
    + f_equal. rewrite <- H1. rewrite eval_K. auto.
    + destruct (H2 x Hx) as [Ho Hm]. elim (HT x Ho); auto.
Qed.

Lemma mappingAssignment_ok : forall m ns s a ks, wf s -> mapIs s m ns -> asnIs s a ks ->
  (forall x, In x (map fst ks) -> ~ In x (map fst ns)) ->
  rp (fun _ => mappingAssignment m a) s (fun a' s' => asnIs s' a' (ks ++ ns)).
Proof.
  induction m as [|[v q] m IH]; intros ns s a ks Hw [H D] Ha Hdis; inversion H; subst.
  - simpl. apply rp_ret; auto. rewrite app_nil_r. auto.
  - destruct y as [x w]. simpl in H2. destruct H2 as [Hv ->]. cbn [mappingAssignment].
    apply rp_get. pose proof Hw as [W T]. assert (E : VarName v s = Some x).
    { unfold VarName. apply node_lit in Hv; auto. rewrite Hv. auto. }
    rewrite E. eapply rp_bind; [apply rp_lit; [auto|apply (lit_name s v (x, true)); auto]|]. intros l s1 P1 Hl.
    pose proof (pstep_wf _ _ P1) as Hw1. pose proof (asnIs_ext _ _ _ _ (pstep_ext _ _ P1) Ha) as Ha1.
    destruct (asnIs_for s1 a ks Hw1 Ha1) as [A1 C1]. pose proof (addLit_spec s1 a ks l x w Hw1 A1 C1 Hl) as HA.
    simpl in D. inversion D; subst.
    destruct (addLit a l) as [a'|] eqn:Ea.
    + apply rp_conseq with (Q := fun a' s' => asnIs s' a' ((ks ++ [(x, w)]) ++ l')).
      * apply IH; auto.
        -- eapply mapIs_ext; [apply (pstep_ext _ _ P1)|]. constructor; auto.
        -- destruct Ha1 as (ls & Hls & HF). exists (ls ++ [l]). split; [|apply Forall2_app; auto].
           unfold newAssignment in *. clear -Hls Ea. revert Hls. generalize emptyAssignment. induction ls as [|k0 ls IH0]; intros a0 Hls; simpl in *.
           ++ inversion Hls; subst. rewrite Ea. auto.
           ++ destruct (addLit a0 k0); [auto|discriminate].
        -- intros y Hy. rewrite map_app in Hy. apply in_app_iff in Hy. simpl in Hy. destruct Hy as [Hy|[<-|[]]]; auto.
           intros Hi. apply (Hdis y Hy). simpl. auto.
      * intros a2 s2 _ H'. rewrite <- app_assoc in H'. exact H'.
    + exfalso. apply (Hdis x); simpl; auto. apply in_map_iff. exists (x, negb w). auto.
Qed.

Fixpoint tsize (t : tree) : nat :=
  match t with
  | TNot t => S (tsize t)
  | TAnd ts | TOr ts => S (fold_right (fun t n => tsize t + n)%nat O ts)
  | TImpl a b | TEquiv a b => S (tsize a + tsize b)
  | _ => 1%nat
  end.
Lemma tsize_in t ts : In t ts -> (tsize t <= fold_right (fun t n => tsize t + n)%nat O ts)%nat.
Proof. induction ts; simpl; [tauto|]. intros [->|H]; try lia. specialize (IHts H). lia. Qed.
Lemma tsize_pos t : (1 <= tsize t)%nat. Proof. destruct t; simpl; lia. Qed.
Lemma is_neg_size t u : is_neg_of t u -> (tsize u <= S (tsize t))%nat.
Proof. destruct t; simpl; try (intros ->; simpl; lia). destruct l. intros ->; simpl; lia. Qed.

Lemma restricted_neg m t u v : restricted m t u -> is_neg_of u v -> restricted m (TNot t) v.
Proof.
  intros [H1 H2] Hn. split.
  - intros b. rewrite (is_neg_of_eval _ _ b Hn). simpl. rewrite H1. auto.
  - intros x Hx. rewrite (is_neg_occurs _ _ x Hn) in Hx. apply H2 in Hx. auto.
Qed.
Lemma K_occurs x v : ~ occurs x (K v). Proof. destruct v; intros []. Qed.

Lemma testConst_ok e ns : forall k t, (tsize t <= k)%nat -> forall m s f top, wf s -> mapIs s m ns -> Den s f t ->
  rp (fun n => testConst n e m f top) s (fun g s' => exists u, Den s' g u /\ constSpec e top (amap ns) t u).
Proof.
  induction k as [|k IH]; intros t Ht m s f top Hw Hm Hd; [pose proof (tsize_pos t); lia|].
  assert (IHs : forall t', (tsize t' <= k)%nat -> forall s' f' top', pstep s s' -> Den s' f' t' ->
    rp (fun n => testConst n e m f' top') s' (fun g s' => exists u, Den s' g u /\ constSpec e top' (amap ns) t' u)).
  { intros t' Ht' s' f' top' P Hd'. apply IH; auto; [eapply pstep_wf; eauto|eapply mapIs_ext; eauto using pstep_ext]. }
  pose proof (Den_sort _ _ _ Hd) as Hs. apply rp_S; cbn [testConst].
  assert (P0 : pstep s s) by (apply pstep_refl; auto).
  destruct t; rewrite Hs.
  - apply rp_ret; auto. exists TFalse. split; auto. eapply exact_const; eauto. split; auto. intros x [].
  - apply rp_ret; auto. exists TTrue. split; auto. eapply exact_const; eauto. split; auto. intros x [].
  - destruct l as [n p]. pose proof (Den_litt_inv _ _ _ Hd) as Hl.
    rewrite (lookupMap_ok s m ns _ n Hw Hm (litVariable_den s f n p Hw Hl)). rewrite (litpos _ _ _ _ Hw Hl).
    destruct (amap ns n) as [v|] eqn:Em; apply rp_ret; auto.
    + exists (K (Bool.eqb p v)). split; [apply Den_Constant|]. eapply exact_const; [eauto|apply Den_Constant|].
      split; [|intros x Hx; elim (K_occurs _ _ Hx)]. intros b. rewrite eval_K. simpl. unfold eval_lit, over; simpl. rewrite Em. destruct p, v; auto.
    + exists (TLit (n, p)). split; auto. eapply exact_const; eauto. split.
      * intros b. simpl. unfold eval_lit, over; simpl. rewrite Em. auto.
      * intros x Hx. simpl in *. subst. auto.
  - (* Not *)
    simpl in Ht. apply rp_get. eapply rp_bind; [apply (IHs t); [lia|auto|apply opNot_den; auto]|]. intros r s1 P1 (u & Hr & Hu). simpl in Hu.
    pose proof (pstep_wf _ _ P1) as Hw1.
    destruct (isConstant r) eqn:Ec.
    + destruct (isConstant_K _ _ _ Hr Ec) as (v & -> & _ & Ev). rewrite andb_false_r. apply rp_ret; auto. rewrite Ev.
      exists (K (negb v)). split; [apply Den_Constant|]. eapply exact_const; [eauto|apply Den_Constant|].
      eapply restricted_neg; eauto. destruct v; reflexivity.
    + rewrite andb_true_r. destruct top; simpl.
      * apply rp_ret; auto. exists (K (negb e)). split; [apply Den_Constant|]. split.
        -- intros H. apply K_inj in H. destruct e; discriminate.
        -- intros HT. exfalso. destruct (constant_or_variable s1 u Hw1 r Hr) as [[v ->]|[x Hx]].
           ++ rewrite (isConstant_den _ _ _ Hr) in Ec. destruct v; discriminate.
           ++ destruct Hu as [_ Hu]. destruct (Hu x Hx) as [Ho Hn]. apply (HT x); auto.
      * eapply rp_conseq; [apply (rp_not r u); auto|]. intros g s2 P2 (w & Hg & Hn). exists w. split; auto. eapply restricted_neg; eauto.
  - (* And *)
    simpl in Ht. apply rp_get. pose proof (opNary_and s f ts Hw Hd) as Hops.
    set (m' := amap ns) in *.
    assert (G : forall l ts1 ts2 nops us s1, pstep s s1 -> ts = ts1 ++ ts2 -> Forall2 (Den s1) l ts2 -> Forall2 (Den s1) nops us ->
       (if e && top then us = [] /\ (forall b, forallb (eval (over m' b)) ts1 = true)
        else (forall b, forallb (eval b) us = forallb (eval (over m' b)) ts1) /\ (forall u, In u us -> forall x, occurs x u -> occurs x (TAnd ts) /\ m' x = None)) ->
       rp (fun n => (fix go (l nops : list formula) {struct l} : M formula :=
         match l with
         | [] => up (And nops)
         | op :: rest =>
           r <- testConst n e m op (e && top) ;;
           if isFalsum r then ret ffalse
           else if negb (isConstant r) then
             if e && top then ret ffalse else go rest (nops ++ [r])
           else go rest nops
         end) l nops) s1 (fun g s' => exists u, Den s' g u /\ constSpec e top m' (TAnd ts) u)).
    { induction l as [|op rest IHl]; intros ts1 ts2 nops us s1 P1 Ets HF HN Hinv; inversion HF; subst.
      - pose proof (pstep_wf _ _ P1) as Hw1. rewrite app_nil_r. rewrite app_nil_r in Hinv.
        eapply rp_conseq; [apply (rp_and nops us); auto|]. intros g s2 P2 (w & Hg & Heq & Hsh). exists w. split; auto.
        eapply (exact_const s2 g); [eapply pstep_wf; eauto|eauto|]. destruct (e && top).
        + destruct Hinv as [-> Hall]. split.
          * intros b. rewrite Heq. simpl. symmetry. apply Hall.
          * intros x Hx. apply (and_shape_occurs x [] w) in Hx; auto. destruct Hx as (? & [] & _).
        + destruct Hinv as [Hall Hocc]. split.
          * intros b. rewrite Heq. simpl. apply Hall.
          * intros x Hx. apply (and_shape_occurs x us w) in Hx; auto. destruct Hx as (u & Hu & Hx). eauto.
      - rename y into t. rename l' into ts2. 
        assert (Hin : In t (ts1 ++ t :: ts2)) by (apply in_app_iff; simpl; auto).
        eapply rp_bind; [apply (IHs t); [pose proof (tsize_in _ _ Hin); lia|auto|auto]|].
        intros r s2 P2 (u & Hr & Hu). pose proof (pstep_wf _ _ P2) as Hw2. rewrite (isFalsum_den _ _ _ Hr), (isConstant_den _ _ _ Hr).
        assert (Hfalse : (forall b, eval (over m' b) t = false) -> constSpec e top m' (TAnd (ts1 ++ t :: ts2)) TFalse).
        { intros Hx. apply (exact_const s2 ffalse); auto; [apply Den_false|]. split; [|intros x []]. intros b. simpl.
          rewrite forallb_app. simpl. rewrite Hx. simpl. rewrite andb_false_r. auto. }
        assert (Hstep : forall nops' us', Forall2 (Den s2) nops' us' ->
          (if e && top then us' = [] /\ (forall b, forallb (eval (over m' b)) (ts1 ++ [t]) = true)
           else (forall b, forallb (eval b) us' = forallb (eval (over m' b)) (ts1 ++ [t])) /\ (forall u, In u us' -> forall x, occurs x u -> occurs x (TAnd (ts1 ++ t :: ts2)) /\ m' x = None)) ->
          rp (fun n => (fix go (l nops : list formula) {struct l} : M formula :=
           match l with
           | [] => up (And nops)
           | op :: rest =>
             r <- testConst n e m op (e && top) ;;
             if isFalsum r then ret ffalse
             else if negb (isConstant r) then
               if e && top then ret ffalse else go rest (nops ++ [r])
             else go rest nops
           end) rest nops') s2 (fun g s' => exists u, Den s' g u /\ constSpec e top m' (TAnd (ts1 ++ t :: ts2)) u)).
        { intros nops' us' HN' Hinv'. apply (IHl (ts1 ++ [t]) ts2 nops' us' s2); auto.
          - eapply pstep_trans; eauto.
          - rewrite <- app_assoc. auto.
          - eapply ext_Dens; eauto using pstep_ext. }
        assert (HN2 : Forall2 (Den s2) nops us) by (eapply ext_Dens; eauto using pstep_ext).
        destruct (match u with TTrue | TFalse => true | _ => false end) eqn:Ecu.
        + destruct u; try discriminate Ecu.
          * (* false *) apply rp_ret; auto. exists TFalse. split; [apply Den_false|].
            destruct (e && top) eqn:Eet.
            -- apply andb_true_iff in Eet. destruct Eet as [-> ->]. simpl in Hu. simpl. split; [discriminate|]. intros HT b.
               destruct Hu as [_ Hu]. specialize (Hu ltac:(intros x Hx; apply HT; apply occurs_and; eauto) b).
               rewrite forallb_app. simpl. destruct (eval (over m' b) t); [discriminate|]. simpl. rewrite andb_false_r. auto.
            -- apply Hfalse. intros b. simpl in Hu. destruct Hu as [Hu _]. rewrite <- Hu. auto.
          * (* true *) simpl. apply (Hstep nops us HN2).
            destruct (e && top) eqn:Eet.
            -- apply andb_true_iff in Eet. destruct Eet as [-> ->]. simpl in Hu. destruct Hinv as [-> Hall]. split; auto. intros b.
               rewrite forallb_app, Hall. simpl. destruct Hu as [Hu _]. rewrite (Hu eq_refl). auto.
            -- simpl in Hu. destruct Hu as [Hu _]. destruct Hinv as [Hall Hocc]. split; auto. intros b. rewrite forallb_app, Hall. simpl.
               rewrite <- Hu. simpl. rewrite andb_true_r. auto.
        + assert (Enf : (match u with TFalse => true | _ => false end) = false) by (destruct u; auto; discriminate). rewrite Enf. simpl.
          destruct (e && top) eqn:Eet.
          * apply andb_true_iff in Eet. destruct Eet as [-> ->]. simpl in Hu. apply rp_ret; auto. exists TFalse. split; [apply Den_false|].
            simpl. split; [discriminate|]. intros HT b. exfalso. destruct Hu as [_ Hu].
            specialize (Hu ltac:(intros x Hx; apply HT; apply occurs_and; eauto) b). subst u. destruct (eval (over m' b) t); discriminate.
          * apply (Hstep (nops ++ [r]) (us ++ [u])); [apply Forall2_app; auto|]. simpl in Hu. destruct Hu as [Hu Huo]. destruct Hinv as [Hall Hocc].
            split.
            -- intros b. rewrite !forallb_app, Hall. simpl. rewrite Hu. auto.
            -- intros w Hi x Hx. apply in_app_iff in Hi. destruct Hi as [Hi|[<-|[]]]; [eauto|].
               destruct (Huo x Hx). split; auto. apply occurs_and; eauto. }
    apply (G (opNary f s) [] ts [] [] s); auto. destruct (e && top); auto. split; auto. intros u [].
  - (* Or *)
    simpl in Ht. apply rp_get. pose proof (opNary_or s f ts Hw Hd) as Hops.
    set (m' := amap ns) in *.
    assert (G : forall l ts1 ts2 nops us s1, pstep s s1 -> ts = ts1 ++ ts2 -> Forall2 (Den s1) l ts2 -> Forall2 (Den s1) nops us ->
       (if negb e && top then us = [] /\ (forall b, existsb (eval (over m' b)) ts1 = false)
        else (forall b, existsb (eval b) us = existsb (eval (over m' b)) ts1) /\ (forall u, In u us -> forall x, occurs x u -> occurs x (TOr ts) /\ m' x = None)) ->
       rp (fun n => (fix go (l nops : list formula) {struct l} : M formula :=
         match l with
         | [] => up (Or nops)
         | op :: rest =>
           r <- testConst n e m op (negb e && top) ;;
           if isVerum r then ret ftrue
           else if negb (isConstant r) then
             if negb e && top then ret ftrue else go rest (nops ++ [r])
           else go rest nops
         end) l nops) s1 (fun g s' => exists u, Den s' g u /\ constSpec e top m' (TOr ts) u)).
    { induction l as [|op rest IHl]; intros ts1 ts2 nops us s1 P1 Ets HF HN Hinv; inversion HF; subst.
      - pose proof (pstep_wf _ _ P1) as Hw1. rewrite app_nil_r. rewrite app_nil_r in Hinv.
        eapply rp_conseq; [apply (rp_or nops us); auto|]. intros g s2 P2 (w & Hg & Heq & Hsh). exists w. split; auto.
        eapply (exact_const s2 g); [eapply pstep_wf; eauto|eauto|]. destruct (negb e && top).
        + destruct Hinv as [-> Hall]. split.
          * intros b. rewrite Heq. simpl. symmetry. apply Hall.
          * intros x Hx. apply (or_shape_occurs x [] w) in Hx; auto. destruct Hx as (? & [] & _).
        + destruct Hinv as [Hall Hocc]. split.
          * intros b. rewrite Heq. simpl. apply Hall.
          * intros x Hx. apply (or_shape_occurs x us w) in Hx; auto. destruct Hx as (u & Hu & Hx). eauto.
      - rename y into t. rename l' into ts2. 
        assert (Hin : In t (ts1 ++ t :: ts2)) by (apply in_app_iff; simpl; auto).
        eapply rp_bind; [apply (IHs t); [pose proof (tsize_in _ _ Hin); lia|auto|auto]|].
        intros r s2 P2 (u & Hr & Hu). pose proof (pstep_wf _ _ P2) as Hw2. rewrite (isVerum_den _ _ _ Hr), (isConstant_den _ _ _ Hr).
        assert (Htrue : (forall b, eval (over m' b) t = true) -> constSpec e top m' (TOr (ts1 ++ t :: ts2)) TTrue).
        { intros Hx. apply (exact_const s2 ftrue); auto; [apply Den_true|]. split; [|intros x []]. intros b. simpl.
          rewrite existsb_app. simpl. rewrite Hx. simpl. rewrite orb_true_r. auto. }
        assert (Hstep : forall nops' us', Forall2 (Den s2) nops' us' ->
          (if negb e && top then us' = [] /\ (forall b, existsb (eval (over m' b)) (ts1 ++ [t]) = false)
           else (forall b, existsb (eval b) us' = existsb (eval (over m' b)) (ts1 ++ [t])) /\ (forall u, In u us' -> forall x, occurs x u -> occurs x (TOr (ts1 ++ t :: ts2)) /\ m' x = None)) ->
          rp (fun n => (fix go (l nops : list formula) {struct l} : M formula :=
           match l with
           | [] => up (Or nops)
           | op :: rest =>
             r <- testConst n e m op (negb e && top) ;;
             if isVerum r then ret ftrue
             else if negb (isConstant r) then
               if negb e && top then ret ftrue else go rest (nops ++ [r])
             else go rest nops
           end) rest nops') s2 (fun g s' => exists u, Den s' g u /\ constSpec e top m' (TOr (ts1 ++ t :: ts2)) u)).
        { intros nops' us' HN' Hinv'. apply (IHl (ts1 ++ [t]) ts2 nops' us' s2); auto.
          - eapply pstep_trans; eauto.
          - rewrite <- app_assoc. auto.
          - eapply ext_Dens; eauto using pstep_ext. }
        assert (HN2 : Forall2 (Den s2) nops us) by (eapply ext_Dens; eauto using pstep_ext).
        destruct (match u with TTrue | TFalse => true | _ => false end) eqn:Ecu.
        + destruct u; try discriminate Ecu.
          * (* false *) simpl. apply (Hstep nops us HN2).
            destruct (negb e && top) eqn:Eet.
            -- apply andb_true_iff in Eet. destruct Eet as [Ee ->]. destruct e; try discriminate Ee. simpl in Hu. destruct Hinv as [-> Hall]. split; auto. intros b.
               rewrite existsb_app, Hall. simpl. destruct Hu as [Hu _]. rewrite (Hu eq_refl). auto.
            -- simpl in Hu. destruct Hu as [Hu _]. destruct Hinv as [Hall Hocc]. split; auto. intros b. rewrite existsb_app, Hall. simpl.
               rewrite <- Hu. simpl. rewrite orb_false_r. auto.
          * (* true *) apply rp_ret; auto. exists TTrue. split; [apply Den_true|].
            destruct (negb e && top) eqn:Eet.
            -- apply andb_true_iff in Eet. destruct Eet as [Ee ->]. destruct e; try discriminate Ee. simpl in Hu. simpl. split; [discriminate|]. intros HT b.
               destruct Hu as [_ Hu]. specialize (Hu ltac:(intros x Hx; apply HT; apply occurs_or; eauto) b).
               rewrite existsb_app. simpl. destruct (eval (over m' b) t); [|discriminate]. simpl. rewrite orb_true_r. auto.
            -- apply Htrue. intros b. simpl in Hu. destruct Hu as [Hu _]. rewrite <- Hu. auto.
        + assert (Enf : (match u with TTrue => true | _ => false end) = false) by (destruct u; auto; discriminate). rewrite Enf. simpl.
          destruct (negb e && top) eqn:Eet.
          * apply andb_true_iff in Eet. destruct Eet as [Ee ->]. destruct e; try discriminate Ee. simpl in Hu. apply rp_ret; auto. exists TTrue. split; [apply Den_true|].
            simpl. split; [discriminate|]. intros HT b. exfalso. destruct Hu as [_ Hu].
            specialize (Hu ltac:(intros x Hx; apply HT; apply occurs_or; eauto) b). subst u. destruct (eval (over m' b) t); discriminate.
          * apply (Hstep (nops ++ [r]) (us ++ [u])); [apply Forall2_app; auto|]. simpl in Hu. destruct Hu as [Hu Huo]. destruct Hinv as [Hall Hocc].
            split.
            -- intros b. rewrite !existsb_app, Hall. simpl. rewrite Hu. auto.
            -- intros w Hi x Hx. apply in_app_iff in Hi. destruct Hi as [Hi|[<-|[]]]; [eauto|].
               destruct (Huo x Hx). split; auto. apply occurs_or; eauto. }
    apply (G (opNary f s) [] ts [] [] s); auto. destruct (negb e && top); auto. split; auto. intros u [].
  - (* Implication *)
    simpl in Ht. apply rp_get. destruct (opBin_impl s f t1 t2 Hw Hd) as [D1 D2].
    eapply rp_bind; [apply (IHs t1); [lia|auto|auto]|]. intros l s1 P1 (u1 & Hl & Hu1). simpl in Hu1.
    pose proof (pstep_wf _ _ P1) as Hw1.
    assert (Hright : forall top', (forall b, eval (over (amap ns) b) t1 = true) ->
       rp (fun n => testConst n e m (snd (opBin f s)) top') s1 (fun g s' => exists u, Den s' g u /\ constSpec e top' (amap ns) (TImpl t1 t2) u)).
    { intros top' H1. eapply rp_conseq; [apply (IHs t2); [lia|auto|eauto using ext_Den, pstep_ext]|]. intros g s2 P2 (u & Hg & Hu). exists u. split; auto.
      destruct top'; simpl in *.
      - destruct Hu as [Ha Hb]. split; [intros E b; rewrite H1, (Ha E); auto|]. intros HT b. rewrite H1. simpl. apply Hb. auto.
      - destruct Hu as [Ha Hb]. split; [intros b; simpl; rewrite H1, (Ha b); auto|]. intros x Hx. destruct (Hb x Hx). simpl; auto. }
    assert (Htrue : (forall b, eval (over (amap ns) b) t1 = false) -> constSpec e top (amap ns) (TImpl t1 t2) TTrue).
    { intros H1. eapply (exact_const s1 ftrue); auto; [apply Den_true|]. split; [|intros x []]. intros b. simpl. rewrite H1. auto. }
    destruct (isConstant l) eqn:Ec.
    + destruct (isConstant_K _ _ _ Hl Ec) as (v & -> & -> & ->). destruct Hu1 as [Hu1 _].
      assert (H1 : forall b, eval (over (amap ns) b) t1 = v) by (intros b; rewrite <- Hu1; apply eval_K).
      destruct e, v; simpl; try (apply Hright; auto; fail);
      (apply rp_ret; auto; exists TTrue; split; [apply Den_true|apply Htrue; auto]).
    + destruct (negb e && top) eqn:Eet.
      * apply andb_true_iff in Eet. destruct Eet as [Ee ->]. apply rp_ret; auto. exists TTrue. split; [apply Den_true|]. split.
        -- intros E. destruct e; discriminate.
        -- intros HT b. exfalso. destruct (constant_or_variable s1 u1 Hw1 l Hl) as [[v ->]|[x Hx]].
           ++ rewrite (isConstant_den _ _ _ Hl) in Ec. destruct v; discriminate.
           ++ destruct Hu1 as [_ Hu]. destruct (Hu x Hx) as [Ho Hn]. apply (HT x); auto. simpl; auto.
      * eapply rp_bind; [apply (IHs t2); [lia|auto|eauto using ext_Den, pstep_ext]|]. intros r s2 P2 (u2 & Hr & Hu2). simpl in Hu2.
        pose proof (pstep_wf _ _ P2) as Hw2. assert (Hl2 : Den s2 l u1) by eauto using ext_Den, pstep_ext.
        destruct (isConstant r) eqn:Ecr.
        -- destruct (isConstant_K _ _ _ Hr Ecr) as (v & -> & -> & _). destruct v.
           ++ apply rp_ret; auto. exists TTrue. split; [apply Den_true|]. eapply (exact_const s2 ftrue); auto; [apply Den_true|].
              split; [|intros x []]. intros b. simpl. destruct Hu2 as [Hu2 _]. rewrite <- Hu2. simpl. destruct (eval (over (amap ns) b) t1); auto.
           ++ eapply rp_conseq; [apply (rp_not l u1); auto|]. intros g s3 P3 (w & Hg & Hn). exists w. split; auto.
              eapply (exact_const s3 g); [eapply pstep_wf; eauto|auto|]. destruct (restricted_neg _ _ _ _ Hu1 Hn) as [Ha Hb]. split.
              ** intros b. rewrite Ha. simpl. destruct Hu2 as [Hu2 _]. rewrite <- Hu2. simpl. destruct (eval (over (amap ns) b) t1); auto.
              ** intros x Hx. destruct (Hb x Hx). simpl in *; auto.
        -- eapply rp_conseq; [apply (rp_impl l r u1 u2); auto|]. intros g s3 P3 (w & Hg & Heq & Hsh). exists w. split; auto.
           eapply (exact_const s3 g); [eapply pstep_wf; eauto|auto|]. destruct Hu1 as [Ha1 Hb1], Hu2 as [Ha2 Hb2]. split.
           ++ intros b. rewrite Heq. simpl. rewrite Ha1, Ha2. auto.
           ++ intros x Hx. apply (impl_shape_occurs x u1 u2 w Hsh) in Hx. simpl. destruct Hx as [Hx|Hx]; [apply Hb1 in Hx|apply Hb2 in Hx]; tauto.
  - (* Equivalence *)
    simpl in Ht. apply rp_get. destruct (opBin_equiv s f t1 t2 Hw Hd) as [D1 D2].
    eapply rp_bind; [apply (IHs t1); [lia|auto|auto]|]. intros l s1 P1 (u1 & Hl & Hu1). simpl in Hu1.
    pose proof (pstep_wf _ _ P1) as Hw1. assert (D2' : Den s1 (snd (opBin f s)) t2) by eauto using ext_Den, pstep_ext.
    destruct (isConstant l) eqn:Ec.
    + destruct (isConstant_K _ _ _ Hl Ec) as (v & -> & -> & _). destruct Hu1 as [Hu1 _].
      assert (H1 : forall b, eval (over (amap ns) b) t1 = v) by (intros b; rewrite <- Hu1; apply eval_K).
      destruct v.
      * eapply rp_conseq; [apply (IHs t2); [lia|auto|auto]|]. intros g s2 P2 (u & Hg & Hu). exists u. split; auto.
        assert (E : forall b, eval (over (amap ns) b) (TEquiv t1 t2) = eval (over (amap ns) b) t2) by (intros b; simpl; rewrite H1; destruct (eval _ t2); auto).
        destruct top; unfold constSpec in *; cbv iota in *.
        -- destruct Hu as [Ha Hb]. split; [intros E' b; rewrite E, (Ha E'); auto|]. intros HT b. rewrite E. apply Hb. intros x Hx; apply HT; simpl; auto.
        -- destruct Hu as [Ha Hb]. split; [intros b; rewrite E, (Ha b); auto|]. intros x Hx. destruct (Hb x Hx). simpl; auto.
      * eapply rp_bind; [apply (rp_not _ t2); auto|]. intros nr s2 P2 (nu & Hnr & Hn). pose proof (is_neg_size _ _ Hn) as Hsz.
        pose proof (tsize_pos t1) as Hp1.
        eapply rp_conseq; [apply (IHs nu); [lia|eauto using pstep_trans|auto]|]. intros g s3 P3 (u & Hg & Hu). exists u. split; auto.
        assert (E : forall b, eval (over (amap ns) b) (TEquiv t1 t2) = eval (over (amap ns) b) nu).
        { intros b; simpl; rewrite H1, (is_neg_of_eval _ _ _ Hn). destruct (eval _ t2); auto. }
        destruct top; unfold constSpec in *; cbv iota in *.
        -- destruct Hu as [Ha Hb]. split; [intros E' b; rewrite E, (Ha E'); auto|]. intros HT b. rewrite E. apply Hb. intros x Hx; apply HT; simpl.
           rewrite (is_neg_occurs _ _ x Hn) in Hx. auto.
        -- destruct Hu as [Ha Hb]. split; [intros b; rewrite E, (Ha b); auto|]. intros x Hx. destruct (Hb x Hx) as [Ho Hm0].
           rewrite (is_neg_occurs _ _ x Hn) in Ho. simpl; auto.
    + eapply rp_bind; [apply (IHs t2); [lia|auto|auto]|]. intros r s2 P2 (u2 & Hr & Hu2). simpl in Hu2.
      pose proof (pstep_wf _ _ P2) as Hw2. assert (Hl2 : Den s2 l u1) by eauto using ext_Den, pstep_ext.
      destruct (isConstant r) eqn:Ecr.
      * destruct (isConstant_K _ _ _ Hr Ecr) as (v & -> & -> & _). destruct top.
        -- apply rp_ret; auto. exists (K (negb e)). split; [apply Den_Constant|]. split.
           ++ intros E. apply K_inj in E. destruct e; discriminate.
           ++ intros HT b. exfalso. destruct (constant_or_variable s1 u1 Hw1 l Hl) as [[w ->]|[x Hx]].
              ** rewrite (isConstant_den _ _ _ Hl) in Ec. destruct w; discriminate.
              ** destruct Hu1 as [_ Hu]. destruct (Hu x Hx) as [Ho Hn]. apply (HT x); auto. simpl; auto.
        -- destruct Hu1 as [Ha Hb]. destruct v.
           ++ apply rp_ret; auto. exists u1. split; auto. split.
              ** intros b. rewrite Ha. simpl. destruct Hu2 as [Hu2 _]. rewrite <- Hu2. simpl. destruct (eval (over (amap ns) b) t1); auto.
              ** intros x Hx. destruct (Hb x Hx). simpl in *; auto.
           ++ eapply rp_conseq; [apply (rp_not l u1); auto|]. intros g s3 P3 (w & Hg & Hn). exists w. split; auto. split.
              ** intros b. rewrite (is_neg_of_eval _ _ _ Hn), Ha. simpl. destruct Hu2 as [Hu2 _]. rewrite <- Hu2. simpl. destruct (eval (over (amap ns) b) t1); auto.
              ** intros x Hx. rewrite (is_neg_occurs _ _ x Hn) in Hx. destruct (Hb x Hx). simpl in *; auto.
      * eapply rp_conseq; [apply (rp_equiv l r u1 u2); auto|]. intros g s3 P3 (w & Hg & Heq & Hsh). exists w. split; auto.
        eapply (exact_const s3 g); [eapply pstep_wf; eauto|auto|]. destruct Hu1 as [Ha1 Hb1], Hu2 as [Ha2 Hb2]. split.
        -- intros b. rewrite Heq. simpl. rewrite Ha1, Ha2. auto.
        -- intros x Hx. apply (equiv_shape_occurs x u1 u2 w Hsh) in Hx. simpl. destruct Hx as [Hx|Hx]; [apply Hb1 in Hx|apply Hb2 in Hx]; tauto.
  - (* constraints *)
    assert (G : rp (fun n => bind (mappingAssignment m emptyAssignment) (fun a => restrict n a f)) s
       (fun g s' => exists u, Den s' g u /\ constSpec e top (amap ns) (TPBC cc c rhs ls cs) u)).
    { eapply rp_bind.
      - apply (mappingAssignment_ok m ns s emptyAssignment []); auto. exists []; auto.
      - simpl. intros a s1 P1 Ha. eapply rp_conseq; [apply (restrict_ok a ns (TPBC cc c rhs ls cs) s1 f (pstep_wf _ _ P1) Ha); eauto using ext_Den, pstep_ext|].
        intros g s2 P2 (u & Hg & Hu). exists u. split; auto. eapply (exact_const s2 g); eauto. eapply pstep_wf; eauto. }
    destruct cc; exact G.
Qed.
