(** * What a client that works with one kernel holds: specification and invariant *)
From Coq Require Import String List Bool ZArith NArith Lia.
From Verif Require Import Spec Factory FactoryProofs FactoryProofs2 FactoryProofs3 FactoryApi FactoryProps Assign NormalForm NfBase NfAssign AssignProps NfApi
  Bdd BddApi BddTable BddNode BddSem BddQuant BddKernel BddHandles BddCompile BddCanon BddOps.
Import ListNotations.
Local Open Scope Z_scope.

(** ** The specification *)
(** the values of variables under the values [a] of the names *)
Definition vof (s : state) (a : asg) : vasg := fun v => match VarName v s with Some x => a x | None => false end.
(** Following the nodes of the BDD with index [n] from the root, at each node to the high child
    iff the assignment [a] makes the node's variable true, ends in the terminal [r]. *)
Definition follows (s : state) (k : kernel) (a : asg) (n : Z) (r : bool) : Prop := walk k (vof s a) n r.
(** the variables of the kernel and the names [xs] are together no more than the kernel was made for *)
Definition hasRoom (s : state) (k : kernel) (xs : list string) : Prop :=
  exists W, NoDup W /\ incl (vlist k) W /\ Z.of_nat (List.length W) <= varnum k /\
    (forall x, In x xs -> exists v, LiteralNamePhase v s = Some (x, true) /\ In v W) /\
    (forall v, In v W -> exists x, LiteralNamePhase v s = Some (x, true)).
Inductive binary := BoAnd | BoOr | BoImplies | BoImpliedBy | BoEquivalence.
Definition runBinary (o : binary) : Z -> Z -> K Z :=
  match o with BoAnd => bddAnd | BoOr => bddOr | BoImplies => bddImplies | BoImpliedBy => bddImpliedBy | BoEquivalence => bddEquivalence end.
Definition binarySem (o : binary) (p q : bool) : bool :=
  match o with BoAnd => p && q | BoOr => p || q | BoImplies => negb p || q | BoImpliedBy => p || negb q | BoEquivalence => Bool.eqb p q end.
(** the compilation terminates with this result for any sufficient recursion depth *)
Definition compiles (cf : encConfig) (h : nat -> bool) (f : formula) (s : state) (k : kernel) (r : option Z) (s' : state) (k' : kernel) : Prop :=
  exists n0, forall n, (n0 <= n)%nat -> compileHandler cf h n f s k = CRet r s' k'.
(** ** The invariant *)
Definition known_name (s : state) (x : string) : Prop := posLit s x <> None.
Definition holds (s : state) (k : kernel) (h : Z * (asg -> bool)) : Prop :=
  Denotes k (fst h) (fun b => snd h (bof s b)) /\ forall a a', (forall x, known_name s x -> a x = a' x) -> snd h a = snd h a'.
Definition vknown (s : state) (k : kernel) : Prop := forall v, In v (vlist k) -> exists x, posLit s x = Some v.
Definition binv (s : state) (k : kernel) (R : list (Z * (asg -> bool))) : Prop :=
  wf s /\ kinv k /\ hinv k (map fst R) /\ vknown s k /\ Forall (holds s k) R.

Lemma name_pos s v x : wf s -> LiteralNamePhase v s = Some (x, true) <-> posLit s x = Some v.
Proof.
  intros W. pose proof W as [Wn Wt]. rewrite LiteralNamePhase_node; auto. rewrite (c_pos _ Wt). unfold litDen. rewrite node_lit; auto. tauto.
Qed.
Lemma lits_var s ls ns : wf s -> lits_named s ls ns -> Forall2 (fun l np => posLit s (fst np) = Some (litVariable l) /\ isPos l = snd np) ls ns.
Proof.
  intros W H. apply lits_named_den in H; auto. eapply Forall2_impl; [|exact H]. intros l [x p] D. apply lit_var; auto.
Qed.
Lemma VarName_pos s x v : wf s -> posLit s x = Some v -> VarName v s = Some x.
Proof. intros [Wn Wt] E. apply (c_pos _ Wt) in E. unfold VarName. rewrite E. auto. Qed.
Lemma bof_vof s a x : wf s -> known_name s x -> bof s (vof s a) x = a x.
Proof. intros W H. unfold known_name in H. unfold bof, vof. destruct (posLit s x) as [v|] eqn:E; [|congruence]. rewrite (VarName_pos _ _ _ W E). auto. Qed.
Lemma holds_walk s k n p a : binv s k [] -> holds s k (n, p) -> follows s k a n (p a).
Proof.
  intros (W & K & _) [D N]. cbn in *. pose proof (Denotes_walk k n _ (vof s a) K D) as X. cbn in X. rewrite (N (bof s (vof s a)) a) in X; auto. intros x Hx. apply bof_vof; auto.
Qed.
Lemma fits_self k : kinv k -> fits k (vlist k).
Proof. intros K. destruct (ki_vlist _ K). split; [auto|]. split; [apply incl_refl|lia]. Qed.
Lemma hasRoom_fits s k xs : wf s -> hasRoom s k xs -> exists W, fits k W /\ (forall x, In x xs -> exists v, posLit s x = Some v /\ In v W) /\ forall v, In v W -> exists x, posLit s x = Some v.
Proof.
  intros Wf (W & N & I & Le & H1 & H2). exists W. split; [split; auto|]. split.
  - intros x Hx. destruct (H1 x Hx) as (v & E & Iv). exists v. split; auto. apply name_pos; auto.
  - intros v Hv. destruct (H2 v Hv) as (x & E). exists x. apply name_pos; auto.
Qed.
Lemma fits_vknown s k W : fits k W -> (forall v, In v W -> exists x, posLit s x = Some v) -> vknown s k.
Proof. intros (_ & I & _) H v Hv. auto. Qed.
Lemma holds_ext s k k' R : kext (map fst R) k k' -> Forall (holds s k) R -> Forall (holds s k') R.
Proof.
  intros X H. rewrite Forall_forall in *. intros h Hh. destruct (H h Hh) as [D N]. split; auto. eapply Denotes_ext; eauto. apply in_map; auto.
Qed.
Lemma keeps_pos s s' x v : wf s -> wf s' -> keeps s s' -> posLit s x = Some v -> posLit s' x = Some v.
Proof.
  intros W W' Kp E. apply name_pos in E; auto. pose proof (Kp v _ (R_lit s v _ E)) as R. inversion R; subst. apply name_pos; auto.
Qed.
Lemma bof_keeps s s' b x : wf s -> wf s' -> keeps s s' -> known_name s x -> bof s' b x = bof s b x.
Proof. intros W W' Kp H. unfold known_name in H. unfold bof. destruct (posLit s x) as [v|] eqn:E; [|congruence]. rewrite (keeps_pos s s' x v); auto. Qed.
Lemma binv_keeps s s' k R : wf s' -> keeps s s' -> binv s k R -> binv s' k R.
Proof.
  intros W' Kp (W & K & H & V & F). split; auto. split; auto. split; auto. split.
  - intros v Hv. destruct (V v Hv) as [x E]. exists x. eapply keeps_pos; eauto.
  - rewrite Forall_forall in *. intros h Hh. destruct (F h Hh) as [D N]. split.
    + eapply Denotes_eq; [|exact D]. intros b. cbn. apply N. intros x Hx. symmetry. apply bof_keeps; auto.
    + intros a a' Ha. apply N. intros x Hx. apply Ha. unfold known_name in *. destruct (posLit s x) as [v|] eqn:E; [|congruence]. rewrite (keeps_pos s s' x v); auto.
Qed.
Lemma binv_made s k R W z k' P : wf s -> binv s k R -> fits k W -> (forall v, In v W -> exists x, posLit s x = Some v) ->
  made W (map fst R) k (fun b => P (bof s b)) z k' -> (forall a a', (forall x, known_name s x -> a x = a' x) -> P a = P a') -> binv s k' ((z, P) :: R).
Proof.
  intros Wf (_ & K & H & V & F) Fi HW (K' & H' & X & F' & D) N. split; auto. split; auto. split; auto. split; [eapply fits_vknown; eauto|].
  constructor; [split; auto|]. eapply holds_ext; eauto.
Qed.
Lemma binv_only s k R k' W : binv s k R -> kinv k' -> hinv k' (map fst R) -> kext (map fst R) k k' -> fits k' W -> (forall v, In v W -> exists x, posLit s x = Some v) -> binv s k' R.
Proof. intros (Wf & K & H & V & F) K' H' X F' HW. split; auto. split; auto. split; auto. split; [eapply fits_vknown; eauto|]. eapply holds_ext; eauto. Qed.
Lemma kwp_run {A} (m : K A) Q k a k' : kwp m Q k -> m k = Ok a k' -> Q a k'.
Proof. unfold kwp. intros H E. rewrite E in H. auto. Qed.
Lemma in_fst {A B} (x : A) (y : B) l : In (x, y) l -> In x (map fst l).
Proof. intros H. apply (in_map fst) in H. auto. Qed.

Lemma bddRestrict_frame W L k n p ls : kinv k -> hinv k L -> fits k W -> In n L -> Denotes k n p -> (forall l, In l ls -> In (litVariable l) W) ->
  kwp (bddRestrict n ls) (fun _ k' => kinv k' /\ hinv k' L /\ kext L k k' /\ fits k' W) k.
Proof.
  intros K H F I D HW. unfold bddRestrict. destruct ls as [|l0 ls0].
  { cbn [compileLiterals]. apply kwp_bind, kwp_ret. unfold restrict. cbn. split; auto. split; auto. split; [apply kext_refl|]. auto. }
  set (ls := l0 :: ls0) in *. eapply kwp_bind'; [apply (compileLiterals_ok W ls L); auto; discriminate|]. intros v k1 (K1 & H1 & X1 & F1 & V1 & D1).
  pose proof (Denotes_ext _ _ _ _ _ X1 I D) as Dn. pose proof Dn as (t & R & S). pose proof D1 as (tv & Rv & _).
  eapply kwp_conseq; [apply (restrict_ok (v :: L)) with (t := t) (tv := tv); auto; cbn; auto|]. intros r k2 O.
  pose proof O as (K2 & H2 & X2 & E2 & _). split; auto. split; [eapply hinv_tl; eauto|]. split; [eapply kext_trans; [exact X1|eapply kext_tl; eauto]|]. revert F1; apply fits_same; [auto|apply X2].
Qed.
Definition bopOf (o : binary) : bop := match o with BoAnd => BAnd | BoOr => BOr | BoImplies | BoImpliedBy => BImp | BoEquivalence => BEquiv end.
Lemma runBinary_ok o W L k n m p q : kinv k -> hinv k L -> fits k W -> In n L -> In m L -> Denotes k n p -> Denotes k m q ->
  kwp (runBinary o n m) (made W L k (fun b => binarySem o (p b) (q b))) k.
Proof.
  intros K H F I J D E.
  assert (HM : forall (f g : vasg -> bool) z k', (forall b, f b = g b) -> made W L k f z k' -> made W L k g z k').
  { intros f g z k' Ef (M1 & M2 & M3 & M4 & M5). split; auto. split; auto. split; auto. split; auto. eapply Denotes_eq; eauto. }
  destruct o; cbn [runBinary]; [unfold bddAnd|unfold bddOr|unfold bddImplies|unfold bddImpliedBy|unfold bddEquivalence]; (eapply kwp_conseq; [apply bddApply_ok with (W := W) (L := L); eauto|]);
    intros z k'; apply HM; intros b; cbn; try reflexivity; destruct (p b), (q b); auto.
Qed.

Lemma newKernelOrd_ok order size csize g : 3 <= size -> 1 <= csize -> (forall i n, n <= g i n) -> Z.of_nat (List.length order) <= maxvar ->
  kwp (setNumberOfVars (Z.of_nat (List.length order)) ~; for_each order (fun v => _ <~ getOrAddVarIndex v; kret tt)) (fun _ k => kinv k /\ incl (vlist k) order)
  (emptyKernel (Z.of_nat (List.length order)) size csize g).
Proof.
  intros Hs Hc Hg Hm. eapply kwp_bind'; [apply newKernel_ok; auto; lia|]. intros _ k (K & Vn & Vl & _).
  apply kwp_for_each with (I := fun r k' => kinv k' /\ incl (vlist k') order /\ incl r order /\ varnum k' = Z.of_nat (List.length order) /\ Z.of_nat (List.length (vlist k')) + Z.of_nat (List.length r) <= Z.of_nat (List.length order)).
  - split; auto. rewrite Vl. cbn. split; [intros x []|]. split; [apply incl_refl|]. split; auto. lia.
  - intros v r k1 (K1 & I1 & I2 & V1 & Le). eapply kwp_bind'; [apply (getIndex_ok [] k1 v K1 (fun x (Hx : In x []) => match Hx with end)); right; cbn in Le; lia|].
    + intros i k2 (K2 & _ & X2 & Hi & Ni & Sm & Ic). apply kwp_ret. split; auto. split; [intros y Hy; destruct (Ic y Hy) as [<-|Hy']; auto; apply I2; left; auto|].
      split; [intros y Hy; apply I2; right; auto|]. split; [rewrite (x_num _ _ _ X2); auto|]. cbn in Le.
      assert (NoDup (vlist k2)) as N2 by apply K2. pose proof (NoDup_incl_length N2 Ic) as L2. cbn in L2. lia.
  - intros k' (K' & I' & _). auto.
Qed.

Definition chpost (h : nat -> bool) (s : state) (R : list (Z * (asg -> bool))) (t : tree) (o : option Z) (s' : state) (k' : kernel) : Prop :=
  s' = s /\ binv s k' (match o with Some z => (z, fun a => eval a t) :: R | None => R end) /\ (o = None -> exists m, h m = false).
Lemma compile_run cf h s k R n f t xs : binv s k R -> Reads s f t -> pbfree t = true -> (forall x, occurs x t -> In x xs) -> hasRoom s k xs -> (tdep t <= n)%nat ->
  cwp (compileHandler cf h n f) (chpost h s R t) s k.
Proof.
  intros B Rd Hp Ho Hr Hn. pose proof B as (Wf & K & H & V & F). apply Reads_Den in Rd; auto. destruct (hasRoom_fits _ _ _ Wf Hr) as (W & Fi & Hx & HW).
  unfold compileHandler. destruct (h 0%nat) eqn:E0; [|apply cwp_ret; split; auto; split; eauto].
  eapply cwp_bind'; [apply (compile_ok cf h s Wf W t Hp) with (L := map fst R); auto|].
  { intros x Hxo. apply Hx; auto. }
  intros [o j] s' k' (-> & K' & H' & X & F' & Hc & _). apply cwp_ret. cbn in *. split; auto. destruct o as [z|].
  - destruct Hc as [Hz D]. split; [|discriminate]. apply (binv_made s k R W); auto.
    + exact (conj K' (conj Hz (conj X (conj F' D)))).
    + intros a a' Ha. apply eval_agree. intros x Hxo. apply Ha. unfold known_name. destruct (Hx x (Ho x Hxo)) as (v & -> & _). discriminate.
  - split; [eapply binv_only; eauto|]. destruct Hc as (m & _ & Hm). eauto.
Qed.
Lemma library_wf cv s H X : library cv s H X -> wf s.
Proof. intros L. apply library_inv in L as [V L]. apply L. Qed.
Lemma lits_space s ls ns W : wf s -> lits_named s ls ns -> (forall x, In x (map fst ns) -> exists v, posLit s x = Some v /\ In v W) -> forall l, In l ls -> In (litVariable l) W.
Proof.
  intros Wf Hl Hx l Hi. pose proof (lits_var _ _ _ Wf Hl) as F2. clear Hl. revert Hx Hi. induction F2 as [|l1 [x p] ls ns [E _] F2 IH]; intros Hx []; subst.
  - destruct (Hx x) as (v & Ev & Iv); [left; auto|]. cbn in *. congruence.
  - apply IH; auto. intros y Hy. apply Hx. right. auto.
Qed.
Lemma names_vars s vs xs : wf s -> lits_named s vs (map (fun x => (x, true)) xs) -> vars_only vs /\ Forall2 (fun v x => posLit s x = Some v) vs xs.
Proof.
  intros Wf Hl. apply lits_var in Hl; auto. remember (map (fun x => (x, true)) xs) as ns eqn:E. revert xs E. induction Hl as [|v np vs ns [E1 E2] Hl IH]; intros [|x xs] E; cbn in E; inversion E; subst.
  - split; constructor.
  - destruct (IH xs eq_refl) as [H1 H2]. cbn in *. split; [constructor; auto|]. constructor; auto. unfold litVariable in E1. rewrite E2 in E1. auto.
Qed.
