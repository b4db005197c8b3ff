(** * Properties of binary decision diagrams (C29 - C35) *)
From Coq Require Import String List Bool ZArith NArith Lia Permutation.
From Verif Require Import Spec Factory FactoryProofs FactoryProofs2 FactoryProofs3 FactoryApi FactoryProps Assign NormalForm NfBase NfAssign AssignProps NfApi NfProps
  Bdd BddApi BddQuery BddTable BddNode BddSem BddQuant BddKernel BddHandles BddCompile BddCanon BddOps BddHist BddPaths BddForm BddEnum BddCount BddPres BddClient.
Import ListNotations.
Local Open Scope Z_scope.

(** ** Specification *)
(** the assignment [a] with the values of the literals [ns] *)
Definition withLits (ns : list lit) (a : asg) : asg := fun x => match find (fun np => String.eqb (fst np) x) ns with Some np => snd np | None => a x end.
Definition consistentLits (ns : list lit) : Prop := forall x, ~ (In (x, true) ns /\ In (x, false) ns).
(** [a'] differs from [a] on the names [xs] at most *)
Definition sameOutside (xs : list string) (a a' : asg) : Prop := forall x, ~ In x xs -> a' x = a x.
(** the variables the kernel knows, by name *)
Definition kernelNames (s : state) (k : kernel) (xs : list string) : Prop := Forall2 (fun v x => LiteralNamePhase v s = Some (x, true)) (vlist k) xs.
(** the operation does not panic; [Q] holds of its result unless the node table could not grow *)
Definition succeeds {A} (r : outcome A) (Q : A -> kernel -> Prop) : Prop := match r with Ok a k => Q a k | Full => True | Bad => False end.
Definition csucceeds {A} (r : cres A) (Q : A -> state -> kernel -> Prop) : Prop := match r with CRet a s k => Q a s k | CFull => True | CPanic | CStuck => False end.

Lemma client_parts cv w : client cv w -> (exists V, linv (w_s w) V (w_H w) (w_X w)) /\ wf (w_s w) /\ kinv (w_k w) /\ hinv (w_k w) (map fst (w_R w)) /\ vknown (w_s w) (w_k w) /\
  (forall n p, In (n, p) (w_R w) -> holds (w_s w) (w_k w) (n, p)) /\ forall q, ~ In q (w_T w) -> nocount (idOf q) (w_k w).
Proof. intros Cl. apply client_inv in Cl as (L & (W & K & H & V & F) & N). rewrite Forall_forall in F. repeat (split; [solve [auto]|]). auto. Qed.
Lemma walk_of s k n p a : wf s -> kinv k -> holds s k (n, p) -> follows s k a n (p a).
Proof.
  intros W K [D N]. cbn in *. pose proof (Denotes_walk k n _ (vof s a) K D) as X. cbn in X. rewrite (N (bof s (vof s a)) a) in X; auto. intros x Hx. apply bof_vof; auto.
Qed.

(** ** C29 *)
Theorem C29_bdds_denote_their_functions : forall cv w n p a, client cv w -> In (n, p) (w_R w) -> follows (w_s w) (w_k w) a n (p a).
Proof. intros cv w n p a Cl I. destruct (client_parts _ _ Cl) as (_ & W & K & _ & _ & F & _). apply walk_of; auto. Qed.

Section Fuel.
Variables (cf : encConfig) (h : nat -> bool) (s : state).
Hypothesis Wf : wf s.
Definition sst {A} (r : cres A) : Prop := match r with CRet _ s' _ => s' = s | _ => True end.
Definition ceq {A} (m m' : C A) (k : kernel) : Prop := m s k = m' s k /\ sst (m s k).
Lemma ceq_ret {A} (a : A) k : ceq (cret a) (cret a) k. Proof. split; cbn; auto. Qed.
Lemma ceq_onK {A} (m : K A) k : ceq (onK m) (onK m) k. Proof. split; auto. unfold onK. destruct (m k); cbn; auto. Qed.
Lemma ceq_panic {A} k : ceq (fun _ _ => @CPanic A) (fun _ _ => CPanic) k. Proof. split; cbn; auto. Qed.
Lemma ceq_bind {A B} (m m' : C A) (f f' : A -> C B) k : ceq m m' k -> (forall a k', ceq (f a) (f' a) k') -> ceq (cbind m f) (cbind m' f') k.
Proof. intros [E S] H. unfold ceq, cbind. rewrite <- E. destruct (m s k) as [a s1 k1| | |]; cbn in *; auto. subst. apply H. Qed.
Lemma ceq_get {A B} (g : state -> A) (f f' : A -> C B) k : ceq (f (g s)) (f' (g s)) k -> ceq (cbind (cget g) f) (cbind (cget g) f') k.
Proof. intros H. exact H. Qed.
Lemma ceq_ops rec rec' o ops : (forall f i k, In f ops -> ceq (rec f i) (rec' f i) k) -> forall res i k, ceq (compOps h rec o ops res i) (compOps h rec' o ops res i) k.
Proof.
  induction ops as [|f ops IH]; intros H res i k; cbn [compOps]; [apply ceq_ret|]. apply ceq_bind; [apply H; left; auto|]. intros [[z|] j] k1; [|apply ceq_ret].
  apply ceq_bind; [apply ceq_onK|intros y k2]. apply ceq_bind; [apply ceq_onK|intros x k3]. apply ceq_bind; [apply ceq_onK|intros _ k4]. apply ceq_bind; [apply ceq_onK|intros _ k5].
  destruct x; [|apply ceq_ret]. apply IH. intros; apply H; right; auto.
Qed.
Lemma compile_fuel : forall t, pbfree t = true -> forall f n n' i k, (tdep t <= n)%nat -> (tdep t <= n')%nat -> Den s f t -> ceq (compile cf h n f i) (compile cf h n' f i) k.
Proof.
  induction t using tree_ind'; intros Hp f fu fu' i kk Hn Hn' D; (destruct fu as [|n]; [cbn in Hn; lia|]); (destruct fu' as [|n']; [cbn in Hn'; lia|]); cbn [compile];
    pose proof (Den_sort _ _ _ D) as Es; rewrite Es; cbn [pbfree] in Hp; try discriminate.
  - apply ceq_ret.
  - apply ceq_ret.
  - apply ceq_bind; [apply ceq_onK|intros; apply ceq_ret].
  - apply ceq_get. pose proof (opNot_den _ _ _ Wf D) as D1. apply ceq_bind; [apply IHt; auto; cbn in Hn, Hn'; lia|]. intros [[z|] j] k1; [|apply ceq_ret].
    apply ceq_bind; [apply ceq_onK|intros y k2]. apply ceq_bind; [apply ceq_onK|intros x k3]. apply ceq_bind; [apply ceq_onK|intros _ k4]. apply ceq_ret.
  - apply ceq_get. pose proof (opNary_and _ _ _ Wf D) as D1. assert (G : forall g i k, In g (opNary f s) -> ceq (compile cf h n g i) (compile cf h n' g i) k).
    { intros g i' k' Hg. destruct (Forall2_in_l _ _ _ g D1 Hg) as (u & Hu & Du). rewrite Forall_forall in H. rewrite forallb_forall in Hp. pose proof (tdep_in _ _ Hu). cbn in Hn, Hn'. apply (H u); auto; lia. }
    destruct (opNary f s) as [|g r]; [apply ceq_panic|]. apply ceq_bind; [apply G; left; auto|]. intros [[z|] j] k1; [|apply ceq_ret]. apply ceq_ops. intros; apply G; right; auto.
  - apply ceq_get. pose proof (opNary_or _ _ _ Wf D) as D1. assert (G : forall g i k, In g (opNary f s) -> ceq (compile cf h n g i) (compile cf h n' g i) k).
    { intros g i' k' Hg. destruct (Forall2_in_l _ _ _ g D1 Hg) as (u & Hu & Du). rewrite Forall_forall in H. rewrite forallb_forall in Hp. pose proof (tdep_in _ _ Hu). cbn in Hn, Hn'. apply (H u); auto; lia. }
    destruct (opNary f s) as [|g r]; [apply ceq_panic|]. apply ceq_bind; [apply G; left; auto|]. intros [[z|] j] k1; [|apply ceq_ret]. apply ceq_ops. intros; apply G; right; auto.
  - apply ceq_get. destruct (opBin_impl _ _ _ _ Wf D) as [D1 D2]. apply andb_true_iff in Hp as [Hp1 Hp2]. cbn [tdep] in Hn, Hn'. apply ceq_bind; [apply IHt1; auto; lia|]. intros [[z|] j] k1; [|apply ceq_ret].
    apply ceq_bind; [apply IHt2; auto; lia|]. intros [[z2|] j2] k2; [|apply ceq_ret].
    apply ceq_bind; [apply ceq_onK|intros y k3]. apply ceq_bind; [apply ceq_onK|intros x k4]. apply ceq_bind; [apply ceq_onK|intros _ k5]. apply ceq_bind; [apply ceq_onK|intros _ k6]. apply ceq_ret.
  - apply ceq_get. destruct (opBin_equiv _ _ _ _ Wf D) as [D1 D2]. apply andb_true_iff in Hp as [Hp1 Hp2]. cbn [tdep] in Hn, Hn'. apply ceq_bind; [apply IHt1; auto; lia|]. intros [[z|] j] k1; [|apply ceq_ret].
    apply ceq_bind; [apply IHt2; auto; lia|]. intros [[z2|] j2] k2; [|apply ceq_ret].
    apply ceq_bind; [apply ceq_onK|intros y k3]. apply ceq_bind; [apply ceq_onK|intros x k4]. apply ceq_bind; [apply ceq_onK|intros _ k5]. apply ceq_bind; [apply ceq_onK|intros _ k6]. apply ceq_ret.
Qed.
Lemma handler_fuel t f n n' k : pbfree t = true -> (tdep t <= n)%nat -> (tdep t <= n')%nat -> Den s f t -> compileHandler cf h n f s k = compileHandler cf h n' f s k.
Proof.
  intros Hp Hn Hn' D. unfold compileHandler. destruct (h 0%nat); auto. apply (ceq_bind (compile cf h n f 1%nat) (compile cf h n' f 1%nat)); [eapply compile_fuel; eauto|]. intros; apply ceq_ret.
Qed.
End Fuel.

(** Compiling a formula without constraints neither panics nor fails to terminate; only the
    handler can cancel it. *)
Theorem C29_compile : forall cv w cf h f t xs, client cv w -> Reads (w_s w) f t -> pbfree t = true -> (forall x, occurs x t -> In x xs) -> hasRoom (w_s w) (w_k w) xs ->
  exists n0 r, (forall n, (n0 <= n)%nat -> compileHandler cf h n f (w_s w) (w_k w) = r) /\
  csucceeds r (fun o s' k' => s' = w_s w /\ match o with Some z => forall a, follows s' k' a z (eval a t) | None => exists m, h m = false end).
Proof.
  intros cv w cf h f t xs Cl Rd Hp Ho Hr. destruct (client_inv _ _ Cl) as (_ & B & _). pose proof B as (Wf & _). exists (tdep t), (compileHandler cf h (tdep t) f (w_s w) (w_k w)). split.
  - intros n Hn. eapply handler_fuel; eauto. apply Reads_Den; auto.
  - pose proof (compile_run cf h _ _ _ (tdep t) f t xs B Rd Hp Ho Hr (le_n _)) as Q. unfold cwp in Q. destruct (compileHandler cf h (tdep t) f (w_s w) (w_k w)) as [o s' k'| | |]; cbn; auto.
    destruct Q as (-> & (W & K & Hi & V & F) & Hn). split; auto. destruct o as [z|]; [|auto]. intros a. rewrite Forall_forall in F. apply (walk_of _ _ z (fun a => eval a t)); auto. apply F. left; auto.
Qed.
Theorem C29_negate : forall cv w n p, client cv w -> In (n, p) (w_R w) -> succeeds (bddNegate n (w_k w)) (fun z k' => forall a, follows (w_s w) k' a z (negb (p a))).
Proof.
  intros cv w n p Cl I. destruct (client_parts _ _ Cl) as (_ & W & K & Hi & V & F & _). destruct (F _ _ I) as [D N]. cbn in D, N.
  pose proof (bddNegate_ok (vlist (w_k w)) _ _ n _ K Hi (fits_self _ K) (in_fst _ _ _ I) D) as Q. unfold kwp in Q. destruct (bddNegate n (w_k w)) as [z k'| |]; cbn; auto.
  destruct Q as (K' & H' & X & F' & D'). intros a. apply (walk_of _ _ z (fun a => negb (p a))); auto. split; [exact D'|]. cbn. intros b b' Hb. f_equal. auto.
Qed.
Theorem C29_binary : forall cv w o n m p q, client cv w -> In (n, p) (w_R w) -> In (m, q) (w_R w) ->
  succeeds (runBinary o n m (w_k w)) (fun z k' => forall a, follows (w_s w) k' a z (binarySem o (p a) (q a))).
Proof.
  intros cv w o n m p q Cl I J. destruct (client_parts _ _ Cl) as (_ & W & K & Hi & V & F & _). destruct (F _ _ I) as [D N], (F _ _ J) as [D2 N2]. cbn in D, N, D2, N2.
  pose proof (runBinary_ok o (vlist (w_k w)) _ _ n m _ _ K Hi (fits_self _ K) (in_fst _ _ _ I) (in_fst _ _ _ J) D D2) as Q. unfold kwp in Q. destruct (runBinary o n m (w_k w)) as [z k'| |]; cbn; auto.
  destruct Q as (K' & H' & X & F' & D'). intros a. apply (walk_of _ _ z (fun a => binarySem o (p a) (q a))); auto. split; [exact D'|]. cbn. intros b b' Hb. f_equal; auto.
Qed.

(** ** C30 *)
Theorem C30_canonical : forall cv w n m p q, client cv w -> In (n, p) (w_R w) -> In (m, q) (w_R w) -> (n = m <-> forall a, p a = q a).
Proof.
  intros cv w n m p q Cl I J. destruct (client_parts _ _ Cl) as (_ & W & K & Hi & V & F & _). pose proof (F _ _ I) as Hn. pose proof (F _ _ J) as Hm. pose proof Hn as [D N]. pose proof Hm as [D2 N2]. cbn in D, D2.
  rewrite (Denotes_canon _ _ _ _ _ K D D2). split; [|auto]. intros E a. rewrite <- (holds_names _ _ _ _ a W Hn), <- (holds_names _ _ _ _ a W Hm). apply E.
Qed.
Theorem C30_constants : forall cv w n p, client cv w -> In (n, p) (w_R w) ->
  (isTautology n = true <-> forall a, p a = true) /\ (isContradiction n = true <-> forall a, p a = false).
Proof.
  intros cv w n p Cl I. destruct (client_parts _ _ Cl) as (_ & W & K & Hi & V & F & _). pose proof (F _ _ I) as Hn. pose proof Hn as [D N]. cbn in D.
  assert (G : forall v : bool, n = (if v then 1 else 0) <-> forall a, p a = v).
  { intros v. rewrite (Denotes_canon _ _ _ _ _ K D (Denotes_const (w_k w) v)). split; [|auto]. intros E a. rewrite <- (holds_names _ _ _ _ a W Hn). apply E. }
  unfold isTautology, isContradiction. rewrite !Z.eqb_eq. split; [apply (G true)|apply (G false)].
Qed.

(** ** C33 *)
Lemma withLits_named s ls ns a x v : wf s -> lits_named s ls ns -> posLit s x = Some v -> boverride ls (vof s a) v = withLits ns a x.
Proof.
  intros W Hl E. apply lits_var in Hl; auto. unfold boverride, withLits. induction Hl as [|l [y b] ls ns [E1 E2] Hl IH]; cbn; [unfold vof; rewrite (VarName_pos _ _ _ W E); auto|]. cbn in E1, E2.
  destruct (feqb_spec (litVariable l) v) as [Ev|Ev]; destruct (String.eqb_spec y x) as [Ey|Ey]; auto.
  - elim Ey. pose proof (VarName_pos _ _ _ W E). pose proof (VarName_pos _ _ _ W E1). congruence.
  - elim Ev. congruence.
Qed.
Theorem C33_restrict : forall cv w n p ls ns, client cv w -> In (n, p) (w_R w) -> lits_named (w_s w) ls ns -> consistentLits ns -> hasRoom (w_s w) (w_k w) (map fst ns) ->
  succeeds (bddRestrict n ls (w_k w)) (fun z k' => forall a, follows (w_s w) k' a z (p (withLits ns a))).
Proof.
  intros cv w n p ls ns Cl I Hl Hc Hr. destruct (client_parts _ _ Cl) as (_ & W & K & Hi & V & F & _). destruct (F _ _ I) as [D N]. cbn in D, N. destruct (hasRoom_fits _ _ _ W Hr) as (Wd & Fi & Hx & HW).
  assert (Co : lconsistent ls).
  { intros l l' I1 I2 E. pose proof (lits_var _ _ _ W Hl) as HF. destruct (Forall2_in_l _ _ _ l HF I1) as ([x b] & J1 & A1 & A2), (Forall2_in_l _ _ _ l' HF I2) as ([y c] & J2 & B1 & B2). cbn in *.
    assert (x = y). { pose proof (VarName_pos _ _ _ W A1). pose proof (VarName_pos _ _ _ W B1). congruence. } subst y. rewrite A2, B2. destruct b, c; auto; elim (Hc x); auto. }
  pose proof (bddRestrict_ok Wd _ _ n _ ls K Hi Fi (in_fst _ _ _ I) D (lits_space _ _ _ _ W Hl Hx) Co) as Q. unfold kwp in Q. destruct (bddRestrict n ls (w_k w)) as [z k'| |]; cbn; auto.
  destruct Q as (K' & H' & X & F' & D'). intros a. pose proof (Denotes_walk _ _ _ (vof (w_s w) a) K' D') as Wk. cbn in Wk. erewrite N; [exact Wk|].
  intros x Kx. unfold bof. unfold known_name in Kx. destruct (posLit (w_s w) x) as [v|] eqn:E; [|congruence]. symmetry. apply withLits_named; auto.
Qed.
Theorem C33_quantify : forall cv w (e : bool) n p vs xs, client cv w -> In (n, p) (w_R w) -> lits_named (w_s w) vs (map (fun x => (x, true)) xs) -> hasRoom (w_s w) (w_k w) xs ->
  succeeds ((if e then bddExists n vs else bddForAll n vs) (w_k w)) (fun z k' => forall a, exists r, follows (w_s w) k' a z r /\
    (r = true <-> if e then exists a', sameOutside xs a a' /\ p a' = true else forall a', sameOutside xs a a' -> p a' = true)).
Proof.
  intros cv w e n p vs xs Cl I Hl Hr. destruct (client_parts _ _ Cl) as (_ & W & K & Hi & V & F & _). destruct (F _ _ I) as [D N]. cbn in D, N. destruct (hasRoom_fits _ _ _ W Hr) as (Wd & Fi & Hx & HW).
  destruct (names_vars _ _ _ W Hl) as [Vo Fv]. assert (HvW : forall l, In l vs -> In l Wd).
  { intros l Hj. rewrite <- (proj1 (vars_litVariable vs l Vo Hj)). eapply lits_space; eauto. rewrite map_map. cbn. rewrite map_id. auto. }
  pose proof (bddQuant_ok e Wd _ _ n _ vs K Hi Fi (in_fst _ _ _ I) D HvW Vo) as Q. unfold kwp in Q. destruct ((if e then bddExists n vs else bddForAll n vs) (w_k w)) as [z k'| |]; cbn; auto.
  destruct Q as (q & Hq & K' & H' & X & F' & D'). intros a. exists (q (vof (w_s w) a)). split; [apply (Denotes_walk _ _ _ (vof (w_s w) a) K' D')|].
  set (s := w_s w) in *.
  assert (In1 : forall x v, posLit s x = Some v -> (In v vs <-> In x xs)).
  { intros x v E. split; intros J; [destruct (Forall2_in_l _ _ _ v Fv J) as (y & J' & E')|destruct (Forall2_in_r _ _ _ x Fv J) as (u & J' & E')].
    - pose proof (VarName_pos _ _ _ W E). pose proof (VarName_pos _ _ _ W E'). congruence.
    - congruence. }
  (* the values of the variables for changed values of the names, and back *)
  assert (To : forall b', outside vs (vof s a) b' -> exists a', sameOutside xs a a' /\ p a' = p (bof s b')).
  { intros b' Ho. exists (fun x => match posLit s x with Some v => b' v | None => a x end). split.
    - intros x Nx. destruct (posLit s x) as [v|] eqn:E; auto. rewrite Ho; [unfold vof; rewrite (VarName_pos _ _ _ W E); auto|]. rewrite (In1 _ _ E). auto.
    - apply N. intros x Kx. unfold known_name in Kx. unfold bof. destruct (posLit s x); congruence. }
  assert (Fro : forall a', sameOutside xs a a' -> exists b', outside vs (vof s a) b' /\ p (bof s b') = p a').
  { intros a' Ho. exists (fun v => if in_dec (fun f g => match feqb_spec f g with ReflectT _ y => left y | ReflectF _ n => right n end) v vs then vof s a' v else vof s a v). split.
    - intros v Nv. destruct (in_dec _ v vs); [contradiction|auto].
    - apply N. intros x Kx. unfold known_name in Kx. unfold bof. destruct (posLit s x) as [v|] eqn:E; [|congruence]. destruct (in_dec _ v vs) as [J|J]; [unfold vof; rewrite (VarName_pos _ _ _ W E); auto|].
      unfold vof. rewrite (VarName_pos _ _ _ W E). symmetry. apply Ho. rewrite <- (In1 _ _ E). auto. }
  rewrite (Hq (vof s a)). destruct e.
  - split; [intros (b' & Ho & Hp); destruct (To b' Ho) as (a' & A & B); exists a'; rewrite B; auto|intros (a' & Ho & Hp); destruct (Fro a' Ho) as (b' & A & B); exists b'; rewrite B; auto].
  - split; [intros H a' Ho; destruct (Fro a' Ho) as (b' & A & B); rewrite <- B; auto|intros H b' Ho; destruct (To b' Ho) as (a' & A & B); rewrite <- B; auto].
Qed.

(** ** C34: no later call changes the meaning of a BDD the client holds *)
Lemma steps_keep w w' : bsteps w w' -> winv_ w -> keeps (w_s w) (w_s w') /\ exists R, w_R w' = R ++ w_R w.
Proof.
  induction 1 as [w|w1 w2 w3 Ss IH St]; intros I; [split; [intros f t H; exact H|exists []; auto]|]. destruct (IH I) as [Kp [R E]]. pose proof (steps_inv _ _ I Ss) as I2.
  assert (G : keeps (w_s w2) (w_s w3) /\ exists R', w_R w3 = R' ++ w_R w2).
  { pose proof I2 as ([V Li] & B & _). pose proof B as (Wf & K & Hi & Vk & F). rewrite Forall_forall in F.
    destruct St as [s H X k R0 T s' H' X' L|s H X k R0 T cf h f t xs z s' k' Rd Hp Hx Hr C|s H X k R0 T cf h f t xs s' k' Rd Hp Hx Hr C|s H X k R0 T n p z k' J C|o s H X k R0 T n m p q z k' J J' C
    |s H X k R0 T n p ls ns z k' J Hl Hr C|e s H X k R0 T n p vs xs z k' J Hl Hr C|q s H X k R0 T n p f s' k' J C|s H X k R0 T n p vs ms s' k' J C|q s H X k R0 T n p x k' J C]; cbn [w_s w_H w_X w_k w_R w_T] in *.
    1: { destruct (step_linv _ _ _ _ _ _ _ Li L) as (V' & L' & Xt). split; [eapply wext_keeps; eauto; apply L'|exists []; auto]. }
    1,2: destruct C as [n0 C]; pose proof (compile_run cf h s k R0 (max n0 (tdep t)) f t xs B Rd Hp Hx Hr (Nat.le_max_r _ _)) as Q; unfold cwp in Q; rewrite (C _ (Nat.le_max_l _ _)) in Q; destruct Q as (-> & _).
    1: split; [intros g u Hg; exact Hg|exists [(z, fun a => eval a t)]; auto].
    1: split; [intros g u Hg; exact Hg|exists []; auto].
    1: split; [intros g u Hg; exact Hg|exists [(z, fun a => negb (p a))]; auto].
    1: split; [intros g u Hg; exact Hg|exists [(z, fun a => binarySem o (p a) (q a))]; auto].
    1,2,5: split; [intros g u Hg; exact Hg|exists []; auto].
    1: { destruct (F _ J) as [D N]. cbn in D. destruct (cwp_run _ _ _ _ _ _ _ (runFormula_ok q s V k n _ (i_winv _ _ _ _ Li) K (vknown_named _ _ Wf Vk) D) C) as (V' & I' & Xt & _).
         split; [eapply wext_keeps; eauto; apply I'|exists []; auto]. }
    1: { destruct (F _ J) as [D N]. cbn in D. destruct (cwp_run _ _ _ _ _ _ _ (bddEnum_ok s V k n _ (nameOf s) vs (i_winv _ _ _ _ Li) K (vknown_named _ _ Wf Vk) D) C) as (V' & I' & Xt & _).
         split; [eapply wext_keeps; eauto; apply I'|exists []; auto]. } }
  destruct G as [Kp' [R' E']]. split; [intros f t Hr; apply Kp', Kp; auto|]. exists (R' ++ R). rewrite E', E, app_assoc. auto.
Qed.
Lemma walk_fun k b n r : walk k b n r -> forall r', walk k b n r' -> r = r'.
Proof.
  induction 1 as [| |n v r L1 L2 Ev _ IH]; intros r' H'; inversion H' as [E1 E2|E1 E2|n' v' r'' A1 A2 A3 A4 E1 E2]; subst; auto; try lia. rewrite Ev in A3. injection A3 as <-. auto.
Qed.
Lemma bsteps_trans w1 w2 w3 : bsteps w1 w2 -> bsteps w2 w3 -> bsteps w1 w3.
Proof. intros H G. revert H. induction G as [|w2 w4 w3 _ IH S0]; auto. intros H. apply (bsteps_more _ w4); auto. Qed.
Theorem C34_bdds_stay_valid : forall cv w w' n p a r, client cv w -> bsteps w w' -> In (n, p) (w_R w) ->
  In (n, p) (w_R w') /\ (follows (w_s w) (w_k w) a n r -> follows (w_s w') (w_k w') a n r).
Proof.
  intros cv w w' n p a r Cl St I. assert (Cl' : client cv w'). { destruct Cl as (w0 & B & S0). exists w0. split; auto. eapply bsteps_trans; eauto. }
  destruct (steps_keep _ _ St (client_inv _ _ Cl)) as [_ [R E]]. assert (I' : In (n, p) (w_R w')) by (rewrite E; apply in_app_iff; auto). split; auto.
  intros Fo. rewrite (walk_fun _ _ _ _ Fo _ (C29_bdds_denote_their_functions cv w n p a Cl I)). apply (C29_bdds_denote_their_functions cv w' n p a Cl' I').
Qed.

(** ** C35 *)
Theorem C35_formulas : forall cv w q n p, client cv w -> In (n, p) (w_R w) ->
  csucceeds (runFormula q n (w_s w) (w_k w)) (fun f s' k' => keeps (w_s w) s' /\ exists u, Reads s' f u /\ (forall a, eval a u = p a) /\
    match q with QCNF => is_cnf u = true | QDNF => is_dnf u = true | QToFormula _ => True end).
Proof.
  intros cv w q n p Cl I. destruct (client_parts _ _ Cl) as ([V Li] & W & K & Hi & Vk & F & _). pose proof (F _ _ I) as Hn. pose proof Hn as [D N]. cbn in D.
  pose proof (runFormula_ok q _ V _ n _ (i_winv _ _ _ _ Li) K (vknown_named _ _ W Vk) D) as Q. unfold cvp, cwp in Q. destruct (runFormula q n (w_s w) (w_k w)) as [f s' k'| | |]; cbn; auto.
  destruct Q as (V' & I' & X & _ & u & Du & Eu & Hk). split; [eapply wext_keeps; eauto; apply I'|]. exists u. split; [apply Reads_Den; auto; apply I'|]. split; [|auto]. intros a. rewrite Eu. apply (holds_names _ _ _ _ a W Hn).
Qed.
(** the models of an enumeration by name; each occurs once *)
Definition enumerates (s : state) (ms : list (list formula)) (nss : list (list lit)) : Prop := Forall2 (lits_named s) ms nss /\ NoDup nss.
(** For variables the kernel knows. Missing: other variables, see [C35_enumeration_refuted]. *)
Theorem C35_enumeration_partial : forall cv w n p vs xs, client cv w -> In (n, p) (w_R w) -> incl vs (vlist (w_k w)) -> lits_named (w_s w) vs (map (fun x => (x, true)) xs) ->
  csucceeds (bddModelEnumeration n vs (w_s w) (w_k w)) (fun ms s' k' => keeps (w_s w) s' /\ exists nss, enumerates s' ms nss /\
    forall ns, In ns nss <-> exists a, p a = true /\ ns = map (fun x => (x, a x)) xs).
Proof.
  intros cv w n p vs xs Cl I Hv Hl. destruct (client_parts _ _ Cl) as ([V Li] & W & K & Hi & Vk & F & _). pose proof (F _ _ I) as Hn. pose proof Hn as [D N]. cbn in D.
  pose proof (bddEnum_ok _ V _ n _ (nameOf (w_s w)) vs (i_winv _ _ _ _ Li) K (vknown_named _ _ W Vk) D) as Q. unfold cvp, cwp in Q. destruct (bddModelEnumeration n vs (w_s w) (w_k w)) as [ms s' k'| | |]; cbn; auto.
  destruct Q as (V' & I' & X & _ & nss & Md & Nd & Hs). split; [eapply wext_keeps; eauto; apply I'|]. exists nss. split; [split; auto|].
  - eapply Forall2_impl; [|exact Md]. intros m ns Hm. eapply Forall2_impl; [|exact Hm]. intros l x Hx. apply LiteralNamePhase_node; auto. apply I'.
  - assert (Ef : filter (onKernel (w_k w)) vs = vs).
    { clear -Hv. induction vs as [|v vs IH]; cbn; auto. unfold onKernel at 1. destruct (indexOf v (vlist (w_k w)) 0) as [i|] eqn:E; [|apply indexOf_none in E; elim E; apply Hv; left; auto]. f_equal. apply IH. intros y Hy; apply Hv; right; auto. }
    rewrite Ef in Hs. assert (En : forall a : asg, map (fun v => (nameOf (w_s w) v, a (nameOf (w_s w) v))) vs = map (fun x => (x, a x)) xs).
    { destruct (names_vars _ _ _ W Hl) as [_ Fv]. intros a. clear -Fv W. induction Fv as [|v x vs xs E Fv IH]; cbn; auto. rewrite (nameOf_pos _ _ _ W E). f_equal. auto. }
    intros ns. rewrite (Hs ns). split; intros (a & H1 & H2); exists a; (split; [rewrite (holds_names _ _ _ _ a W Hn) in *; auto|rewrite En in *; auto]).
Qed.

(** ** C31 *)
Lemma Denotes_local k n p b b' : kinv k -> Denotes k n p -> (forall v, In v (vlist k) -> b v = b' v) -> p b = p b'.
Proof.
  intros K (t & _ & S) H. rewrite <- (S (lvals k b) b), <- (S (lvals k b) b'); auto using lvals_agr. intros i v E. rewrite <- H by (eapply nth_error_In; eauto). apply lvals_agr; auto.
Qed.
(** Without an earlier call of ModelCount on the kernel. Missing: any history, see [C31_model_count_refuted]. *)
Theorem C31_model_count_partial : forall cv w n p xs, client cv w -> In (n, p) (w_R w) -> ~ In QModels (w_T w) -> kernelNames (w_s w) (w_k w) xs ->
  succeeds (bddModelCount n (w_k w)) (fun x k' => x = 2 ^ (varnum (w_k w) - Z.of_nat (List.length xs)) * models xs p).
Proof.
  intros cv w n p xs Cl I NT Hx. destruct (client_parts _ _ Cl) as (_ & W & K & Hi & V & F & N). pose proof (F _ _ I) as Hn. pose proof Hn as [D _]. cbn in D. pose proof D as (t & R & _).
  assert (So : satok (w_k w)) by (intros i e E1 E2; elim (N QModels NT i E1 E2)).
  pose proof (satCount_ok _ _ _ K So R) as Q. unfold kwp in Q. destruct (bddModelCount n (w_k w)) as [x k'| |]; cbn; auto. destruct Q as [_ ->].
  assert (Ex : map (nameOf (w_s w)) (vlist (w_k w)) = xs). { clear -Hx W. unfold kernelNames in Hx. induction Hx as [|v x vs xs E Hx IH]; cbn; auto. rewrite IH. f_equal. apply nameOf_pos; auto. apply name_pos; auto. }
  rewrite <- Ex, map_length. eapply count_names; eauto.
  - intros v v' Iv Iv' E. destruct (V v Iv) as [x Px], (V v' Iv') as [x' Px']. rewrite (nameOf_pos _ _ _ W Px), (nameOf_pos _ _ _ W Px') in E. congruence.
  - intros a b Hb. cbn. rewrite <- (holds_names _ _ _ _ a W Hn). apply (Denotes_local _ _ _ b _ K D). auto.
Qed.

(** ** C32 *)
Definition runPaths (v : bool) : countQuery := if v then QPathsOne else QPathsZero.
(** Without an earlier call of the same count on the kernel, and for diagrams without sharing.
    Missing: any history and any diagram, see [C32_path_count_refuted]. *)
Theorem C32_path_count_partial : forall cv w n p (v : bool), client cv w -> In (n, p) (w_R w) -> ~ In (runPaths v) (w_T w) -> unshared (w_k w) n ->
  succeeds (runCount (runPaths v) n (w_k w)) (fun x k' => pathsNumber (w_k w) n v x).
Proof.
  intros cv w n p v Cl I NT U. destruct (client_parts _ _ Cl) as (_ & W & K & Hi & V & F & N). destruct (F _ _ I) as [D _]. cbn in D. pose proof D as (t & R & _).
  pose proof (pathCount_ok v _ _ n t eq_refl K) as Q. assert (Ca : cacheOf (cacheidPathcou (b2z v)) [] (w_k w)).
  { intros i E1 E2. elim (N _ NT i E1). rewrite E2. destruct v; reflexivity. }
  specialize (Q Ca R U). unfold kwp in Q. destruct v; cbn [runPaths runCount b2z] in *; unfold bddPathCountOne, bddPathCountZero; destruct (kbind _ _ _) as [x k'| |]; cbn; auto; apply Q.
Qed.

(** ** Concrete clients *)
Inductive bop := OCompile (f : formula) | ONegate (i : nat) | OBinary (o : binary) (i j : nat) | OCount (q : countQuery) (i : nat).
Definition named_b (s : state) (v : formula) (x : string) : bool := match LiteralNamePhase v s with Some (y, b) => String.eqb y x && b | None => false end.
Definition varb (s : state) (v : formula) : bool := match LiteralNamePhase v s with Some (_, b) => b | None => false end.
Fixpoint nodupb (l : list formula) : bool := match l with [] => true | v :: r => negb (inb v r) && nodupb r end.
Definition roomFor (s : state) (k : kernel) (xs : list string) : list formula :=
  vlist k ++ filter (fun v => negb (inb v (vlist k))) (flat_map (fun x => match posLit s x with Some v => [v] | None => [] end) xs).
Definition hasRoomb (s : state) (k : kernel) (xs : list string) : bool :=
  let W := roomFor s k xs in nodupb W && (Z.of_nat (List.length W) <=? varnum k) && forallb (fun x => existsb (fun v => named_b s v x) W) xs && forallb (varb s) W.
Lemma inb_ok v l : inb v l = true <-> In v l.
Proof. induction l as [|w l IH]; cbn; [split; [discriminate|tauto]|]. destruct (feqb_spec v w); cbn; [split; auto; intros; left; congruence|]. rewrite IH. split; [auto|]. intros [E|E]; [congruence|auto]. Qed.
Lemma nodupb_ok l : nodupb l = true -> NoDup l.
Proof. induction l as [|v l IH]; cbn; intros H; constructor; apply andb_true_iff in H as [H1 H2]; auto. rewrite <- inb_ok. apply negb_true_iff in H1. congruence. Qed.
Lemma hasRoomb_ok s k xs : hasRoomb s k xs = true -> hasRoom s k xs.
Proof.
  unfold hasRoomb. intros H. apply andb_true_iff in H as [H H4]. apply andb_true_iff in H as [H H3]. apply andb_true_iff in H as [H1 H2]. exists (roomFor s k xs). split; [apply nodupb_ok; auto|]. split; [intros v Hv; apply in_app_iff; auto|].
  split; [apply Z.leb_le; auto|]. rewrite forallb_forall in H3, H4. split.
  - intros x Hx. specialize (H3 x Hx). apply existsb_exists in H3 as (v & Hv & E). exists v. split; auto. unfold named_b in E. destruct (LiteralNamePhase v s) as [[y b]|]; [|discriminate]. apply andb_true_iff in E as [E ->]. apply String.eqb_eq in E. subst. auto.
  - intros v Hv. specialize (H4 v Hv). unfold varb in H4. destruct (LiteralNamePhase v s) as [[y b]|]; [|discriminate]. subst b. exists y. auto.
Qed.
Fixpoint tnames (t : tree) : list string :=
  match t with
  | TLit l => [fst l] | TNot t => tnames t | TAnd ts | TOr ts => flat_map tnames ts | TImpl a b | TEquiv a b => tnames a ++ tnames b | _ => []
  end.
Lemma names_occurs : forall t, pbfree t = true -> forall x, occurs x t -> In x (tnames t).
Proof.
  assert (L : forall ts, Forall (fun t => pbfree t = true -> forall x, occurs x t -> In x (tnames t)) ts -> forallb pbfree ts = true -> forall x,
    (fix go (l : list tree) : Prop := match l with [] => False | t :: r => occurs x t \/ go r end) ts -> In x (flat_map tnames ts)).
  { induction 1 as [|t ts Ht _ IH]; intros Hp x Ho; [destruct Ho|]. cbn in Hp. apply andb_true_iff in Hp as [H1 H2]. cbn. apply in_app_iff. destruct Ho; auto. }
  intros t; induction t using tree_ind'; intros Hp x Ho; cbn in Hp, Ho |- *; try discriminate; try contradiction; auto.
  - apply andb_true_iff in Hp as [H1 H2]. apply in_app_iff. destruct Ho; auto.
  - apply andb_true_iff in Hp as [H1 H2]. apply in_app_iff. destruct Ho; auto.
Qed.
Definition held := list (Z * (asg -> bool)).
Definition bexec1 (s : state) (o : bop) (c : kernel * held * list countQuery) : option (kernel * held * list countQuery) :=
  let '(k, R, T) := c in
  match o with
  | OCompile f => match readf 30 s f with
      | Some t => if pbfree t && hasRoomb s k (tnames t) then
          match compileHandler exCf (fun _ => true) (tdep t) f s k with CRet (Some z) _ k' => Some (k', (z, fun a => eval a t) :: R, T) | _ => None end else None
      | None => None
      end
  | ONegate i => match nth_error R i with Some (n, p) => match bddNegate n k with Ok z k' => Some (k', (z, fun a => negb (p a)) :: R, T) | _ => None end | None => None end
  | OBinary o i j => match nth_error R i, nth_error R j with
      | Some (n, p), Some (m, q) => match runBinary o n m k with Ok z k' => Some (k', (z, fun a => binarySem o (p a) (q a)) :: R, T) | _ => None end | _, _ => None end
  | OCount q i => match nth_error R i with Some (n, p) => match runCount q n k with Ok _ k' => Some (k', R, q :: T) | _ => None end | None => None end
  end.
Fixpoint bexec (s : state) (os : list bop) (c : kernel * held * list countQuery) : option (kernel * held * list countQuery) :=
  match os with [] => Some c | o :: r => match bexec1 s o c with Some c' => bexec s r c' | None => None end end.
Lemma bexec1_ok s H X o k R T k' R' T' : winv_ (World s H X k R T) -> bexec1 s o (k, R, T) = Some (k', R', T') -> bstep (World s H X k R T) (World s H X k' R' T').
Proof.
  intros I. cbn [bexec1]. destruct o as [f|i|o i j|q i].
  - destruct (readf 30 s f) as [t|] eqn:Er; [|discriminate]. apply readf_ok in Er. destruct (pbfree t) eqn:Hp; [|discriminate]. destruct (hasRoomb s k (tnames t)) eqn:Hr; [|discriminate]. cbn [andb].
    destruct (compileHandler _ _ _ f s k) as [[z|] s1 k1| | |] eqn:E; try discriminate. intros Eq; injection Eq as <- <- <-. pose proof I as (_ & B & _). pose proof B as (Wf & _).
    assert (s1 = s). { pose proof (compile_run exCf (fun _ => true) s k R (tdep t) f t (tnames t) B Er Hp (names_occurs t Hp) (hasRoomb_ok _ _ _ Hr) (le_n _)) as Q. unfold cwp in Q. rewrite E in Q. apply Q. } subst s1.
    eapply (bs_compile s H X k R T exCf (fun _ => true) f t (tnames t)); auto using names_occurs, hasRoomb_ok. exists (tdep t). intros n Hn. rewrite <- E. eapply handler_fuel; eauto. apply Reads_Den; auto.
  - destruct (nth_error R i) as [[n p]|] eqn:Ei; [|discriminate]. destruct (bddNegate n k) as [z k1| |] eqn:E; try discriminate. intros Eq; injection Eq as <- <- <-. apply (bs_negate s H X k R T n p); auto. eapply nth_error_In; eauto.
  - destruct (nth_error R i) as [[n p]|] eqn:Ei; [|discriminate]. destruct (nth_error R j) as [[m q]|] eqn:Ej; [|discriminate]. destruct (runBinary o n m k) as [z k1| |] eqn:E; try discriminate. intros Eq; injection Eq as <- <- <-.
    apply (bs_binary o s H X k R T n m p q); auto; eapply nth_error_In; eauto.
  - destruct (nth_error R i) as [[n p]|] eqn:Ei; [|discriminate]. destruct (runCount q n k) as [z k1| |] eqn:E; try discriminate. intros Eq; injection Eq as <- <- <-. apply (bs_count q s H X k R T n p z k1); auto. eapply nth_error_In; eauto.
Qed.
Lemma bexec_ok s H X os : forall k R T k' R' T', winv_ (World s H X k R T) -> bexec s os (k, R, T) = Some (k', R', T') -> bsteps (World s H X k R T) (World s H X k' R' T').
Proof.
  induction os as [|o os IH]; intros k R T k' R' T' I E; cbn [bexec] in E; [injection E as <- <- <-; apply bsteps_refl|].
  destruct (bexec1 s o (k, R, T)) as [[[k1 R1] T1]|] eqn:E1; [|discriminate].
  pose proof (bexec1_ok _ H X _ _ _ _ _ _ _ I E1) as S1. eapply bsteps_trans; [eapply bsteps_more; [apply bsteps_refl|exact S1]|]. apply IH; auto. eapply step_inv; eauto.
Qed.
(** a history of factory calls [cs], a kernel for [num] variables with a table of [size] nodes that
    doubles, the kernel operations [os] *)
Definition dbl (i n : Z) : Z := Z.max n (2 * n).
Definition btest (cs : list (list formula -> call)) (num size : Z) (os : list formula -> list bop) (test : world -> bool) : bool :=
  let '(s, H) := lworld cs in
  match H with [] => false | _ =>
  match newKernel num size 10 dbl with
  | Ok tt k => match bexec s (os H) (k, [], []) with Some (k', R, T) => test (World s H [] k' R T) | None => false end
  | _ => false
  end end.
Lemma btest_ok cs num size os test : 0 <= num -> 3 <= size -> btest cs num size os test = true -> exists w, client false w /\ test w = true.
Proof.
  intros H1 H2. unfold btest. destruct (lworld cs) as [s H] eqn:El. destruct H as [|f0 H0] eqn:EH; [discriminate|]. rewrite <- EH in *. destruct (newKernel num size 10 dbl) as [[] k| |] eqn:Ek; try discriminate.
  destruct (bexec s (os H) (k, [], [])) as [[[k' R] T]|] eqn:E; [|discriminate]. intros Ht.
  assert (St : bstart false (World s H [] k [] [])).
  { apply (st_new false s H [] num size 10 dbl); auto; try lia; [|intros i n; unfold dbl; lia]. pose proof (lworld_library cs) as L. rewrite El in L. apply L. cbn. rewrite EH. discriminate. }
  exists (World s H [] k' R T). split; auto. exists (World s H [] k [] []). split; auto. eapply bexec_ok; eauto. eapply start_inv; eauto.
Qed.

Definition vars3 : list (list formula -> call) :=
  [fun _ => CVar "a"; fun _ => CVar "b"; fun _ => CVar "c"; fun H => CEquiv (nthf 1 H) (nthf 0 H); fun H => CEquiv (nthf 3 H) (nthf 0 H)]%string.

Fixpoint walkb (d : nat) (k : kernel) (b : vasg) (n : Z) : option bool :=
  match d with O => None | Datatypes.S d =>
    if n =? 0 then Some false else if n =? 1 then Some true else
    if (2 <=? n) && (n <? nodesize k) && negb (lows k n =? -1) then
    match getVariableForIndex k (level2var k (levels k n)) with Some v => walkb d k b (if b v then highs k n else lows k n) | None => None end else None end.
Lemma walkb_ok k b : forall d n r, walkb d k b n = Some r -> walk k b n r.
Proof.
  induction d as [|d IH]; intros n r; cbn [walkb]; [discriminate|]. destruct (Z.eqb_spec n 0) as [->|N0]; [intros [= <-]; constructor|]. destruct (Z.eqb_spec n 1) as [->|N1]; [intros [= <-]; constructor|].
  destruct ((2 <=? n) && (n <? nodesize k) && negb (lows k n =? -1)) eqn:E; [|discriminate]. apply andb_true_iff in E as [E E3]. apply andb_true_iff in E as [E1 E2].
  destruct (getVariableForIndex k (level2var k (levels k n))) as [v|] eqn:Ev; [|discriminate]. intros Hw. apply Z.leb_le in E1. apply Z.ltb_lt in E2. apply negb_true_iff, Z.eqb_neq in E3. eapply walk_node; eauto.
Qed.

Fixpoint named2 (s : state) (ls : list formula) (ns : list lit) : bool :=
  match ls, ns with
  | [], [] => true
  | l :: ls, (x, b) :: ns => match LiteralNamePhase l s with Some (y, c) => String.eqb x y && Bool.eqb b c | None => false end && named2 s ls ns
  | _, _ => false
  end.
Lemma named2_ok s : forall ls ns, named2 s ls ns = true -> lits_named s ls ns.
Proof.
  induction ls as [|l ls IH]; intros [|[x b] ns] H; cbn in H; try discriminate; [constructor|]. apply andb_true_iff in H as [H1 H2]. constructor; [|apply IH; auto].
  destruct (LiteralNamePhase l s) as [[y c]|]; [|discriminate]. apply andb_true_iff in H1 as [A B]. apply String.eqb_eq in A. apply Bool.eqb_prop in B. subst. auto.
Qed.
Fixpoint kernelNamesb (s : state) (vs : list formula) (xs : list string) : bool :=
  match vs, xs with [], [] => true | v :: vs, x :: xs => named_b s v x && kernelNamesb s vs xs | _, _ => false end.
Lemma kernelNamesb_ok s k xs : kernelNamesb s (vlist k) xs = true -> kernelNames s k xs.
Proof.
  unfold kernelNames. revert xs. induction (vlist k) as [|v vs IH]; intros [|x xs] H; cbn in H; try discriminate; constructor; apply andb_true_iff in H as [H1 H2]; auto.
  unfold named_b in H1. destruct (LiteralNamePhase v s) as [[y b]|]; [|discriminate]. apply andb_true_iff in H1 as [A ->]. apply String.eqb_eq in A. subst. auto.
Qed.
Ltac unmatch H := repeat match type of H with (match ?x with _ => _ end) = true => destruct x eqn:?; try discriminate H end.

Ltac head := match goal with E : w_R _ = _ |- _ => rewrite E; left; reflexivity end.

(** ** Refutations *)
(** a <=> (b <=> c) *)
Definition h3 : list (list formula -> call) :=
  [fun _ => CVar "a"; fun _ => CVar "b"; fun _ => CVar "c"; fun H => CEquiv (nthf 1 H) (nthf 0 H); fun H => CEquiv (nthf 3 H) (nthf 0 H); fun H => CAnd [nthf 3 H; nthf 2 H]; fun H => COr [nthf 5 H; nthf 0 H]; fun H => CNot (nthf 3 H);
   fun _ => CLit "b" false; fun _ => CLit "c" false; fun H => CAnd [nthf 1 H; nthf 0 H]]%string.
(** the second call of ModelCount for the variable b of a kernel that knows a and b: 4 instead of 2 *)
Theorem C31_model_count_refuted : exists w n p xs x k', client false w /\ In (n, p) (w_R w) /\ kernelNames (w_s w) (w_k w) xs /\
  bddModelCount n (w_k w) = Ok x k' /\ x <> 2 ^ (varnum (w_k w) - Z.of_nat (List.length xs)) * models xs p.
Proof.
  destruct (btest_ok h3 2 11 (fun H => [OCompile (nthf 10 H); OCompile (nthf 9 H); OCount QModels 0])
    (fun w => match w_R w with (n, p) :: _ => match bddModelCount n (w_k w) with
       | Ok x _ => if kernelNamesb (w_s w) (vlist (w_k w)) ["a"; "b"]%string then negb (x =? 2 ^ (varnum (w_k w) - 2) * models ["a"; "b"]%string p) else false | _ => false end | _ => false end)) as (w & Cl & T); [lia|lia|vm_compute; reflexivity|].
  unmatch T. exists w, z, b, ["a"; "b"]%string, a, k. split; auto. split; [head|]. split; [apply kernelNamesb_ok; auto|]. split; auto. apply negb_true_iff, Z.eqb_neq in T. exact T.
Qed.
Fixpoint pathsb (d : nat) (k : kernel) (v : bool) (n : Z) : option Z :=
  match d with O => None | Datatypes.S d =>
    if n =? 0 then Some (b2z (negb v)) else if n =? 1 then Some (b2z v) else
    match pathsb d k v (lows k n), pathsb d k v (highs k n) with Some x, Some y => Some (x + y) | _, _ => None end end.
Lemma pathsb_ok k v : forall d n t c, Rep k n t -> pathsb d k v n = Some c -> c = cntP v t.
Proof.
  induction d as [|d IH]; intros n t c R; cbn [pathsb]; [discriminate|]. inversion R as [| |n' a b L Ra Rb E1 E2]; subst; cbn.
  - intros [= <-]. destruct v; auto.
  - intros [= <-]. destruct v; auto.
  - destruct L as [[L1 _] _]. destruct (Z.eqb_spec n 0); [lia|]. destruct (Z.eqb_spec n 1); [lia|]. destruct (pathsb d k v (lows k n)) as [x|] eqn:Ex; [|discriminate]. destruct (pathsb d k v (highs k n)) as [y|] eqn:Ey; [|discriminate].
    intros [= <-]. rewrite (IH _ _ _ Ra Ex), (IH _ _ _ Rb Ey). auto.
Qed.
Lemma pathsNumber_fun k n v c c' : pathsNumber k n v c -> pathsNumber k n v c' -> c = c'.
Proof.
  intros (l & N & H & <-) (l' & N' & H' & <-). f_equal. apply Nat.le_antisymm; apply NoDup_incl_length; auto; intros ph Hp; [apply H', H|apply H, H']; auto.
Qed.
(** a <=> (b <=> c): the second count of a shared node starts from a number that was added to *)
Theorem C32_path_count_refuted : exists w n p x k', client false w /\ In (n, p) (w_R w) /\ ~ In QPathsOne (w_T w) /\ bddPathCountOne n (w_k w) = Ok x k' /\ ~ pathsNumber (w_k w) n true x /\ pathsNumber (w_k w) n true 4.
Proof.
  destruct (btest_ok h3 3 11 (fun H => [OCompile (nthf 6 H)])
    (fun w => match w_R w with (n, p) :: _ => match bddPathCountOne n (w_k w) with Ok x _ => match pathsb 9 (w_k w) true n, w_T w with Some c, [] => (c =? 4) && negb (x =? 4) | _, _ => false end | _ => false end | _ => false end)) as (w & Cl & T); [lia|lia|vm_compute; reflexivity|].
  unmatch T. apply andb_true_iff in T as [T4 T]. apply Z.eqb_eq in T4. subst. apply negb_true_iff, Z.eqb_neq in T. rename z into n, b into p, a into x, k into k'. exists w, n, p, x, k'. split; auto. assert (I : In (n, p) (w_R w)) by head. split; auto. split; [match goal with E : w_T w = [] |- _ => rewrite E; auto end|]. split; auto.
  destruct (client_parts _ _ Cl) as (_ & _ & _ & _ & _ & F & _). destruct (F _ _ I) as [(t & R & _) _]. cbn in R. assert (P4 : pathsNumber (w_k w) n true 4).
  { match goal with E : pathsb 9 _ _ _ = Some _ |- _ => rewrite (pathsb_ok _ _ _ _ _ _ R E) end. apply Rep_paths; auto. }
  split; auto. intros P. apply T. exact (pathsNumber_fun _ _ _ _ _ P P4).
Qed.
(** The result a | b of restricting c to true in a | b & c is not protected from the garbage collector:
    compiling two further formulas reuses its node. *)
Theorem C34_restrict_result_refuted : exists w n p ls ns z k1 w' a, client false w /\ In (n, p) (w_R w) /\ lits_named (w_s w) ls ns /\ consistentLits ns /\ hasRoom (w_s w) (w_k w) (map fst ns) /\
  bddRestrict n ls (w_k w) = Ok z k1 /\ bsteps (World (w_s w) (w_H w) (w_X w) k1 (w_R w) (w_T w)) w' /\ follows (w_s w) k1 a z false /\ follows (w_s w') (w_k w') a z true.
Proof.
  destruct (btest_ok h3 3 12 (fun H => [OCompile (nthf 4 H)])
    (fun w => match w_R w with (n, p) :: _ => match posLit (w_s w) "c" with Some l => match bddRestrict n [l] (w_k w) with
       | Ok z k1 => match bexec (w_s w) [OCompile (nthf 0 (w_H w)); OCompile (nthf 3 (w_H w))] (k1, w_R w, w_T w) with
         | Some (k2, R2, T2) => match walkb 9 k1 (vof (w_s w) (fun _ => false)) z with Some false => match walkb 9 k2 (vof (w_s w) (fun _ => false)) z with Some true =>
             if named2 (w_s w) [l] [("c", true)] then hasRoomb (w_s w) (w_k w) ["c"] else false | _ => false end | _ => false end
         | None => false end
       | _ => false end | None => false end | _ => false end)%string) as (w & Cl & T); [lia|lia|vm_compute; reflexivity|].
  unmatch T. match goal with E : bddRestrict ?n ?ls _ = Ok ?z ?k1, E2 : bexec _ _ _ = Some (?k2, ?R2, ?T2) |- _ => exists w, n, b, ls, [("c", true)]%string, z, k1, (World (w_s w) (w_H w) (w_X w) k2 R2 T2), (fun _ => false) end.
  split; auto. assert (I : In (z, b) (w_R w)) by head. split; auto. assert (Hl : lits_named (w_s w) [f] [("c", true)]%string) by (apply named2_ok; auto). split; auto. assert (Hr : hasRoom (w_s w) (w_k w) ["c"%string]) by (apply hasRoomb_ok; auto).
  split; [intros x [Ha Hb]; cbn in Ha, Hb; destruct Hb as [Hb|[]]; congruence|]. split; auto. split; auto. split; [|split; eapply walkb_ok; eauto].
  match goal with E : w_R w = _ |- _ => rewrite E; eapply bexec_ok; [rewrite <- E|eassumption] end. pose proof (client_inv _ _ Cl) as Iv. destruct w as [ws wH wX wk wR wT]. apply (step_inv _ _ Iv). eapply (bs_restrict ws wH wX wk wR wT z b [f] [("c", true)]%string); eauto.
Qed.
(** enumerating a over a and the variable c that the kernel does not know lists {a} only *)
Theorem C35_enumeration_refuted : exists w n p vs xs ms s' k' nss, client false w /\ In (n, p) (w_R w) /\ lits_named (w_s w) vs (map (fun x => (x, true)) xs) /\
  bddModelEnumeration n vs (w_s w) (w_k w) = CRet ms s' k' /\ enumerates s' ms nss /\ ~ forall ns, In ns nss <-> exists a, p a = true /\ ns = map (fun x => (x, a x)) xs.
Proof.
  destruct (btest_ok h3 3 12 (fun H => [OCompile (nthf 10 H)])
    (fun w => match w_R w with (n, p) :: _ => match posLit (w_s w) "a", posLit (w_s w) "c" with Some l, Some m => match bddModelEnumeration n [l; m] (w_s w) (w_k w) with
       | CRet [ls] s' k' => if named2 s' ls [("a", true)] && named2 (w_s w) [l; m] [("a", true); ("c", true)] then p (fun _ => true) else false
       | _ => false end | _, _ => false end | _ => false end)%string) as (w & Cl & T); [lia|lia|vm_compute; reflexivity|].
  unmatch T. match goal with E : bddModelEnumeration ?n ?vs _ _ = CRet ?ms ?s' ?k', E2 : andb _ _ = true |- _ => apply andb_true_iff in E2 as [E2 E3]; exists w, n, b, vs, ["a"; "c"]%string, ms, s', k', [[("a", true)]]%string end.
  split; auto. split; [head|]. split; [apply named2_ok; auto|]. split; auto. split; [split; [constructor; [apply named2_ok; auto|constructor]|repeat constructor; intros []]|].
  intros A. assert (X : In [("a", true); ("c", true)]%string [[("a", true)]]%string) by (apply A; exists (fun _ => true); auto). destruct X as [X|[]]. discriminate.
Qed.
Definition h4 : list (list formula -> call) :=
  [fun _ => CVar "a"; fun _ => CVar "b"; fun _ => CVar "c"; fun _ => CVar "d"; fun H => CCC LE 2 [nthf 3 H; nthf 2 H; nthf 1 H; nthf 0 H]; fun H => CNot (nthf 0 H)]%string.
(** the encoding of a + b + c + d <= 2 needs more variables than the kernel made for a, b, c and d has *)
Theorem C29_constraint_panics_refuted : exists w f t m, client false w /\ In f (w_H w) /\ Reads (w_s w) f t /\ hasRoom (w_s w) (w_k w) ["a"; "b"; "c"; "d"]%string /\ (forall x, occurs x t -> In x ["a"; "b"; "c"; "d"]%string) /\
  compileHandler exCf (fun _ => true) m f (w_s w) (w_k w) = CPanic.
Proof.
  destruct (btest_ok h4 4 50 (fun _ => [])
    (fun w => match readf 5 (w_s w) (nthf 1 (w_H w)) with Some (TPBC _ _ _ [("a", true); ("b", true); ("c", true); ("d", true)] _) =>
      match compileHandler exCf (fun _ => true) 50 (nthf 1 (w_H w)) (w_s w) (w_k w) with CPanic => inb (nthf 1 (w_H w)) (w_H w) && hasRoomb (w_s w) (w_k w) ["a"; "b"; "c"; "d"] | _ => false end | _ => false end)%string) as (w & Cl & T); [lia|lia|vm_compute; reflexivity|].
  destruct (readf 5 (w_s w) (nthf 1 (w_H w))) as [t|] eqn:Er; [|discriminate]. destruct (compileHandler _ _ _ _ _ _) eqn:Ec; try solve [unmatch T].
  assert (To : forall x, occurs x t -> In x ["a"; "b"; "c"; "d"]%string) by (unmatch T; intros x [p Hx]; cbn in Hx |- *; intuition congruence).
  assert (T2 : inb (nthf 1 (w_H w)) (w_H w) && hasRoomb (w_s w) (w_k w) ["a"; "b"; "c"; "d"]%string = true) by (unmatch T; auto). apply andb_true_iff in T2 as [T2 T3].
  exists w, (nthf 1 (w_H w)), t, 50%nat. split; auto. split; [apply inb_ok; auto|]. split; [eapply readf_ok; eauto|]. split; [apply hasRoomb_ok; auto|]. split; auto.
Qed.
(** the BDD of !(a + b + c + d <= 2) on a large kernel is true for an assignment with a alone *)
Theorem C29_negated_constraint_refuted : exists w f t m z s' k' a, client false w /\ In f (w_H w) /\ Reads (w_s w) f t /\
  compileHandler exCf (fun _ => true) m f (w_s w) (w_k w) = CRet (Some z) s' k' /\ follows s' k' a z true /\ eval a t = false.
Proof.
  destruct (btest_ok h4 30 1500 (fun _ => [])
    (fun w => match readf 5 (w_s w) (nthf 0 (w_H w)) with Some t =>
      match compileHandler exCf (fun _ => true) 50 (nthf 0 (w_H w)) (w_s w) (w_k w) with CRet (Some z) s' k' => match walkb 99 k' (vof s' (String.eqb "a")) z with Some true => inb (nthf 0 (w_H w)) (w_H w) && negb (eval (String.eqb "a") t) | _ => false end | _ => false end | _ => false end)%string)
    as (w & Cl & T); [lia|lia|vm_compute; reflexivity|].
  unmatch T. apply andb_true_iff in T as [T2 T3]. apply negb_true_iff in T3. match goal with E : readf _ _ _ = Some ?t, E2 : compileHandler _ _ _ _ _ _ = CRet (Some ?z) ?s ?k |- _ => exists w, (nthf 0 (w_H w)), t, 50%nat, z, s, k, (String.eqb "a") end.
  split; auto. split; [apply inb_ok; auto|]. split; [eapply readf_ok; eauto|]. split; auto. split; auto. eapply walkb_ok; eauto.
Qed.

(** ** The hypotheses are met: a client that holds a <=> (b <=> c), its negation and their conjunction *)
Example bdd_example : exists w n m z p q r, client false w /\ w_R w = [(z, r); (n, q); (m, p)] /\ w_T w = [QPathsZero] /\ p (fun _ => true) = true /\ q (fun _ => true) = false /\ isContradiction z = true /\
  kernelNames (w_s w) (w_k w) ["a"; "b"; "c"]%string /\ hasRoom (w_s w) (w_k w) ["b"; "d"]%string /\ models ["a"; "b"; "c"]%string p = 4.
Proof.
  destruct (btest_ok (h3 ++ [fun _ => CVar "d"%string]) 4 12 (fun H => [OCompile (nthf 7 H); ONegate 0; OBinary BoAnd 0 1; OCount QPathsZero 0])
    (fun w => match w_R w, w_T w with [(z, r); (n, q); (m, p)], [QPathsZero] => p (fun _ => true) && negb (q (fun _ => true)) && isContradiction z && kernelNamesb (w_s w) (vlist (w_k w)) ["a"; "b"; "c"] && hasRoomb (w_s w) (w_k w) ["b"; "d"] && (models ["a"; "b"; "c"] p =? 4)%Z | _, _ => false end)%string)
    as (w & Cl & T); [lia|lia|vm_compute; reflexivity|].
  unmatch T. repeat match type of T with andb _ _ = true => let T' := fresh "T" in apply andb_true_iff in T as [T T'] end. apply Z.eqb_eq in T0. apply negb_true_iff in T4.
  exists w, z0, z1, z, b1, b0, b. repeat (split; [solve [auto using hasRoomb_ok, kernelNamesb_ok]|]). auto.
Qed.
(** a & b has no sharing *)
Example unshared_example : exists w n p, client false w /\ In (n, p) (w_R w) /\ unshared (w_k w) n /\ 2 <= n /\ w_T w = [].
Proof.
  destruct (btest_ok h3 3 12 (fun H => [OCompile (nthf 5 H)])
    (fun w => match w_R w, w_T w with [(n, p)], [] => (2 <=? n) && (2 <=? highs (w_k w) n) && (lows (w_k w) n =? 0) && (highs (w_k w) (highs (w_k w) n) =? 1) && (lows (w_k w) (highs (w_k w) n) =? 0) && negb (n =? highs (w_k w) n) | _, _ => false end)) as (w & Cl & T); [lia|lia|vm_compute; reflexivity|].
  unmatch T. repeat match type of T with andb _ _ = true => let T' := fresh "T" in apply andb_true_iff in T as [T T'] end. rewrite negb_true_iff, ?Z.eqb_eq, ?Z.eqb_neq, ?Z.leb_le in *. exists w, z, b. split; auto. split; [head|]. split; [|auto].
  assert (W : forall q m, way (w_k w) z q m -> (q = [] /\ m = z) \/ (q = [true] /\ m = highs (w_k w) z)).
  { intros q m H. inversion H as [x Hx|x d q' m' Hx H']; subst; auto. destruct d; [|rewrite T3 in H'; inversion H'; lia]. right. inversion H' as [x Hx'|x d q2 m' Hx' H2]; subst; auto. destruct d; [rewrite T2 in H2|rewrite T1 in H2]; inversion H2; lia. }
  intros q q' m H1 H2. destruct (W _ _ H1) as [[-> E]|[-> E]], (W _ _ H2) as [[-> E']|[-> E']]; auto; elim T0; congruence.
Qed.

Print Assumptions C29_bdds_denote_their_functions.
Print Assumptions C29_compile.
Print Assumptions C29_negate.
Print Assumptions C29_binary.
Print Assumptions C30_canonical.
Print Assumptions C30_constants.
Print Assumptions C31_model_count_partial.
Print Assumptions C31_model_count_refuted.
Print Assumptions C32_path_count_partial.
Print Assumptions C32_path_count_refuted.
Print Assumptions C33_restrict.
Print Assumptions C33_quantify.
Print Assumptions C34_bdds_stay_valid.
Print Assumptions C34_restrict_result_refuted.
Print Assumptions C35_formulas.
Print Assumptions C35_enumeration_partial.
Print Assumptions C35_enumeration_refuted.
Print Assumptions C29_constraint_panics_refuted.
Print Assumptions C29_negated_constraint_refuted.
