(** * Properties C08, C09, C10, C18, and literal negation (C04)

    Every theorem starts from a state reached by any history of constructor calls with
    anything in the caches.  [b], [b'] are total truth assignments ([asg] in [Spec.v]). *)
From Coq Require Import String Ascii List Bool ZArith NArith Lia.
From Verif Require Import Spec Factory FactoryProofs FactoryProofs2 FactoryProofs3 FactoryApi FactoryProps Assign NormalForm NfBase NfAssign NfSubst.
Import ListNotations.
Local Open Scope N_scope.

(** [ls] are the literals named [ns] on factory [s] *)
Definition lits_named (s : state) (ls : list formula) (ns : list lit) : Prop :=
  Forall2 (fun l np => LiteralNamePhase l s = Some np) ls ns.
(** the total assignment [b] extends the partial assignment given by the literals [ns] *)
Definition extends (b : asg) (ns : list lit) : Prop := forall x p, In (x, p) ns -> b x = p.
(** every formula of [s] reads the same on [s'] *)
Definition keeps (s s' : state) : Prop := forall f t, Reads s f t -> Reads s' f t.
(** the operation [m] terminates, and with any sufficient recursion depth it returns [a]
    and leaves the factory in state [s'] *)
Definition returns {A} (m : nat -> M A) (s : state) (a : A) (s' : state) : Prop :=
  exists n0, forall n, (n0 <= n)%nat -> m n s = Some (a, s').

Lemma lits_named_den s ls ns : wf s -> lits_named s ls ns -> Forall2 (litDen s) ls ns.
Proof. intros Hw H. induction H; constructor; auto. apply LiteralNamePhase_node; auto. Qed.
Lemma pstep_keeps s s' : wf s -> pstep s s' -> keeps s s'.
Proof.
  intros Hw P f t Hr. pose proof (pstep_wf _ _ P) as Hw'. apply Reads_Den; auto. apply Reads_Den in Hr; auto.
  eapply ext_Den; eauto using pstep_ext.
Qed.
Lemma extends_over b ns : extends b ns -> forall x, over (amap ns) b x = b x.
Proof.
  intros H x. unfold over, amap. destruct (existsb (lit_eqb (x, true)) ns) eqn:E1; [|destruct (existsb (lit_eqb (x, false)) ns) eqn:E2]; auto.
  - apply existsb_lit in E1. symmetry. apply H; auto.
  - apply existsb_lit in E2. symmetry. apply H; auto.
Qed.
Lemma amap_none ns x : amap ns x = None <-> forall p, ~ In (x, p) ns.
Proof.
  unfold amap. destruct (existsb (lit_eqb (x, true)) ns) eqn:E1; [|destruct (existsb (lit_eqb (x, false)) ns) eqn:E2].
  - split; [discriminate|]. intros H. apply existsb_lit in E1. elim (H true); auto.
  - split; [discriminate|]. intros H. apply existsb_lit in E2. elim (H false); auto.
  - split; auto. intros _ p H. apply existsb_lit in H. destruct p; congruence.
Qed.

(** ** Assignments *)
(** assignment.New fails exactly when the literals contain a complementary pair. *)
Theorem C08_new : forall ok cv s H ls ns, history ok cv s H -> lits_named s ls ns ->
  (newAssignment ls = None <-> exists x, In (x, true) ns /\ In (x, false) ns).
Proof.
  intros ok cv s H ls ns Hh Hl. destruct (history_held _ _ _ _ Hh) as [Hw _]. apply lits_named_den in Hl; auto.
  pose proof (newAssignment_spec s ls ns Hw Hl) as HS. destruct (newAssignment ls).
  - split; [discriminate|]. intros (x & Hx). destruct HS as [_ C]. elim (C x); auto.
  - split; auto. intros _. clear -HS.
    assert (Hd : forall ks, (forall x, In x ks -> ~ (In (x, true) ns /\ In (x, false) ns)) \/ exists x, In (x, true) ns /\ In (x, false) ns).
    { induction ks as [|k ks [IH|IH]]; [left; intros x []| |right; exact IH].
      destruct (existsb (lit_eqb (k, true)) ns) eqn:E1, (existsb (lit_eqb (k, false)) ns) eqn:E2.
      - right. exists k. rewrite !existsb_lit in *. auto.
      - left. intros x [<-|Hx]; auto. intros [_ Hy]. apply existsb_lit in Hy. congruence.
      - left. intros x [<-|Hx]; auto. intros [Hy _]. apply existsb_lit in Hy. congruence.
      - left. intros x [<-|Hx]; auto. intros [Hy _]. apply existsb_lit in Hy. congruence. }
    destruct (Hd (map fst ns)) as [Hx|Hx]; auto. elim HS. intros x [H1 H2]. apply (Hx x); auto. apply in_map_iff. exists (x, true); auto.
Qed.

(** ** C08 Evaluate *)
(** [b] is the assignment that maps exactly the positively assigned variables to true. *)
Theorem C08_evaluate : forall ok cv s H ls ns a f t b,
  history ok cv s H -> lits_named s ls ns -> newAssignment ls = Some a -> Reads s f t ->
  (forall x, b x = true <-> In (x, true) ns) ->
  exists n0, forall n, (n0 <= n)%nat -> evaluate n s a f = Some (eval b t).
Proof.
  intros ok cv s H ls ns a f t b Hh Hl Ha Hr Hb. destruct (history_held _ _ _ _ Hh) as [Hw _].
  apply lits_named_den in Hl; auto. apply Reads_Den in Hr; auto.
  destruct (evaluate_ok s a ns Hw (ex_intro _ ls (conj Ha Hl)) t f Hr) as [n0 Hn]. exists n0. intros n Hle.
  rewrite (Hn n Hle). f_equal. apply eval_agree. intros x _. unfold closed. specialize (Hb x). rewrite <- existsb_lit in Hb.
  destruct (existsb (lit_eqb (x, true)) ns), (b x); auto; [symmetry; apply Hb; auto|apply Hb; auto].
Qed.

(** Evaluate under an assignment of all variables of the formula: no default is used. *)
Theorem C08_evaluate_total : forall ok cv s H ls ns a f t b,
  history ok cv s H -> lits_named s ls ns -> newAssignment ls = Some a -> Reads s f t ->
  (forall x, occurs x t -> exists p, In (x, p) ns) -> extends b ns ->
  exists n0, forall n, (n0 <= n)%nat -> evaluate n s a f = Some (eval b t).
Proof.
  intros ok cv s H ls ns a f t b Hh Hl Ha Hr Hd Hb.
  destruct (C08_evaluate ok cv s H ls ns a f t (closed ns) Hh Hl Ha Hr) as [n0 Hn].
  { intros x. unfold closed. apply existsb_lit. }
  exists n0. intros n Hle. rewrite (Hn n Hle). f_equal. apply eval_agree. intros x Hx. destruct (Hd x Hx) as [p Hp].
  rewrite (Hb x p Hp). unfold closed. destruct p; [apply existsb_lit; auto|].
  destruct (existsb (lit_eqb (x, true)) ns) eqn:E; auto. apply existsb_lit in E. rewrite <- (Hb x true E). apply (Hb x false Hp).
Qed.

(** NegVars is documented to return the variables mapped to false, not the negative
    literals; it returns the negative literals. *)
Theorem C08_negVars_refuted : exists s H l a v, history anycall false s H /\ In l H /\
  LiteralNamePhase l s = Some ("x"%string, false) /\ newAssignment [l] = Some a /\
  negVars a = [v] /\ LiteralNamePhase v s = Some ("x"%string, false).
Proof.
  exists (fst (world false [fun _ => CLit "x"%string false])), (snd (world false [fun _ => CLit "x"%string false])), (F SLit 2), (Asn [] [2]), (F SLit 2).
  split; [apply world_history; vm_compute; discriminate|]. split; [vm_compute; auto|]. repeat split.
Qed.

(** ** C09 Restrict *)
Theorem C09_restrict : forall ok cv s H ls ns a f t,
  history ok cv s H -> lits_named s ls ns -> newAssignment ls = Some a -> Reads s f t ->
  exists g s' u, returns (fun n => restrict n a f) s g s' /\ keeps s s' /\ Reads s' g u /\
    (forall b, extends b ns -> eval b u = eval b t) /\
    (forall x, occurs x u -> occurs x t /\ forall p, ~ In (x, p) ns).
Proof.
  intros ok cv s H ls ns a f t Hh Hl Ha Hr. destruct (history_held _ _ _ _ Hh) as [Hw _].
  apply lits_named_den in Hl; auto. apply Reads_Den in Hr; auto.
  destruct (restrict_ok a ns t s f Hw (ex_intro _ ls (conj Ha Hl)) Hr) as (n0 & g & s' & Hn & P & u & Hg & H1 & H2).
  exists g, s', u. split; [exists n0; auto|]. split; [apply pstep_keeps; auto|]. split; [apply Reads_Den; auto; eapply pstep_wf; eauto|].
  split.
  - intros b Hb. rewrite H1. apply eval_agree. intros x _. apply extends_over; auto.
  - intros x Hx. destruct (H2 x Hx) as [H3 H4]. split; auto. apply amap_none; auto.
Qed.

(** With all variables assigned the result is the constant of the truth value. *)
Theorem C09_restrict_total : forall ok cv s H ls ns a f t b,
  history ok cv s H -> lits_named s ls ns -> newAssignment ls = Some a -> Reads s f t ->
  (forall x, occurs x t -> exists p, In (x, p) ns) -> extends b ns ->
  exists s', returns (fun n => restrict n a f) s (Constant (eval b t)) s'.
Proof.
  intros ok cv s H ls ns a f t b Hh Hl Ha Hr Hd Hb. destruct (history_held _ _ _ _ Hh) as [Hw _].
  apply lits_named_den in Hl; auto. apply Reads_Den in Hr; auto.
  destruct (restrict_ok a ns t s f Hw (ex_intro _ ls (conj Ha Hl)) Hr) as (n0 & g & s' & Hn & P & u & Hg & HR).
  pose proof (pstep_wf _ _ P) as Hw'. pose proof (exact_const s' g true true _ _ _ Hw' Hg HR) as Hc. destruct Hc as [_ Hc].
  assert (Eu : u = K (eval (over (amap ns) b) t)).
  { apply Hc. intros x Hx E. destruct (Hd x Hx) as [p Hp]. apply (proj1 (amap_none ns x) E p Hp). }
  rewrite (eval_agree t _ b) in Eu by (intros; apply extends_over; auto).
  exists s', n0. intros n Hle. rewrite (Hn n Hle). do 2 f_equal. subst u.
  destruct (eval b t); eapply (Den_inj s'); eauto; simpl; [apply Den_true|apply Den_false].
Qed.

(** ** C10 EvaluatesToTrue, EvaluatesToFalse *)
(** [m] is a map from variables to truth values: no variable is listed twice. *)
Definition mapping_of (s : state) (m : mapping) (ns : list lit) : Prop :=
  Forall2 (fun e np => LiteralNamePhase (fst e) s = Some (fst np, true) /\ snd e = snd np) m ns /\ NoDup (map fst ns).
Lemma mapping_of_is s m ns : wf s -> mapping_of s m ns -> mapIs s m ns.
Proof. intros Hw [H D]. split; auto. eapply Forall2_impl; [|exact H]. simpl. intros e np [H1 ->]. split; auto. apply LiteralNamePhase_node; auto. Qed.

Theorem C10_constant : forall ok cv s H m ns f t (e : bool),
  history ok cv s H -> mapping_of s m ns -> Reads s f t ->
  exists r s', returns (fun n => (if e then evaluatesToTrue else evaluatesToFalse) n m f) s r s' /\ keeps s s' /\
    (r = true -> forall b, extends b ns -> eval b t = e) /\
    ((forall x, occurs x t -> exists p, In (x, p) ns) -> forall b, extends b ns -> eval b t = e -> r = true).
Proof.
  intros ok cv s H m ns f t e Hh Hm Hr. destruct (history_held _ _ _ _ Hh) as [Hw _].
  apply mapping_of_is in Hm; auto. apply Reads_Den in Hr; auto.
  destruct (testConst_ok e ns (tsize t) t (le_n _) m s f true Hw Hm Hr) as (n0 & g & s' & Hn & P & u & Hg & H1 & H2).
  exists (if e then isVerum g else isFalsum g), s'. split.
  { exists n0. intros n Hle. destruct e; unfold evaluatesToTrue, evaluatesToFalse, bind; rewrite (Hn n Hle); reflexivity. }
  split; [apply pstep_keeps; auto|]. pose proof (Den_sort _ _ _ Hg) as Hs. split.
  - intros Er b Hb. rewrite (eval_agree t b (over (amap ns) b)) by (intros; symmetry; apply extends_over; auto). apply H1.
    destruct e; unfold isVerum, isFalsum in Er; rewrite Hs in Er; destruct u; simpl in Er; try discriminate; try (destruct cc; discriminate); auto.
  - intros Hd b Hb Ee. specialize (H2 (fun x Hx E => match Hd x Hx with ex_intro _ p Hp => proj1 (amap_none ns x) E p Hp end) b).
    rewrite (eval_agree t _ b) in H2 by (intros; apply extends_over; auto). rewrite Ee in H2. subst u.
    destruct e; unfold isVerum, isFalsum; rewrite Hs; auto.
Qed.

(** ** C18 Substitute *)
(** [sb] maps the variables of the factory as [sg] maps their names. *)
Definition substitution_of (s : state) (sb : substitution) (sg : string -> option tree) : Prop :=
  forall v x, LiteralNamePhase v s = Some (x, true) ->
    match sb v with Some g => exists t, sg x = Some t /\ Reads s g t | None => sg x = None end.
(** some variable of a constraint in [t] is replaced by something else than a constant or literal *)
Fixpoint badConstraint (sg : string -> option tree) (t : tree) : Prop :=
  match t with
  | TFalse | TTrue | TLit _ => False
  | TNot t => badConstraint sg t
  | TAnd ts | TOr ts => (fix go ts := match ts with [] => False | t :: r => badConstraint sg t \/ go r end) ts
  | TImpl a b | TEquiv a b => badConstraint sg a \/ badConstraint sg b
  | TPBC _ _ _ ls _ => exists x p u, In (x, p) ls /\ sg x = Some u /\ u <> TTrue /\ u <> TFalse /\ forall l, u <> TLit l
  end.
Lemma bad_ok sg t : substitutable sg t = false <-> badConstraint sg t.
Proof.
  induction t using tree_ind'; simpl.
  - split; [discriminate|tauto].
  - split; [discriminate|tauto].
  - split; [discriminate|tauto].
  - auto.
  - induction H; simpl; [split; [discriminate|tauto]|]. rewrite andb_false_iff, H. tauto.
  - induction H; simpl; [split; [discriminate|tauto]|]. rewrite andb_false_iff, H. tauto.
  - rewrite andb_false_iff, IHt1, IHt2. tauto.
  - rewrite andb_false_iff, IHt1, IHt2. tauto.
  - unfold plainAll. induction ls as [|[x p] ls IH]; simpl.
    + split; [discriminate|]. intros (x & p & u & [] & _).
    + rewrite andb_false_iff, IH. split.
      * intros [Hp|(y & q & u & H1 & H2)]; [|exists y, q, u; auto].
        destruct (sg x) as [u|] eqn:E; [|discriminate]. exists x, p, u. split; auto. split; auto. split; [intros ->; discriminate|].
        split; [intros ->; discriminate|]. intros l ->; discriminate.
      * intros (y & q & u & [E|Hi] & H2 & H3 & H4 & H5); [|right; exists y, q, u; auto]. inversion E; subst. left. rewrite H2.
        destruct u; auto; [elim H4; auto|elim H3; auto|elim (H5 l); auto].
Qed.

Theorem C18_substitute : forall ok cv s H sb sg f t,
  history ok cv s H -> substitution_of s sb sg -> Reads s f t ->
  exists r s', returns (fun n => substitute n sb f) s r s' /\ keeps s s' /\
    (r = None <-> badConstraint sg t) /\
    forall g, r = Some g -> exists u, Reads s' g u /\
      forall b b', (forall x, b' x = match sg x with Some v => eval b v | None => b x end) -> eval b u = eval b' t.
Proof.
  intros ok cv s H sb sg f t Hh Hsb Hr. destruct (history_held _ _ _ _ Hh) as [Hw _]. apply Reads_Den in Hr; auto.
  assert (Hs : substIs s sb sg).
  { intros v x Hv. apply LiteralNamePhase_node in Hv; auto. specialize (Hsb v x Hv). destruct (sb v); auto.
    destruct Hsb as (u & H1 & H2). exists u. split; auto. apply Reads_Den; auto. }
  destruct (substitute_ok sb sg t s f Hw Hs Hr) as (n0 & r & s' & Hn & P & HQ). exists r, s'.
  split; [exists n0; auto|]. split; [apply pstep_keeps; auto|]. rewrite <- bad_ok. unfold substPost in HQ.
  destruct (substitutable sg t).
  - destruct HQ as (g & u & -> & Hg & He). split; [split; discriminate|]. intros g' E. inversion E; subst g'. exists u.
    split; [apply Reads_Den; auto; eapply pstep_wf; eauto|]. intros b b' Hb. rewrite He. apply eval_agree. intros x _. rewrite Hb. reflexivity.
  - subst r. split; [tauto|]. discriminate.
Qed.

(** ** C04 Literal.Negate, Variable.Negate, Literal.Variable *)
Theorem C04_literals : forall ok cv s H l x p, history ok cv s H -> LiteralNamePhase l s = Some (x, p) ->
  LiteralNamePhase (litVariable l) s = Some (x, true) /\
  (forall r s', negateLit l s = (r, s') -> keeps s s' /\ LiteralNamePhase r s' = Some (x, negb p) /\
     forall r2 s2, negateLit r s' = (r2, s2) -> r2 = l) /\
  (forall r s', p = true -> negateVar l s = (r, s') -> keeps s s' /\ LiteralNamePhase r s' = Some (x, false) /\
     forall r2 s2, negateLit r s' = (r2, s2) -> r2 = l).
Proof.
  intros ok cv s H l x p Hh Hl. destruct (history_held _ _ _ _ Hh) as [Hw _]. apply LiteralNamePhase_node in Hl; auto.
  assert (G : forall s l p r s', wf s -> litDen s l (x, p) -> negateLit l s = (r, s') -> pstep s s' /\ litDen s' r (x, negb p)).
  { clear. intros s l p r s' Hw Hl E. destruct (rp_negateLit l x p s Hw Hl) as (n0 & a & s1 & Hn & P & HQ).
    specialize (Hn n0 (le_n _)). unfold up in Hn. rewrite E in Hn. inversion Hn; subst; auto. }
  assert (G2 : forall s' r, pstep s s' -> litDen s' r (x, negb p) -> forall r2 s2, negateLit r s' = (r2, s2) -> r2 = l).
  { intros s' r P Hr r2 s2 E2. pose proof (pstep_wf _ _ P) as Hw'. destruct (G s' r (negb p) r2 s2 Hw' Hr E2) as [P2 H2].
    rewrite negb_involutive in H2. destruct (pstep_wf _ _ P2) as [W2 _]. apply (w_uniq s2 W2 _ _ (ShLit x p)); auto.
    apply (pstep_ext _ _ P2). apply (pstep_ext _ _ P). auto. }
  split; [apply LiteralNamePhase_node; auto; eapply litVariable_den; eauto|]. split.
  - intros r s' E. destruct (G s l p r s' Hw Hl E) as [P Hr]. split; [apply pstep_keeps; auto|].
    split; [apply LiteralNamePhase_node; auto; eapply pstep_wf; eauto|]. apply (G2 s' r P Hr).
  - intros r s' -> E. assert (E2 : negateVar l s = negateLit l s).
    { unfold negateVar, negateLit. pose proof Hw as [W T]. unfold litDen in Hl. simpl in Hl.
      pose proof (litpos s l x true Hw Hl) as Hp. apply node_lit in Hl; auto.
      unfold VarName, LitNamePhase. rewrite Hl. reflexivity. }
    rewrite E2 in E. destruct (G s l true r s' Hw Hl E) as [P Hr]. split; [apply pstep_keeps; auto|].
    split; [apply LiteralNamePhase_node; auto; eapply pstep_wf; eauto|]. apply (G2 s' r P Hr).
Qed.

(** ** The hypotheses are met by concrete cases *)
(** the history of [factory_example]; the assignment a = true, b unassigned; then the
    substitution of b by a *)
Example assign_example : exists s H f a,
  history anycall false s H /\ In f H /\ Reads s f tEx /\
  lits_named s [a] [("a", true)]%string /\ newAssignment [a] <> None /\
  mapping_of s [(a, true)] [("a", true)]%string /\
  match restrict 20 (Asn [fid a] []) f s with Some (r, s') => readf 9 s' r | None => None end = Some TTrue /\
  evaluate 9 s (Asn [fid a] []) f = Some true /\
  exists w, substitution_of s (fun v => if feqb v w then Some f else None) (fun x => if String.eqb x "b" then Some tEx else None)
    /\ option_map fst (substitute 9 (fun v => if feqb v w then Some f else None) f s) = Some None.
Proof.
  exists (fst (world false hEx)), (snd (world false hEx)), (hd ffalse (snd (world false hEx))), (F SLit 3).
  split; [apply world_history; vm_compute; discriminate|].
  split; [apply inb_in; vm_compute; reflexivity|]. split; [apply (readf_ok 5); vm_compute; reflexivity|].
  split; [constructor; [vm_compute; reflexivity|constructor]|]. split; [vm_compute; discriminate|].
  split; [split; [constructor; [split; vm_compute; reflexivity|constructor]|constructor; [intros []|constructor]]|].
  split; [vm_compute; reflexivity|]. split; [vm_compute; reflexivity|].
  exists (F SLit 5). split; [|vm_compute; reflexivity].
  assert (Hw : wf (fst (world false hEx))). { apply (history_held anycall false _ (snd (world false hEx))). apply world_history; vm_compute; discriminate. }
  intros v x Hv. destruct (feqb_spec v (F SLit 5)) as [->|Hne].
  - vm_compute in Hv. injection Hv as <-. exists tEx. split; [reflexivity|]. apply (readf_ok 5); vm_compute; reflexivity.
  - destruct (String.eqb_spec x "b"); [|reflexivity]. subst. elim Hne. apply LiteralNamePhase_node in Hv; [|exact Hw].
    assert (Hb : litDen (fst (world false hEx)) (F SLit 5) ("b", true)%string) by (apply LiteralNamePhase_node; [exact Hw|vm_compute; reflexivity]).
    destruct Hw as [W _]. exact (w_uniq _ W _ _ _ Hv Hb).
Qed.

Print Assumptions C08_new.
Print Assumptions C08_evaluate.
Print Assumptions C08_evaluate_total.
Print Assumptions C08_negVars_refuted.
Print Assumptions C09_restrict.
Print Assumptions C09_restrict_total.
Print Assumptions C10_constant.
Print Assumptions C18_substitute.
Print Assumptions C04_literals.
