(** * C65: quantifier elimination *)
From Coq Require Import String Ascii List Bool ZArith NArith Lia.
From Verif Require Import Spec Factory FactoryProofs FactoryProofs2 FactoryProofs3 FactoryApi FactoryProps Assign NormalForm NfBase NfAssign NfSubst AssignProps Qe.
Import ListNotations.

(** ** Specification *)
(** [b'] differs from [b] at most on the variables [xs] *)
Definition agreeOutside (xs : list string) (b b' : asg) : Prop := forall x, ~ In x xs -> b' x = b x.

(** ** One variable *)
Definition put (x : string) (v : bool) (b : asg) : asg := over (amap [(x, v)]) b.
Lemma put_is x v b y : put x v b y = if String.eqb y x then v else b y.
Proof.
  unfold put, over, amap. cbn. rewrite !orb_false_r. destruct (lit_eqb_spec (y, true) (x, v)) as [E|E]; [inversion E; subst; rewrite String.eqb_refl; auto|].
  destruct (lit_eqb_spec (y, false) (x, v)) as [E'|E']; [inversion E'; subst; rewrite String.eqb_refl; auto|].
  destruct (String.eqb_spec y x) as [->|Hn]; auto. destruct v; congruence.
Qed.
Lemma amap_single x v y : amap [(x, v)] y = None -> y <> x.
Proof. intros E ->. apply (proj1 (amap_none _ _) E v). left. auto. Qed.
Lemma rp_single l x p s : wf s -> litDen s l (x, p) -> rp (fun _ => single l) s (fun a s' => asnIs s' a [(x, p)]).
Proof.
  intros Hw D. assert (F : Forall2 (litDen s) [l] [(x, p)]) by (constructor; [auto|constructor]). pose proof (newAssignment_spec s [l] [(x, p)] Hw F) as N. unfold single. destruct (newAssignment [l]) as [a|] eqn:E.
  - apply (rp_ext (fun _ => ret a)); [intros _; reflexivity|]. apply rp_ret; auto. exists [l]. auto.
  - elim N. intros y [[A|[]] [B|[]]]. congruence.
Qed.
Lemma rp_negateVar v x s : wf s -> litDen s v (x, true) -> rp (fun _ => up (negateVar v)) s (fun r s' => litDen s' r (x, false)).
Proof.
  intros Hw D. assert (E : negateVar v s = negateLit v s).
  { unfold negateVar, negateLit. pose proof Hw as [W T]. unfold litDen in D. simpl in D. pose proof (litpos s v x true Hw D) as Hp. apply node_lit in D; auto. unfold VarName, LitNamePhase. rewrite D. reflexivity. }
  apply (rp_ext (fun _ => up (negateLit v))); [intros _; unfold up; rewrite E; reflexivity|]. apply (rp_negateLit v x true s Hw D).
Qed.
Definition joinOf (e : bool) : list formula -> state -> formula * state := if e then Or else And.
Lemma rp_join e a c t1 t2 s : wf s -> Den s a t1 -> Den s c t2 -> rp (fun _ => up (joinOf e [a; c])) s (fun g s' => exists u, Den s' g u /\
  (forall b, eval b u = e <-> eval b t1 = e \/ eval b t2 = e) /\ (forall x, occurs x u -> occurs x t1 \/ occurs x t2)).
Proof.
  intros Hw D1 D2. assert (F : Forall2 (Den s) [a; c] [t1; t2]) by (constructor; [auto|constructor; [auto|constructor]]). destruct e; cbn [joinOf].
  - eapply rp_conseq; [apply (rp_or _ _ s Hw F)|]. intros g s' _ (u & D & E & Sh). exists u. split; auto. split.
    + intros b. rewrite (E b). cbn [eval existsb]. rewrite orb_false_r. apply orb_true_iff.
    + intros x O. destruct (or_shape_occurs x _ _ Sh O) as (t & [<-|[<-|[]]] & Ot); auto.
  - eapply rp_conseq; [apply (rp_and _ _ s Hw F)|]. intros g s' _ (u & D & E & Sh). exists u. split; auto. split.
    + intros b. rewrite (E b). cbn [eval forallb]. rewrite andb_true_r. apply andb_false_iff.
    + intros x O. destruct (and_shape_occurs x _ _ Sh O) as (t & [<-|[<-|[]]] & Ot); auto.
Qed.
Lemma expand_ok e f t v x s : wf s -> Den s f t -> litDen s v (x, true) -> rp (fun n => expand n (joinOf e) f v) s (fun g s' => exists u, Den s' g u /\
  (forall b, eval b u = e <-> exists w, eval (put x w b) t = e) /\ (forall y, occurs y u -> occurs y t /\ y <> x)).
Proof.
  intros Hw D Dv. unfold expand. eapply (rp_bind (fun _ => single v)); [apply (rp_single v x true); auto|]. cbv beta. intros pos s1 P1 A1. pose proof (pstep_wf _ _ P1) as W1. pose proof (pstep_ext _ _ P1) as X1.
  eapply (rp_bind (fun _ => up (negateVar v))); [apply (rp_negateVar v x); auto; apply X1; auto|]. intros nv s2 P2 Dn. pose proof (pstep_wf _ _ P2) as W2. pose proof (pstep_ext _ _ P2) as X2.
  eapply (rp_bind (fun _ => single nv)); [apply (rp_single nv x false); auto|]. cbv beta. intros neg s3 P3 A3. pose proof (pstep_wf _ _ P3) as W3. pose proof (pstep_ext _ _ P3) as X3.
  eapply (rp_bind (fun n => restrict n pos f)); [apply (restrict_ok pos [(x, true)] t); eauto 6 using asnIs_ext, ext_Den|]. intros a s4 P4 (u1 & D1 & E1 & O1). pose proof (pstep_wf _ _ P4) as W4. pose proof (pstep_ext _ _ P4) as X4.
  eapply (rp_bind (fun n => restrict n neg f)); [apply (restrict_ok neg [(x, false)] t); eauto 7 using asnIs_ext, ext_Den|]. intros c s5 P5 (u2 & D2 & E2 & O2). pose proof (pstep_wf _ _ P5) as W5. pose proof (pstep_ext _ _ P5) as X5.
  eapply rp_conseq; [apply (rp_join e a c u1 u2); eauto using ext_Den|]. intros g s6 _ (u & Du & Eu & Ou). exists u. split; auto. split.
  - intros b. rewrite Eu, E1, E2. fold (put x true b) (put x false b). split; [intros [Q|Q]; eauto|intros [[|] Q]; auto].
  - intros y Oy. destruct (Ou y Oy) as [Q|Q]; [destruct (O1 y Q) as [? Q']|destruct (O2 y Q) as [? Q']]; split; auto; eapply amap_single; eauto.
Qed.
Lemma eliminate_ok e vs xs : forall f t s, wf s -> Den s f t -> Forall2 (litDen s) vs (map (fun x => (x, true)) xs) -> rp (fun n => eliminate n (joinOf e) f vs) s (fun g s' => exists u, Den s' g u /\
  (forall b, eval b u = e <-> exists b', agreeOutside xs b b' /\ eval b' t = e) /\ (forall y, occurs y u -> occurs y t /\ ~ In y xs)).
Proof.
  revert xs. induction vs as [|v vs IH]; intros xs f t s Hw D F.
  - destruct xs; inversion F. cbn [eliminate]. apply rp_ret; auto. exists t. split; auto. split; [|auto]. intros b. split; [intros E; exists b; split; auto; intros x _; auto|].
    intros (b' & A & E). rewrite <- E. apply eval_agree. intros x _. symmetry. apply A. auto.
  - destruct xs as [|x xs]; inversion F as [|? ? ? ? Dv F']; subst. cbn [eliminate]. eapply (rp_bind (fun n => expand n (joinOf e) f v)); [apply (expand_ok e f t v x); auto|].
    intros g s1 P1 (u1 & D1 & E1 & O1). eapply rp_conseq; [apply (IH xs g u1 s1); [eapply pstep_wf; eauto|auto|eapply litDen_ext; [eapply pstep_ext; eauto|auto]]|].
    intros h s2 _ (u & Du & E & O). exists u. split; auto. split.
    + intros b. rewrite E. split.
      * intros (b' & A & Q). apply E1 in Q as (w & Q). exists (put x w b'). split; auto. intros y Hy. rewrite put_is. destruct (String.eqb_spec y x) as [->|Hn]; [elim Hy; left; auto|]. apply A. intros J. apply Hy. right. auto.
      * intros (b' & A & Q). exists (fun y => if String.eqb y x then b y else b' y). split.
        { intros y Hy. destruct (String.eqb_spec y x) as [->|Hn]; auto. apply A. intros [->|J]; auto. }
        apply E1. exists (b' x). rewrite <- Q. apply eval_agree. intros y _. rewrite put_is. destruct (String.eqb_spec y x) as [->|Hn]; auto.
    + intros y Oy. destruct (O y Oy) as [Q1 Q2]. destruct (O1 y Q1) as [Q3 Q4]. split; auto. intros [J|J]; auto.
Qed.

(** C65: in every history, ExistentialQE returns a formula without the given variables which is true exactly where some values of these variables make the
    original true; the formulas of the factory stay as they are. *)
Theorem C65_existential : forall ok cv s H vs xs f t,
  history ok cv s H -> lits_named s vs (map (fun x => (x, true)) xs) -> Reads s f t ->
  exists g s' u, returns (fun n => existentialQE n f vs) s g s' /\ keeps s s' /\ Reads s' g u /\
    (forall b, eval b u = true <-> exists b', agreeOutside xs b b' /\ eval b' t = true) /\
    (forall x, occurs x u -> occurs x t /\ ~ In x xs).
Proof.
  intros ok cv s H vs xs f t Hh Hl Hr. destruct (history_held _ _ _ _ Hh) as [Hw _]. apply lits_named_den in Hl; auto. apply Reads_Den in Hr; auto.
  destruct (eliminate_ok true vs xs f t s Hw Hr Hl) as (n0 & g & s' & Hn & P & u & D & E & O). exists g, s', u. split; [exists n0; exact Hn|]. split; [apply pstep_keeps; auto|].
  split; [apply Reads_Den; auto; eapply pstep_wf; eauto|]. auto.
Qed.
(** UniversalQE: true exactly where all values of the variables make the original true. *)
Theorem C65_universal : forall ok cv s H vs xs f t,
  history ok cv s H -> lits_named s vs (map (fun x => (x, true)) xs) -> Reads s f t ->
  exists g s' u, returns (fun n => universalQE n f vs) s g s' /\ keeps s s' /\ Reads s' g u /\
    (forall b, eval b u = true <-> forall b', agreeOutside xs b b' -> eval b' t = true) /\
    (forall x, occurs x u -> occurs x t /\ ~ In x xs).
Proof.
  intros ok cv s H vs xs f t Hh Hl Hr. destruct (history_held _ _ _ _ Hh) as [Hw _]. apply lits_named_den in Hl; auto. apply Reads_Den in Hr; auto.
  destruct (eliminate_ok false vs xs f t s Hw Hr Hl) as (n0 & g & s' & Hn & P & u & D & E & O). exists g, s', u. split; [exists n0; exact Hn|]. split; [apply pstep_keeps; auto|].
  split; [apply Reads_Den; auto; eapply pstep_wf; eauto|]. split; auto. intros b. split.
  - intros Q b' A. destruct (eval b' t) eqn:Eb; auto. assert (eval b u = false) by (apply E; eauto). congruence.
  - intros Q. destruct (eval b u) eqn:Eb; auto. apply E in Eb as (b' & A & F). rewrite (Q b' A) in F. discriminate.
Qed.

(** ** Example: a | b and the variable a *)
Definition hQ : list (list formula -> FactoryApi.call) := [ (fun _ => CVar "a"); (fun _ => CVar "b"); (fun h => COr (firstn 2 h)) ]%string.
Example qe_example : exists s H f v, history anycall false s H /\ lits_named s [v] (map (fun x => (x, true)) ["a"]%string) /\ Reads s f (TOr [TLit ("b", true); TLit ("a", true)])%string /\
  match existentialQE 9 f [v] s, universalQE 9 f [v] s with Some (g, s'), Some (h, s2) => readf 9 s' g = Some TTrue /\ readf 9 s2 h = Some (TLit ("b", true)%string) | _, _ => False end.
Proof.
  exists (fst (world false hQ)), (snd (world false hQ)), (hd ffalse (snd (world false hQ))), (F SLit 3). split; [apply world_history; vm_compute; discriminate|].
  split; [constructor; [vm_compute; reflexivity|constructor]|]. split; [apply (readf_ok 5); vm_compute; reflexivity|]. vm_compute. auto.
Qed.

Print Assumptions C65_existential.
Print Assumptions C65_universal.
