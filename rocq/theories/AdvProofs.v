(** * Proofs about the advanced simplifier *)
From Coq Require Import String Ascii List Bool ZArith NArith Lia.
From Verif Require Import Spec Factory FactoryProofs FactoryProofs2 FactoryProofs3 FactoryApi FactoryProps Assign NormalForm NfBase NfAssign AssignProps NfEnc NfNnf NfCnf NfFun NfTseitin Simplify SimpBase SimpProofs SubsProofs BddPaths NfApi NfProps SimplifyProps PrimeSpec ExplainSpec Advanced AdvancedSpec.
From Verif Require Solver Mus Smus Primes SmusProps PrimeProps DimacsProps.
Import ListNotations.
Local Open Scope list_scope.

(** ** Reading formulas *)
Lemma sequence_full {A B} (g : nat -> A -> option B) (R : A -> B -> Prop) l r :
  (forall x y, In y r -> R x y -> exists n0, forall n, (n0 <= n)%nat -> g n x = Some y) -> Forall2 R l r ->
  exists n0, forall n, (n0 <= n)%nat -> sequence (map (g n) l) = Some r.
Proof.
  intros H F. induction F as [|x y l r Hxy F IH]; [exists 0%nat; auto|].
  destruct (H x y (or_introl eq_refl) Hxy) as (n1 & H1). destruct IH as (n2 & H2); [intros; apply H; auto; right; auto|].
  exists (n1 + n2)%nat. intros n Hn. cbn [map sequence]. rewrite H1, H2 by lia. auto.
Qed.
Ltac rw f := repeat match goal with
  | Q : srt f = _ |- context [srt f] => rewrite Q
  | Q : NotOperand f _ = _ |- _ => rewrite Q | Q : NaryOperands f _ = _ |- _ => rewrite Q
  | Q : BinaryLeftRight f _ = _ |- _ => rewrite Q | Q : PBCOps f _ = _ |- _ => rewrite Q end.
Lemma readf_full : forall t s f, Reads s f t -> exists n0, forall n, (n0 <= n)%nat -> readf n s f = Some t.
Proof.
  assert (S1 : forall (P : nat -> Prop) n0, (forall n, (n0 <= n)%nat -> P (S n)) -> exists m, forall n, (m <= n)%nat -> P n).
  { intros P n0 H. exists (S n0). intros [|n] Hn; [lia|]. apply H; lia. }
  induction t using tree_ind'; intros s f R; inversion R; subst.
  - exists 1%nat. intros [|n] Hn; [lia|]. reflexivity.
  - exists 1%nat. intros [|n] Hn; [lia|]. reflexivity.
  - exists 1%nat. intros [|n] Hn; [lia|]. cbn [readf]. match goal with Q : LiteralNamePhase f s = _ |- _ => assert (E : srt f = SLit) by (unfold LiteralNamePhase in Q; destruct (srt f); try discriminate; auto); rewrite E, Q; auto end.
  - match goal with Q : Reads _ _ t |- _ => destruct (IHt _ _ Q) as (n0 & H) end. apply (S1 (fun n => readf n s f = _) n0). intros n Hn. cbn [readf]. rw f. rewrite H; auto.
  - match goal with Q : Forall2 _ ?l ts |- _ => destruct (sequence_full (fun n => readf n s) (Reads s) l ts) as (n0 & Hn0); auto end.
    { intros x y Iy Rx. rewrite Forall_forall in H. apply H; auto. }
    apply (S1 (fun n => readf n s f = _) n0). intros n Hn. cbn [readf]. rw f. rewrite Hn0; auto.
  - match goal with Q : Forall2 _ ?l ts |- _ => destruct (sequence_full (fun n => readf n s) (Reads s) l ts) as (n0 & Hn0); auto end.
    { intros x y Iy Rx. rewrite Forall_forall in H. apply H; auto. }
    apply (S1 (fun n => readf n s f = _) n0). intros n Hn. cbn [readf]. rw f. rewrite Hn0; auto.
  - match goal with Q1 : Reads _ _ t1, Q2 : Reads _ _ t2 |- _ => destruct (IHt1 _ _ Q1) as (n1 & A), (IHt2 _ _ Q2) as (n2 & B) end. apply (S1 (fun n => readf n s f = _) (n1 + n2)%nat). intros n Hn. cbn [readf]. rw f. rewrite A, B by lia. auto.
  - match goal with Q1 : Reads _ _ t1, Q2 : Reads _ _ t2 |- _ => destruct (IHt1 _ _ Q1) as (n1 & A), (IHt2 _ _ Q2) as (n2 & B) end. apply (S1 (fun n => readf n s f = _) (n1 + n2)%nat). intros n Hn. cbn [readf]. rw f. rewrite A, B by lia. auto.
  - exists 1%nat. intros [|n] Hn; [lia|]. cbn [readf].
    assert (Q : sequence (map (fun l => LiteralNamePhase l s) (p_lits p)) = Some ls). { match goal with F : Forall2 _ (p_lits p) ls |- _ => clear - F; induction F as [|x y l r E F IH]; auto; cbn; rewrite E, IH; auto end. }
    assert (E : srt f = SCC \/ srt f = SPBC). { match goal with Q : PBCOps f s = _ |- _ => unfold PBCOps in Q; destruct (srt f); try discriminate; auto end. }
    destruct E as [E|E]; rewrite E; rw f; rewrite Q; auto.
Qed.
Lemma wp_readM s V f t : winv s V -> Den s f t -> wp (fun n => readM n f) s V (fun u s' V' => u = t /\ s' = s /\ V' = V).
Proof.
  intros I D. destruct (readf_full t s f (winv_Reads s V f t I D)) as (n0 & H). exists n0, t, s, V. split; [|split; [auto|split; [apply wext_refl|auto]]].
  intros n Hn. unfold readM. rewrite H; auto.
Qed.
Lemma varsOf_occurs : forall t x, In x (Solver.varsOf t) <-> occurs x t.
Proof.
  assert (L : forall ts, Forall (fun t => forall x, In x (Solver.varsOf t) <-> occurs x t) ts -> forall x, In x (flat_map Solver.varsOf ts) <-> exists t, In t ts /\ occurs x t).
  { intros ts H x. rewrite in_flat_map. rewrite Forall_forall in H. split; intros (t & J & O); exists t; split; auto; apply H; auto. }
  induction t using tree_ind'; intros x; cbn [Solver.varsOf].
  - cbn; tauto. - cbn; tauto. - cbn; tauto. - apply IHt.
  - rewrite L; auto. symmetry. apply occurs_and.
  - rewrite L; auto. symmetry. apply occurs_or.
  - rewrite in_app_iff, IHt1, IHt2. cbn. tauto.
  - rewrite in_app_iff, IHt1, IHt2. cbn. tauto.
  - cbn [occurs]. rewrite in_map_iff. split; [intros ([y p] & <- & J); eauto|intros (p & J); exists (x, p); auto].
Qed.

(** ** Restrict keeps formulas free of constraints *)
Lemma neg_free t u : is_neg_of t u -> pbfree t = true -> pbfree u = true.
Proof. intros H. apply narrow2_free, neg_narrow2; auto. Qed.
Lemma restrict_free a ns : forall t s f, wf s -> asnIs s a ns -> Den s f t -> pbfree t = true ->
  rp (fun n => restrict n a f) s (fun g s' => exists u, Den s' g u /\ pbfree u = true).
Proof.
  assert (N : forall ts s l, Forall (fun t => forall s f, wf s -> asnIs s a ns -> Den s f t -> pbfree t = true ->
      rp (fun n => restrict n a f) s (fun g s' => exists u, Den s' g u /\ pbfree u = true)) ts -> wf s -> asnIs s a ns -> Forall2 (Den s) l ts -> forallb pbfree ts = true ->
      rp (fun n => mapM (restrict n a) l) s (fun gs s' => exists us, Forall2 (Den s') gs us /\ forallb pbfree us = true)).
  { intros ts s l IH Hw Ha D Hp. eapply rp_conseq; [apply (rp_mapM (fun n => restrict n a) (fun s f t => Den s f t /\ asnIs s a ns) (fun s g t => exists u, Den s g u /\ pbfree u = true)) with (cs := ts)|].
    - intros s1 s2 P a0 c (H1 & H2). apply pstep_ext in P. split; eauto using ext_Den, asnIs_ext.
    - intros s1 s2 P a0 c (u & H1 & H2). apply pstep_ext in P. exists u. split; eauto using ext_Den.
    - intros a0 c Hin Hc s1 P (H1 & H2). rewrite Forall_forall in IH. apply (IH c Hc s1 a0); auto; [eapply pstep_wf; eauto|]. rewrite forallb_forall in Hp. auto.
    - auto.
    - eapply Forall2_impl; [|exact D]. simpl. auto.
    - cbv beta. intros gs s1 P F. clear - F. induction F as [|g t gs ts (u & Du & Hu) F IH]; [exists []; auto|]. destruct IH as (us & A & B). exists (u :: us). cbn. rewrite Hu, B. auto. }
  induction t using tree_ind'; intros s f Hw Ha Hd Hp; pose proof (Den_sort _ _ _ Hd) as Hs; apply rp_S; cbn [restrict]; rewrite Hs.
  - apply rp_ret; auto. exists TFalse. auto.
  - apply rp_ret; auto. exists TTrue. auto.
  - destruct l as [n p]. pose proof (Den_litt_inv _ _ _ Hd) as Hl. apply rp_ret; auto. rewrite (restrictLit_ok s a ns f n p Hw Ha Hl).
    destruct (amap ns n) as [v|]; [|exists (TLit (n, p)); auto].
    exists (if Bool.eqb p v then TTrue else TFalse). split; destruct (Bool.eqb p v); auto using Den_true, Den_false.
  - apply rp_get. eapply rp_bind; [apply IHt; eauto; apply opNot_den; auto|]. intros g s1 P1 (u & Hg & Hu).
    eapply rp_conseq; [apply (rp_not g u); [eapply pstep_wf; eauto|auto]|]. intros r s2 P2 (w & Hr & Hn). exists w. split; auto. eapply neg_free; eauto.
  - apply rp_get. eapply rp_bind; [apply (N ts); eauto; apply (opNary_and s f ts Hw Hd)|]. intros nops s1 P1 (us & Hus & Hf).
    rewrite naryOp_and. eapply rp_conseq; [apply (rp_and nops us); [eapply pstep_wf; eauto|auto]|]. intros r s2 P2 (w & Hw2 & _ & Hsh). exists w. split; auto. apply (and_shape_closed pbfree us w pbfree_A Hsh Hf).
  - apply rp_get. eapply rp_bind; [apply (N ts); eauto; apply (opNary_or s f ts Hw Hd)|]. intros nops s1 P1 (us & Hus & Hf).
    rewrite naryOp_or. eapply rp_conseq; [apply (rp_or nops us); [eapply pstep_wf; eauto|auto]|]. intros r s2 P2 (w & Hw2 & _ & Hsh). exists w. split; auto. apply (or_shape_closed pbfree us w pbfree_O Hsh Hf).
  - cbn in Hp. apply andb_true_iff in Hp as [Hp1 Hp2]. apply rp_get. destruct (opBin_impl s f t1 t2 Hw Hd) as [D1 D2].
    eapply rp_bind; [apply IHt1; eauto|]. intros l s1 P1 (u1 & Hl & Hu1).
    eapply rp_bind; [apply IHt2; [eapply pstep_wf; eauto|eapply asnIs_ext; eauto using pstep_ext|eauto using ext_Den, pstep_ext|auto]|].
    intros r s2 P2 (u2 & Hr & Hu2).
    rewrite binOp_impl. eapply rp_conseq; [apply (rp_impl l r u1 u2); [eapply pstep_wf; eauto|eauto using ext_Den, pstep_ext|auto]|].
    intros g s3 P3 (w & Hg & _ & Hsh). exists w. split; auto. destruct Hsh as [->|[->|[Hn| ->]]]; auto; [eapply neg_free; eauto|cbn; rewrite Hu1, Hu2; auto].
  - cbn in Hp. apply andb_true_iff in Hp as [Hp1 Hp2]. apply rp_get. destruct (opBin_equiv s f t1 t2 Hw Hd) as [D1 D2].
    eapply rp_bind; [apply IHt1; eauto|]. intros l s1 P1 (u1 & Hl & Hu1).
    eapply rp_bind; [apply IHt2; [eapply pstep_wf; eauto|eapply asnIs_ext; eauto using pstep_ext|eauto using ext_Den, pstep_ext|auto]|].
    intros r s2 P2 (u2 & Hr & Hu2).
    rewrite binOp_equiv. eapply rp_conseq; [apply (rp_equiv l r u1 u2); [eapply pstep_wf; eauto|eauto using ext_Den, pstep_ext|auto]|].
    intros g s3 P3 (w & Hg & _ & Hsh). exists w. split; auto. destruct Hsh as [->|[->|[->|[->|[Hn|[Hn| ->]]]]]]; auto; try (eapply neg_free; eauto; fail). cbn; rewrite Hu1, Hu2; auto.
  - discriminate.
Qed.
Lemma rp_both {A} (m : nat -> M A) s P Q : rp m s P -> rp m s Q -> rp m s (fun a s' => P a s' /\ Q a s').
Proof.
  intros (n1 & a & s1 & H1 & S1 & P1) (n2 & b & s2 & H2 & S2 & Q2). exists (n1 + n2)%nat, a, s1. split; [intros n Hn; apply H1; lia|]. split; auto. split; auto.
  specialize (H1 (n1 + n2)%nat ltac:(lia)). specialize (H2 (n1 + n2)%nat ltac:(lia)). rewrite H1 in H2. injection H2 as <- <-. auto.
Qed.
Lemma restrict_full a ns t s V f : winv s V -> asnIs s a ns -> Den s f t ->
  wp (fun n => restrict n a f) s V (fun g s' V' => exists u, Den s' g u /\ restricted (amap ns) t u /\ narrow2 u t).
Proof.
  intros I Ha D. pose proof (v_wf _ _ I) as Hw. destruct (pbfree t) eqn:Hp.
  - eapply wp_conseq; [apply rp_wp; [exact I|apply rp_both; [apply (restrict_ok a ns t s f Hw Ha D)|apply (restrict_free a ns t s f Hw Ha D Hp)]]|].
    cbv beta. intros g s' V' _ _ (_ & (u & Du & R) & (u' & Du' & F)). rewrite (Den_fun _ _ _ _ Du' Du) in F. exists u. split; auto. split; auto. apply narrow2_of; auto. intros x Hx. apply (proj2 R x Hx).
  - eapply wp_conseq; [apply rp_wp; [exact I|apply (restrict_ok a ns t s f Hw Ha D)]|].
    cbv beta. intros g s' V' _ _ (_ & (u & Du & R)). exists u. split; auto. split; auto. apply narrow2_of; [intros x Hx; apply (proj2 R x Hx)|congruence].
Qed.

(** ** Clauses and terms *)
Definition nots (I : list lit) : list lit := map (fun l => (fst l, negb (snd l))) I.
Lemma eval_nots b l : eval_lit b (fst l, negb (snd l)) = negb (eval_lit b l).
Proof. unfold eval_lit. cbn. destruct (snd l), (b (fst l)); auto. Qed.
Lemma flatO_lits ns : flatO (map TLit ns) = map TLit ns.
Proof. induction ns as [|n ns IH]; auto. cbn. f_equal. exact IH. Qed.
Lemma or_lits_flat ns c : or_shape (map TLit ns) c -> flatOr c = true.
Proof.
  unfold or_shape. rewrite flatO_lits. intros [->|[->|[[J _]|(us & -> & J & _)]]]; auto.
  - apply in_map_iff in J as (l & <- & _). auto.
  - cbn. apply forallb_forall. intros u Hu. apply J, in_map_iff in Hu as (l & <- & _). auto.
Qed.
Definition nmd (s : state) (x : string) : Prop := exists l p, litDen s l (x, p).
Lemma nmd_ext s V s' V' x : wext s V s' V' -> nmd s x -> nmd s' x.
Proof. intros X (l & p & D). exists l, p. eapply wext_litDen; eauto. Qed.
Lemma Den_nmd : forall t s f x, wf s -> Den s f t -> occurs x t -> nmd s x.
Proof.
  intros t s f x Hw D O. pose proof (Den_names s f t Hw D x O) as Nx. unfold names in Nx. destruct (posLit s x) as [v|] eqn:E; [|congruence].
  exists v, true. apply node_lit; [apply Hw|]. apply (c_pos s (proj2 Hw)). auto.
Qed.
Lemma wp_lits s V (ns : list lit) : winv s V -> (forall l, In l ns -> nmd s (fst l)) ->
  wp (fun _ => mapM (fun l => up (Lit (fst l) (negb (snd l)))) ns) s V (fun ls s' V' => Forall2 (litDen s') ls (nots ns)).
Proof.
  intros I Nm. eapply wp_conseq; [apply (wp_mapM (fun _ (p : lit) => up (Lit (fst p) (negb (snd p)))) (fun s p q => p = q /\ nmd s (fst p)) (fun s V l q => litDen s l (fst q, negb (snd q)))) with (cs := ns)|].
  - intros s1 V1 s2 V2 X a q [-> J]. split; auto. eapply nmd_ext; eauto.
  - intros s1 V1 s2 V2 X a q D. eapply wext_litDen; eauto.
  - intros p q Ip Iq s1 V1 I1 X1 [-> (l & b & D)]. eapply wp_conseq; [apply rp_wp; [exact I1|apply (rp_lit (fst q) (negb (snd q)) s1); [apply I1|]]|].
    + apply (lit_name s1 l (fst q, b)); [apply I1|exact D].
    + cbv beta. intros a s2 V2 I2 X2 (_ & D2). exact D2.
  - exact I.
  - clear - Nm. induction ns as [|p l IH]; constructor; auto. split; auto. apply Nm; left; auto. apply IH. intros q J. apply Nm. right; auto.
  - cbv beta. intros ls s1 V1 I1 X1 F. clear - F. unfold nots. induction F; constructor; auto.
Qed.
Lemma lits_Den s ls ns : Forall2 (litDen s) ls ns -> Forall2 (Den s) ls (map TLit ns).
Proof. induction 1; constructor; auto. apply litDen_Den; auto. Qed.

(** the clause of the negated literals *)
Definition clauseOf (I : list lit) (c : tree) : Prop :=
  equiv c (TOr (map TLit (nots I))) /\ flatOr c = true /\ (forall k, lit_occurs k c -> In k (nots I)) /\ (c <> TTrue -> forall k, In k (nots I) -> lit_occurs k c).
Lemma ops_lits c k : flatOr c = true -> lit_occurs k c <-> In (TLit k) (opsOf SOr c).
Proof.
  intros Fc. destruct c; try discriminate; cbn [lit_occurs opsOf].
  - cbn; tauto. - cbn; tauto.
  - cbn. split; [intros ->; auto|intros [E|[]]; injection E; auto].
  - rewrite lit_occurs_list. cbn in Fc. rewrite forallb_forall in Fc. split.
    + intros (t & J & O). specialize (Fc t J). destruct t; try discriminate. cbn in O. subst. auto.
    + intros J. exists (TLit k). split; auto. reflexivity.
Qed.
Lemma negateTerm_ok s V I : winv s V -> (forall l, In l I -> nmd s (fst l)) ->
  wp (fun _ => negateTerm I) s V (fun g s' V' => exists c, Den s' g c /\ clauseOf I c).
Proof.
  intros W Nm. unfold negateTerm. eapply wp_bind; [apply wp_lits; auto|]. cbv beta. intros ls s1 V1 I1 X1 F. apply lits_Den in F.
  eapply wp_conseq; [apply (wp_nary SOr s1 V1 ls _ (or_intror eq_refl) I1 F)|]. cbv beta. intros r s2 V2 _ _ (_ & c & D & Eq & _ & (R1 & R2 & _) & Sh).
  cbn [flatT] in R1, R2. rewrite flatO_lits in R1, R2. pose proof (or_lits_flat _ _ Sh) as Fl.
  exists c. split; auto. split; auto. split; auto. split.
  - intros k O. apply (ops_lits c k Fl), R1, in_map_iff in O as (l & E & J). injection E as ->. auto.
  - intros N k J. apply (ops_lits c k Fl). destruct R2 as [R2|R2]; [cbn in R2; congruence|]. destruct (R2 (TLit k)) as [E|E]; [apply in_map; auto|discriminate E|auto].
Qed.
Lemma flat_occurs c l : flatOr c = true -> lit_occurs l c -> occurs (fst l) c.
Proof.
  intros Hc O. destruct c; try discriminate; try destruct O; [cbn in *; subst; auto|]. apply lit_occurs_list in O as (y & Iy & Oy). apply occurs_or. exists y. split; auto. cbn in Hc. rewrite forallb_forall in Hc. specialize (Hc y Iy). destruct y; try discriminate. cbn in *. subst; auto.
Qed.
Lemma flat_lits c b ns : flatOr c = true -> c <> TTrue -> (forall n, In n ns <-> lit_occurs n c) -> existsb (eval_lit b) ns = eval b c.
Proof.
  intros Hc Nt H. destruct c; try discriminate; try congruence.
  - destruct ns as [|n ns]; auto. destruct (proj1 (H n) (or_introl eq_refl)).
  - apply DimacsProps.clause_lits; auto.
  - apply DimacsProps.clause_lits; auto.
Qed.

(** the term of the negated literals of a clause *)
Definition termish (t : tree) : Prop := exists ks, t = match ks with [] => TTrue | [l] => TLit l | _ => TAnd (map TLit ks) end.
Definition termOf (c m : tree) : Prop := equiv m (TNot c) /\ exists ks, m = match ks with [] => TTrue | [l] => TLit l | _ => TAnd (map TLit ks) end /\ forall k, In k ks <-> lit_occurs (fst k, negb (snd k)) c.
Lemma eval_and_lits b ks : eval b (TAnd (map TLit ks)) = forallb (eval_lit b) ks.
Proof. cbn. induction ks; cbn; auto. rewrite IHks. auto. Qed.
Lemma eval_or_lits b ks : eval b (TOr (map TLit ks)) = existsb (eval_lit b) ks.
Proof. cbn. induction ks; cbn; auto. rewrite IHks. auto. Qed.
Lemma forallb_nots b ns : forallb (eval_lit b) (nots ns) = negb (existsb (eval_lit b) ns).
Proof. induction ns as [|n ns IH]; auto. unfold nots in *. cbn [map forallb existsb]. rewrite eval_nots, IH, negb_orb. auto. Qed.
Lemma negateClause_ok s V f c : winv s V -> Den s f c -> flatOr c = true -> c <> TTrue ->
  wp (fun n => negateClause n f) s V (fun g s' V' => exists m, Den s' g m /\ termOf c m).
Proof.
  intros I D Fc Nt. unfold negateClause. eapply wp_bind; [apply (atomSet_ok true c s V f I D)|]. cbv beta. intros ls s1 V1 I1 X1 (ns & F & Nd & Hn).
  assert (exists ns', Forall2 (litDen s1) (content ls) ns' /\ forall n, In n ns' <-> lit_occurs n c) as (ns' & F' & Hn').
  { assert (K : forall l, (forall g, In g l -> In g ls) -> exists ns', Forall2 (litDen s1) l ns').
    { clear - F. induction l as [|g l IH]; intros H; [exists []; auto|]. destruct IH as (ms & G); [intros; apply H; right; auto|]. destruct (Forall2_in_ll _ _ _ F g (H g (or_introl eq_refl))) as (n & _ & Dn). exists (n :: ms). auto. }
    destruct (K (content ls)) as (ns' & F'); [intros g; apply content_in|]. exists ns'. split; auto. pose proof (v_wf _ _ I1) as W1. intros n. rewrite <- Hn. split; intros J.
    - destruct (Forall2_in_rr _ _ _ F' _ J) as (z & Hz & Dz). apply (proj1 (content_in ls z)) in Hz. apply (litDens_in s1 ls ns W1 F z n Dz). auto.
    - destruct (Forall2_in_rr _ _ _ F _ J) as (z & Hz & Dz). apply (litDens_in s1 _ ns' W1 F' z n Dz). apply (proj2 (content_in ls z)). auto. }
  eapply wp_bind.
  { apply (wp_mapM (fun _ l => up (negateLit l)) (fun s l q => litDen s l q) (fun s V l q => litDen s l (fst q, negb (snd q)))) with (cs := ns'); auto.
    - intros t1 W1 t2 W2 X a q Da. eapply wext_litDen; eauto.
    - intros t1 W1 t2 W2 X a q Da. eapply wext_litDen; eauto.
    - intros a q _ _ t2 W2 J2 X2 Da. destruct q as [y p]. apply wp_up_last. destruct (negateLit a t2) as [r t3] eqn:E. destruct (winv_negateLit _ _ _ _ _ _ _ J2 Da E) as (I3 & X3 & D3). eapply wp_up; [exact E|exact X3|]. apply wp_ret; auto. }
  cbv beta. intros ms s2 V2 I2 X2 G. assert (G' : Forall2 (litDen s2) ms (nots ns')). { clear - G. unfold nots. induction G; constructor; auto. }
  apply wp_up_last. destruct (Minterm ms s2) as [r s3] eqn:E. destruct (winv_minterm _ _ _ _ _ _ I2 G' E) as (I3 & X3 & m & Dm & Eq & Hm). eapply wp_up; [exact E|exact X3|]. apply wp_ret; auto.
  exists m. split; auto. split.
  - intros b. rewrite Eq, eval_and_lits, forallb_nots, (flat_lits c b ns' Fc Nt Hn'). auto.
  - exists (nots ns'). split; auto. intros [y p]. cbn [fst snd]. rewrite <- Hn'. unfold nots. rewrite in_map_iff. split.
    + intros ([z q] & E1 & J). injection E1 as <- <-. rewrite negb_involutive. auto.
    + intros J. exists (y, negb p). cbn. rewrite negb_involutive. auto.
Qed.

(** ** The smallest disjunction of prime implicants *)
Lemma termOf_termish c m : termOf c m -> termish m.
Proof. intros (_ & ks & E & _). exists ks. auto. Qed.
Lemma termish_flat us : Forall termish us -> flatO us = us.
Proof. induction 1 as [|m us (ks & ->) H IH]; auto. destruct ks as [|? [|? ?]]; cbn; f_equal; exact IH. Qed.
Lemma termish_cases m : termish m -> m = TTrue \/ is_term m = true.
Proof. intros ([|l [|l' ks]] & ->); auto. right. cbn. clear. induction ks; auto. Qed.
Lemma termish_dnf m : termish m -> is_dnf m = true /\ terms m = [m].
Proof. intros ([|l [|l' ks]] & ->); auto. split; auto. cbn. clear. induction ks; auto. Qed.
Lemma or_terms us u : Forall termish us -> or_shape us u -> nary_res SOr us u ->
  u = TTrue \/ (is_dnf u = true /\ incl (terms u) us /\ (length (terms u) <= length us)%nat).
Proof.
  intros T Sh (_ & _ & R3). unfold or_shape in Sh. rewrite (termish_flat us T) in Sh. destruct Sh as [->|[->|[[J _]|(ws & -> & J & _ & Inn)]]]; auto; right.
  - split; auto. split; [intros x []|cbn; lia].
  - rewrite Forall_forall in T. destruct (termish_dnf u (T u J)) as [A B]. split; auto. rewrite B. split; [intros x [<-|[]]; auto|]. destruct us; [destruct J|cbn; lia].
  - split; [|split; auto].
    + cbn. apply forallb_forall. intros w Hw. rewrite forallb_forall in Inn. rewrite Forall_forall in T. destruct (termish_cases w (T w (J w Hw))) as [->|E]; auto. discriminate (Inn _ Hw).
    + cbn [terms]. destruct R3 as [E|N]; [cbn in E; rewrite E; auto|]. cbn in N. apply (NoDup_incl_length N J).
Qed.
Lemma term_lits ks l : lit_occurs l match ks with [] => TTrue | [k] => TLit k | _ => TAnd (map TLit ks) end <-> In l ks.
Proof.
  destruct ks as [|k [|k' ks]]; [cbn; tauto|cbn; split; [intros ->; auto|intros [->|[]]; auto]|]. cbn [lit_occurs]. rewrite lit_occurs_list. split.
  - intros (t & J & O). apply in_map_iff in J as (m & <- & J). cbn in O. subst. auto.
  - intros J. exists (TLit l). split; [apply in_map; auto|reflexivity].
Qed.
Lemma nots_in k I : In k (nots I) <-> In (fst k, negb (snd k)) I.
Proof.
  unfold nots. rewrite in_map_iff. split.
  - intros ([y p] & <- & J). cbn. rewrite negb_involutive. auto.
  - intros J. exists (fst k, negb (snd k)). cbn. rewrite negb_involutive. destruct k; auto.
Qed.
Lemma clause_false I c b : clauseOf I c -> eval b c = false <-> allTrue b I.
Proof.
  intros (E & _). rewrite E, eval_or_lits. rewrite <- negb_true_iff. rewrite <- forallb_nots, forallb_forall. split.
  - intros H l J. assert (Q : In l (nots (nots I))). { apply nots_in. apply nots_in. cbn. rewrite negb_involutive. destruct l; auto. } apply H; auto.
  - intros H l J. apply (proj1 (nots_in _ _)) in J. apply (proj1 (nots_in _ _)) in J. cbn [fst snd] in J. rewrite negb_involutive in J. apply H. destruct l; auto.
Qed.
Lemma sublist_map {A B} (f : A -> B) l m : sublist l m -> sublist (map f l) (map f m).
Proof. induction 1; cbn; [apply sub_nil|apply sub_skip|apply sub_keep]; auto. Qed.
Lemma map_snd_combine {A B} (l : list A) (m : list B) : length l = length m -> map snd (combine l m) = m.
Proof. revert m. induction l as [|x l IH]; intros [|y m] E; try discriminate; auto. cbn. f_equal. apply IH. auto. Qed.
Lemma map_fst_combine {A B} (l : list A) (m : list B) : length l = length m -> map fst (combine l m) = l.
Proof. revert m. induction l as [|x l IH]; intros [|y m] E; try discriminate; auto. cbn. f_equal. apply IH. auto. Qed.
Lemma props_forms ts : map Mus.p_form (propsOf ts) = ts.
Proof. unfold propsOf. rewrite map_map. cbn. change (fun x => snd x) with (@snd nat tree). apply map_snd_combine. apply seq_length. Qed.
Lemma combine_seq_nth {A} (ts : list A) i t : forall k, In (i, t) (combine (seq k (length ts)) ts) -> (k <= i)%nat /\ nth_error ts (i - k) = Some t.
Proof.
  induction ts as [|x ts IH]; intros k J; [destruct J|]. cbn [length seq combine] in J. destruct J as [J|J].
  - injection J as -> ->. split; auto. rewrite Nat.sub_diag. auto.
  - apply IH in J as [L E]. split; [lia|]. destruct (i - k)%nat eqn:D; [lia|]. cbn. replace n with (i - S k)%nat by lia. auto.
Qed.
Lemma combine_seq_in {A} (ts : list A) i t : nth_error ts i = Some t -> forall k, In ((k + i)%nat, t) (combine (seq k (length ts)) ts).
Proof.
  revert i. induction ts as [|x ts IH]; intros [|i] E k; try discriminate; cbn [length seq combine].
  - injection E as ->. left. rewrite Nat.add_0_r. auto.
  - right. replace (k + S i)%nat with (S k + i)%nat by lia. apply IH; auto.
Qed.
Lemma Forall2_nth {A B} (R : A -> B -> Prop) l m i y : Forall2 R l m -> nth_error m i = Some y -> exists x, nth_error l i = Some x /\ R x y.
Proof. intros F. revert i. induction F; intros [|i] E; try discriminate; cbn in *; [injection E as ->; eauto|eauto]. Qed.
Lemma Forall2_nth_l {A B} (R : A -> B -> Prop) l m i x : Forall2 R l m -> nth_error l i = Some x -> exists y, nth_error m i = Some y /\ R x y.
Proof. intros F. revert i. induction F; intros [|i] E; try discriminate; cbn in *; [injection E as ->; eauto|eauto]. Qed.
Lemma formulas_den s gs ts R : Forall2 (Den s) gs ts -> sublist R (propsOf ts) -> Forall2 (Den s) (formulasOf gs R) (map Mus.p_form R).
Proof.
  intros F Sb. apply SmusProps.sublist_incl in Sb. unfold formulasOf. induction R as [|p R IH]; cbn; constructor; [|apply IH; intros q J; apply Sb; right; auto].
  specialize (Sb p (or_introl eq_refl)). unfold propsOf in Sb. apply in_map_iff in Sb as ([i t] & <- & J). cbn [Mus.p_id Mus.p_form fst snd]. apply combine_seq_nth in J as [_ J]. rewrite Nat.sub_0_r in J.
  destruct (Forall2_nth _ _ _ _ _ F J) as (g & E & D). rewrite (nth_error_nth _ _ ffalse E). auto.
Qed.

Definition coverClauses (t : tree) (imps : list (list lit)) : Prop :=
  (forall I, In I imps -> prime_implicant t I) /\ (forall b, eval b t = true <-> exists I, In I imps /\ allTrue b I) /\
  (forall ls, prime_implicant t ls -> exists I, In I imps /\ same_lits I ls).

(** a cover by prime implicants gives a subset of the clauses that is unsatisfiable with the formula *)
Lemma cover_sub t imps cs Is : coverClauses t imps -> Forall2 clauseOf imps cs -> (forall I, In I Is -> prime_implicant t I) ->
  (forall b, eval b t = true -> exists I, In I Is /\ allTrue b I) ->
  exists v, sublist v cs /\ ~ jointly_sat ([t] ++ v) /\ (length v <= length Is)%nat.
Proof.
  intros (_ & _ & Full) F P Cv.
  assert (exists S0, length S0 = length Is /\ forall I, In I Is -> exists i I', In i S0 /\ nth_error imps i = Some I' /\ same_lits I' I) as (S0 & LS & HS).
  { clear Cv. induction Is as [|I Is IH]; [exists []; split; auto; intros I []|]. destruct IH as (S0 & L & H); [intros; apply P; right; auto|].
    destruct (Full I (P I (or_introl eq_refl))) as (I' & J & Sm). apply In_nth_error in J as (i & E). exists (i :: S0). split; [cbn; auto|]. intros K [->|J]; [exists i, I'; cbn; auto|]. destruct (H K J) as (j & K' & Q1 & Q2). exists j, K'. cbn; auto. }
  set (keep := fun p : nat * tree => existsb (Nat.eqb (fst p)) S0). set (v := map snd (filter keep (combine (seq 0 (length cs)) cs))).
  exists v. split; [|split].
  - unfold v. rewrite <- (map_snd_combine (seq 0 (length cs)) cs) at 3 by apply seq_length. apply sublist_map, SmusProps.sublist_filter.
  - intros (b & H). assert (Et : eval b t = true) by (apply H; left; auto). destruct (Cv b Et) as (I & J & Al). destruct (HS I J) as (i & I' & Hi & E & Sm).
    destruct (Forall2_nth_l _ _ _ _ _ F E) as (c & Ec & Cl). assert (Ev : eval b c = false). { apply (clause_false I' c b Cl). intros l Hl. apply Al, Sm; auto. }
    rewrite (H c) in Ev; [discriminate|]. apply in_or_app. right. unfold v. apply in_map_iff. exists (i, c). split; auto. apply filter_In. split; [apply (combine_seq_in cs i c Ec 0)|]. unfold keep. apply existsb_exists. exists i. split; auto. apply Nat.eqb_refl.
  - unfold v. rewrite map_length, <- (map_length fst), <- LS. apply NoDup_incl_length.
    + apply (SmusProps.sublist_nodup _ (seq 0 (length cs))); [|apply seq_NoDup]. rewrite <- (map_fst_combine (seq 0 (length cs)) cs) at 2 by apply seq_length. apply sublist_map, SmusProps.sublist_filter.
    + intros i J. apply in_map_iff in J as ([j c] & <- & J). apply filter_In in J as [_ J]. unfold keep in J. apply existsb_exists in J as (k & Hk & E). apply Nat.eqb_eq in E. cbn in *. subst. auto.
Qed.
Definition DNFPost (E1 E2 : Solver.env) (t : tree) (r : advRes) (s' : state) : Prop :=
  match r with
  | AdvCancelled => ~ Solver.uncancelled E1 \/ ~ Solver.uncancelled E2
  | AdvOk d => exists u, Den s' d u /\ equiv t u /\ narrow2 u t /\ minDNF t u
  end.
Lemma clauses_den s gs imps : Forall2 (fun g I => exists c, Den s g c /\ clauseOf I c) gs imps -> exists cs, Forall2 (Den s) gs cs /\ Forall2 clauseOf imps cs.
Proof. induction 1 as [|g I gs imps (c & A & B) F (cs & C & D)]; [exists []; auto|]. exists (c :: cs). auto. Qed.
Lemma terms_den s gs cs : Forall2 (fun g c => exists m, Den s g m /\ termOf c m) gs cs -> exists us, Forall2 (Den s) gs us /\ Forall2 termOf cs us.
Proof. induction 1 as [|g I gs imps (c & A & B) F (us & C & D)]; [exists []; auto|]. exists (c :: us). auto. Qed.
Lemma eqs {A} (l m : list A) : Forall2 eq l m -> l = m.
Proof. induction 1; congruence. Qed.
Lemma eval_terms b rs us : Forall2 termOf rs us -> eval b (TOr us) = true <-> exists c, In c rs /\ eval b c = false.
Proof.
  intros F. cbn. rewrite existsb_exists. split.
  - intros (u & J & E). destruct (Forall2_in_rr _ _ _ F _ J) as (c & Jc & (Eq & _)). exists c. split; auto. rewrite Eq in E. cbn in E. apply negb_true_iff in E. auto.
  - intros (c & J & E). destruct (Forall2_in_ll _ _ _ F _ J) as (u & Ju & (Eq & _)). exists u. split; auto. rewrite Eq. cbn. rewrite E. auto.
Qed.
Lemma termish_free m : termish m -> pbfree m = true.
Proof. intros ([|l [|l' ks]] & ->); auto. cbn. clear. induction ks; auto. Qed.
Lemma termish_occurs m x : termish m -> occurs x m -> exists p, lit_occurs (x, p) m.
Proof.
  intros (ks & ->) O. destruct ks as [|[y p] [|k' ks]]; [destruct O|cbn in O; subst; exists p; reflexivity|].
  apply occurs_and in O as (t & J & O). pose proof J as J'. apply in_map_iff in J as ([y' q] & <- & J). cbn in O. subst. exists q. apply lit_occurs_list. exists (TLit (x, q)). split; [exact J'|reflexivity].
Qed.
Lemma taut_prime t : (forall b, eval b t = true) -> prime_implicant t [].
Proof. intros H. split; [exists (fun _ => true); intros l []|]. split; [intros b _; auto|]. intros [|x r] l c E; discriminate. Qed.
Lemma forallb_neg {A} (f : A -> bool) l : forallb f l = false -> exists c, In c l /\ f c = false.
Proof. induction l as [|x l IH]; cbn; [discriminate|]. destruct (f x) eqn:E; [intros H; destruct (IH H) as (c & J & Q); eauto|eauto]. Qed.

(** what the chosen clauses give *)
Lemma chosen_ok t imps cs rs us u : coverClauses t imps -> Forall2 clauseOf imps cs -> smallest_unsat [t] cs rs -> Forall2 termOf rs us ->
  equiv u (TOr us) -> or_shape us u -> nary_res SOr us u -> equiv t u /\ narrow2 u t /\ minDNF t u.
Proof.
  intros Cv F (Sb & Un & Mn) Ft Eu Sh Nr. pose proof Cv as (Pr & Co & Full). pose proof (SmusProps.sublist_incl _ _ Sb) as Inc.
  assert (Cl : forall c, In c rs -> exists I, In I imps /\ clauseOf I c). { intros c J. apply Inc in J. destruct (Forall2_in_rr _ _ _ F _ J) as (I & A & B). eauto. }
  assert (Te : Forall termish us). { apply Forall_forall. intros m J. destruct (Forall2_in_rr _ _ _ Ft _ J) as (c & _ & T). eapply termOf_termish; eauto. }
  assert (Eq : equiv t u).
  { intros b. apply eq_true_iff_eq. rewrite Eu, (eval_terms b rs us Ft). split.
    - intros Et. destruct (forallb (eval b) rs) eqn:Fb.
      + exfalso. apply Un. exists b. intros v [<-|J]; auto. rewrite forallb_forall in Fb. auto.
      + destruct (forallb_neg (eval b) rs Fb) as (c & J & E). eauto.
    - intros (c & J & E). destruct (Cl c J) as (I & JI & HI). apply Co. exists I. split; auto. apply (clause_false I c b HI). auto. }
  assert (LitI : forall m, In m us -> exists I, prime_implicant t I /\ forall l, lit_occurs l m <-> In l I).
  { intros m J. destruct (Forall2_in_rr _ _ _ Ft _ J) as (c & Jc & (_ & ks & -> & Hk)). destruct (Cl c Jc) as (I & JI & HI). exists I. split; [auto|].
    intros l. rewrite term_lits, Hk. destruct HI as (Ec & _ & L1 & L2).
    assert (Nt : c <> TTrue). { intros ->. destruct (Pr I JI) as ((b & Hb) & _). specialize (Ec b). rewrite eval_or_lits in Ec.
      symmetry in Ec. apply existsb_exists in Ec as (k & Jk & Ek). apply (proj1 (nots_in _ _)) in Jk. specialize (Hb _ Jk). rewrite eval_nots, Ek in Hb. discriminate. }
    split; intros O.
    - apply L1 in O. apply (proj1 (nots_in _ _)) in O. cbn [fst snd] in O. rewrite negb_involutive in O. destruct l; auto.
    - apply (L2 Nt). apply (proj2 (nots_in _ _)). cbn [fst snd]. rewrite negb_involutive. destruct l; auto. }
  split; auto.
  assert (Occ : narrow u t).
  { intros x O. destruct (or_shape_occurs x us u Sh O) as (m & J & Om). rewrite Forall_forall in Te. destruct (termish_occurs m x (Te m J) Om) as (p & Lp). destruct (LitI m J) as (I & PI & HI). apply HI in Lp.
    apply varsOf_occurs. apply (PrimeProps.prime_vars t I PI (x, p) Lp). }
  split.
  { apply narrow2_of; auto. intros _. apply (or_shape_closed pbfree us u pbfree_O Sh). apply forallb_forall. intros m J. rewrite Forall_forall in Te. apply termish_free; auto. }
  destruct (or_terms us u Te Sh Nr) as [->|(Dn & Tu & Ln)].
  - assert (Ta : forall b, eval b t = true) by (intros b; rewrite Eq; auto). split; auto. split.
    + intros c [<-|[]]. exists []. split; [apply taut_prime; auto|]. intros l. cbn. tauto.
    + intros Is _ Hc. destruct (Hc (fun _ => true) (Ta _)) as (I & J & _). destruct Is; [destruct J|cbn; lia].
  - split; auto. split; [intros c J; apply LitI; auto|]. intros Is HP Hc. destruct (cover_sub t imps cs Is Cv F HP Hc) as (v & Sv & Uv & Lv). specialize (Mn v Sv Uv).
    pose proof (Forall2_length _ _ _ Ft). lia.
Qed.

Lemma computeMinDNF_ok E1 E2 s V f t : Solver.env_ok E1 -> Solver.env_ok E2 -> winv s V -> Den s f t -> SmusProps.plain t ->
  wp (fun n => computeMinDNF n E1 E2 f) s V (fun r s' V' => DNFPost E1 E2 t r s').
Proof.
  intros O1 O2 I D Pl. unfold computeMinDNF. eapply wp_bind; [apply (wp_readM s V f t); auto|]. cbv beta. intros ? s1 V1 I1 X1 (-> & -> & ->).
  pose proof (PrimeProps.C43_primes E1 t Primes.CoverImplicants false O1) as HP.
  destruct (Primes.primes (Primes.primeFuel t) E1 t Primes.CoverImplicants false) as [imps ices| | |]; try contradiction; [|apply wp_ret; auto; cbn; auto].
  destruct HP as (Pr & _ & Co & _ & Full). assert (Cv : coverClauses t imps) by (split; auto).
  eapply wp_bind.
  { apply (wp_mapM (fun _ I => negateTerm I) (fun s I J => I = J /\ forall l, In l I -> nmd s (fst l)) (fun s V g I => exists c, Den s g c /\ clauseOf I c)) with (cs := imps); auto.
    - intros a1 b1 a2 b2 X K J [-> H]. split; auto. intros l Jl. eapply nmd_ext; eauto.
    - intros a1 b1 a2 b2 X g J (c & Dc & Hc). exists c. split; auto. eapply wext_Den; eauto.
    - intros K J _ _ a2 b2 Ia Xa [-> H]. apply negateTerm_ok; auto.
    - assert (K : forall K, In K imps -> forall l, In l K -> nmd s (fst l)). { intros K J l Jl. apply (Den_nmd t s f); [apply I|auto|]. apply varsOf_occurs. apply (PrimeProps.prime_vars t K (Pr K J) l Jl). }
      clear - K. induction imps as [|J imps IH]; constructor; [split; auto; apply K; left; auto|apply IH; intros; eapply K; [right|]; eauto]. }
  cbv beta. intros gs s1 V1 I1' X1' Fg. destruct (clauses_den _ _ _ Fg) as (cs & Dc & Hc).
  eapply wp_bind.
  { apply (wp_mapM (fun n g => readM n g) Den (fun s V (u : tree) c => u = c)) with (cs := cs); auto.
    - intros a1 b1 a2 b2 X g c Dg. eapply wext_Den; eauto.
    - intros g c _ _ a2 b2 Ia Xa Dg. eapply wp_conseq; [apply (wp_readM a2 b2 g c Ia Dg)|]. cbv beta. tauto. }
  cbv beta. intros ts s2 V2 I2 X2 Ft. apply eqs in Ft. subst ts.
  assert (PL : forall u, In u ([t] ++ map Mus.p_form (propsOf cs)) -> SmusProps.plain u).
  { intros u J. apply in_app_iff in J as [[<-|[]]|J]; auto. rewrite props_forms in J. destruct (Forall2_in_rr _ _ _ Hc _ J) as (K & JK & (_ & Fl & L1 & _)). intros x Jx. apply Pl.
    apply varsOf_occurs in Jx. assert (exists p, lit_occurs (x, p) u) as (p & Lp).
    { destruct u; try discriminate; [destruct Jx|destruct Jx|cbn in Jx; subst; destruct l as [y p]; exists p; reflexivity|]. apply occurs_or in Jx as (w & Jw & Ow). cbn in Fl. rewrite forallb_forall in Fl. specialize (Fl w Jw). destruct w as [| |[y p]| | | | | |]; try discriminate. cbn in Ow. subst. exists p. apply lit_occurs_list. exists (TLit (x, p)). split; auto. reflexivity. }
    apply L1 in Lp. apply (proj1 (nots_in _ _)) in Lp. apply (PrimeProps.prime_vars t K (Pr K JK) _ Lp). }
  pose proof (SmusProps.C42_smus E2 (propsOf cs) [t] O2 PL) as HS. rewrite props_forms in HS.
  destruct (Smus.smus (Smus.smusFuel (propsOf cs)) E2 (propsOf cs) [t]) as [|R| | |]; try contradiction.
  - exfalso. destruct HS as (b & Hb). assert (Et : eval b t = true) by (apply Hb; left; auto). apply Co in Et as (K & JK & Al). destruct (Forall2_in_ll _ _ _ Hc _ JK) as (c & Jc & Cl). apply (clause_false K c b Cl) in Al. rewrite (Hb c) in Al; [discriminate|]. apply in_or_app. auto.
  - destruct HS as (Sb & Sm & _). pose proof (formulas_den s2 gs cs R (wext_Dens _ _ _ _ _ _ X2 Dc) Sb) as Df. set (rs := map Mus.p_form R) in *.
    assert (Inc : incl rs cs). { destruct Sm as (S1 & _). apply (SmusProps.sublist_incl _ _ S1). }
    eapply wp_bind.
    { apply (wp_mapM (fun n g => negateClause n g) Den (fun s V g c => exists m, Den s g m /\ termOf c m)) with (cs := rs); auto.
      - intros a1 b1 a2 b2 X g c Dg. eapply wext_Den; eauto.
      - intros a1 b1 a2 b2 X g J (c & Dc' & Hc'). exists c. split; auto. eapply wext_Den; eauto.
      - intros g c _ Jc a2 b2 Ia Xa Dg. destruct (Forall2_in_rr _ _ _ Hc _ (Inc c Jc)) as (K & JK & (Ec & Fl & _)). apply negateClause_ok; auto.
        intros ->. destruct (Pr K JK) as ((b & Hb) & _). specialize (Ec b). rewrite eval_or_lits in Ec. symmetry in Ec. apply existsb_exists in Ec as (k & Jk & Ek). apply (proj1 (nots_in _ _)) in Jk. specialize (Hb _ Jk). rewrite eval_nots, Ek in Hb. discriminate. }
    cbv beta. intros ms s3 V3 I3 X3 Fm. destruct (terms_den _ _ _ Fm) as (us & Du & Hu).
    eapply wp_bind; [apply (wp_nary SOr s3 V3 ms us (or_intror eq_refl) I3 Du)|]. cbv beta. intros d s4 V4 I4 X4 (-> & u & Dd & Eu & _ & Nr & Sh). apply wp_ret; auto.
    exists u. split; auto. apply (chosen_ok t imps cs rs us u); auto.
  - apply wp_ret; auto. cbn. auto.
Qed.

(** ** The simplifier *)
Lemma rating_ok cfg less f g s V : winv s V -> wp (fun _ => simplifyWithRating cfg less f g) s V (fun h s' V' => h = f \/ h = g).
Proof.
  intros I. unfold simplifyWithRating. destruct (ac_rate cfg); [|apply wp_ret; auto]. apply (wp_get (fun s => less s g f) (fun _ b => ret (if b then g else f))). apply wp_ret; auto. destruct (less s g f); auto.
Qed.
Definition same (t : tree) (g : formula) (s : state) : Prop := exists u, Den s g u /\ equiv t u /\ narrow2 u t.
Lemma same_ext t g s V s' V' : wext s V s' V' -> same t g s -> same t g s'.
Proof. intros X (u & D & H). exists u. split; auto. eapply wext_Den; eauto. Qed.
Lemma wp_rating cfg less f g s V (P : formula -> state -> Prop) : winv s V -> (forall h s' V', wext s V s' V' -> P h s -> P h s') -> P f s -> P g s ->
  wp (fun _ => simplifyWithRating cfg less f g) s V (fun h s' V' => P h s').
Proof. intros I X Pf Pg. eapply wp_conseq; [apply rating_ok; auto|]. cbv beta. intros h s' V' I' X' [-> | ->]; eapply X; eauto. Qed.
Lemma equiv_trans a b c : equiv a b -> equiv b c -> equiv a c.
Proof. intros A B x. rewrite A, B. auto. Qed.
Lemma narrow2_trans' a b c : narrow2 a b -> narrow2 b c -> narrow2 a c. Proof. unfold narrow2; auto. Qed.
Lemma mintermish_eq ns u : u = match ns with [] => TTrue | [l] => TLit l | _ => TAnd (map TLit ns) end -> termish u. Proof. intros ->. exists ns. auto. Qed.

Definition AdvPost (E1 E2 : Solver.env) (t : tree) (r : advRes) (s' : state) : Prop :=
  match r with
  | AdvCancelled => ~ Solver.uncancelled E1 \/ ~ Solver.uncancelled E2
  | AdvOk g => exists u, Den s' g u /\ equiv t u /\ narrow u t
  end.
Lemma with_backbone s V ls ns f t t1 : winv s V -> Forall2 (litDen s) ls ns -> (forall l, In l ns -> occurs (fst l) t) -> narrow2 t1 t ->
  (forall b, eval b t = forallb (eval_lit b) ns && eval b t1) -> same t1 f s ->
  wp (fun _ => m <- up (Minterm ls) ;; up (And [m; f])) s V (fun g s' V' => same t g s').
Proof.
  intros I F Oc N1 HB (u & Du & Eu & Nu). destruct (Minterm ls s) as [m s1] eqn:E. destruct (winv_minterm _ _ _ _ _ _ I F E) as (I1 & X1 & w & Dw & Eqw & Hw). eapply wp_up; [exact E|exact X1|].
  eapply wp_conseq; [apply (wp_nary2 SAnd s1 V [m; f] [w; u] (or_introl eq_refl) I1)|].
  { constructor; auto. constructor; auto. eapply wext_Den; eauto. }
  cbv beta. intros g s2 V2 _ _ (-> & x & Dx & Ex & Nx & _). exists x. split; auto. split.
  - intros b. rewrite Ex. cbn [mk]. cbn. rewrite andb_true_r. rewrite HB, Eqw, eval_and_lits, (Eu b). auto.
  - eapply narrow2_trans'; [exact Nx|]. intros y Oy. apply (occ2_mk SAnd y [w; u] (or_introl eq_refl)) in Oy as (z & [<-|[<-|[]]] & Oz); [|apply N1, Nu; auto].
    assert (T : termish w) by (eapply mintermish_eq; eauto). destruct y as [y|]; [|apply occ2_pbfree in Oz; rewrite (termish_free w T) in Oz; discriminate].
    apply occ2_occurs in Oz. destruct (termish_occurs w y T Oz) as (p & Lp). rewrite Hw in Lp. apply term_lits in Lp. apply occ2_occurs. apply (Oc _ Lp).
Qed.
Lemma advancedRest_ok len cf less cfg E1 E2 s V ls ns f t t1 : Solver.env_ok E1 -> Solver.env_ok E2 -> winv s V -> Den s f t1 -> SmusProps.plain t -> narrow2 t1 t ->
  Forall2 (litDen s) ls ns -> (forall l, In l ns -> occurs (fst l) t) ->
  (forall b, eval b t = (if ac_backbone cfg then forallb (eval_lit b) ns else true) && eval b t1) -> (ac_negations cfg = true -> pbfree t = true) ->
  wp (fun n => advancedRest len cf less cfg n E1 E2 ls f) s V (fun r s' V' => AdvPost E1 E2 t r s').
Proof.
  intros O1 O2 I D Pl N1 F Oc HB HN. unfold advancedRest.
  eapply wp_bind; [apply (computeMinDNF_ok E1 E2 s V f t1); auto|].
  { intros x Jx. apply Pl. apply varsOf_occurs. apply varsOf_occurs in Jx. apply (narrow2_narrow _ _ N1 x Jx). }
  cbv beta. intros [d|] s1 V1 I1 X1 HD; [|apply wp_ret; auto]. destruct HD as (u & Du & Eu & Nu & _).
  assert (Sd : same t1 d s1) by (exists u; auto).
  assert (Sf : same t1 f s1). { exists t1. split; [eapply wext_Den; eauto|]. split; [intros b; auto|intros x; auto]. }
  eapply wp_bind; [apply (wp_rating cfg less f d s1 V1 (same t1)); auto; intros; eapply same_ext; eauto|]. cbv beta. intros f2 s2 V2 I2 X2 S2.
  eapply (wp_bind _ _ _ _ (fun h s' V' => same t1 h s')).
  { destruct (ac_factor cfg); [|apply wp_ret; auto]. destruct S2 as (w & Dw & Ew & Nw). eapply wp_bind; [apply (factorOut_ok less w s2 V2 f2 I2 Dw)|]. cbv beta. intros g s3 V3 I3 X3 (w' & Dw' & Ew' & Nw' & _).
    apply (wp_rating cfg less f2 g s3 V3 (same t1)); auto; [intros; eapply same_ext; eauto| |].
    - exists w. split; [eapply wext_Den; eauto|]. auto.
    - exists w'. split; auto. split; [eapply equiv_trans; eauto|eapply narrow2_trans'; eauto]. }
  cbv beta. intros f3 s3 V3 I3 X3 S3.
  eapply (wp_bind _ _ _ _ (fun h s' V' => same t h s')).
  { destruct (ac_backbone cfg); [|apply wp_ret; auto].
    - apply (with_backbone s3 V3 ls ns f3 t t1); auto. eapply wext_litDens; [exact X3|]. eapply wext_litDens; [exact X2|]. eapply wext_litDens; [exact X1|auto].
    - destruct S3 as (w & Dw & Ew & Nw). exists w. split; auto. split; [|eapply narrow2_trans'; eauto]. intros b. rewrite HB. cbn. auto. }
  cbv beta. intros f4 s4 V4 I4 X4 S4.
  eapply (wp_bind _ _ _ _ (fun h s' V' => exists u, Den s' h u /\ equiv t u /\ narrow u t)).
  { assert (S4' : forall w, Den s4 f4 w -> equiv t w /\ narrow2 w t). { intros w Dw. destruct S4 as (w' & Dw' & H). rewrite (Den_fun _ _ _ _ Dw Dw'). auto. }
    destruct S4 as (w & Dw & Ew & Nw). destruct (ac_negations cfg); [|apply wp_ret; auto; exists w; split; auto; split; auto; apply narrow2_narrow; auto].
    assert (Pw : pbfree w = true) by (eapply narrow2_free; eauto).
    eapply wp_bind; [apply (minimizeNegations_ok len cf w s4 V4 f4 I4 Dw (pbfree_encodable cf w Pw))|]. cbv beta. intros g s5 V5 I5 X5 ((w' & Dw' & (_ & _ & R)) & _). destruct (R Pw) as [Ew' Nw'].
    apply (wp_rating cfg less f4 g s5 V5 (fun h s' => exists u, Den s' h u /\ equiv t u /\ narrow u t)); auto.
    - intros h s' V' X (z & Dz & Hz). exists z. split; auto. eapply wext_Den; eauto.
    - exists w. split; [eapply wext_Den; eauto|]. split; auto. apply narrow2_narrow; auto.
    - exists w'. split; auto. split; [eapply equiv_trans; eauto|]. intros x O. apply (narrow2_narrow _ _ Nw), Nw'; auto. }
  cbv beta. intros f5 s5 V5 I5 X5 S5. apply wp_ret; auto.
Qed.

Lemma completeBackbone_ok s V ps ns xs ys : winv s V -> Forall2 (litDen s) ps (map (fun x => (x, true)) xs) -> Forall2 (litDen s) ns (map (fun x => (x, true)) ys) ->
  wp (fun _ => completeBackbone ps ns) s V (fun ls s' V' => Forall2 (litDen s') ls (map (fun x => (x, true)) xs ++ map (fun x => (x, false)) ys)).
Proof.
  intros I Fp Fn. unfold completeBackbone. eapply wp_bind.
  { apply (wp_mapM (fun _ l => up (negateLit l)) (fun s l q => litDen s l (q, true)) (fun s V l q => litDen s l (q, false))) with (cs := ys); auto.
    - intros t1 W1 t2 W2 X a q Da. eapply wext_litDen; eauto.
    - intros t1 W1 t2 W2 X a q Da. eapply wext_litDen; eauto.
    - intros a q _ _ t2 W2 J2 X2 Da. apply wp_up_last. destruct (negateLit a t2) as [r t3] eqn:E. destruct (winv_negateLit _ _ _ _ _ _ _ J2 Da E) as (I3 & X3 & D3). eapply wp_up; [exact E|exact X3|]. apply wp_ret; auto.
    - clear - Fn. revert ns Fn. induction ys as [|y ys IH]; intros ns F; inversion F; subst; constructor; auto. }
  cbv beta. intros nls s1 V1 I1 X1 G. apply wp_ret; auto. apply Forall2_app; [eapply wext_litDens; eauto|]. clear - G. induction G; cbn; constructor; auto.
Qed.
Definition bbNames (xs ys : list string) : list lit := map (fun x => (x, true)) xs ++ map (fun x => (x, false)) ys.
Section Forced.
Variables (t : tree) (xs ys : list string).
Hypothesis Fx : forall x, In x xs -> forced t x true.
Hypothesis Fy : forall y, In y ys -> forced t y false.
Lemma bbNames_in x p : In (x, p) (bbNames xs ys) -> forced t x p.
Proof. intros J. apply in_app_iff in J as [J|J]; apply in_map_iff in J as (y & E & J); injection E as <- <-; auto. Qed.
Lemma bbNames_true b : eval b t = true -> forallb (eval_lit b) (bbNames xs ys) = true.
Proof. intros E. apply forallb_forall. intros [x p] J. apply bbNames_in in J as [_ H]. unfold eval_lit. cbn. rewrite (H b E). destruct p; auto. Qed.
Lemma bbNames_consistent : (exists b, eval b t = true) -> consistent (bbNames xs ys).
Proof. intros (b & E) x [A B]. apply bbNames_in in A as [_ A]. apply bbNames_in in B as [_ B]. specialize (A b E). specialize (B b E). congruence. Qed.
Lemma bb_eval t1 : (exists b, eval b t = true) -> restricted (amap (bbNames xs ys)) t t1 -> forall b, eval b t = forallb (eval_lit b) (bbNames xs ys) && eval b t1.
Proof.
  intros Sat (R & _) b.
  assert (Ov : forallb (eval_lit b) (bbNames xs ys) = true -> eval b t1 = eval b t).
  { intros H. rewrite R. apply Solver.eval_agree. intros x _. unfold over. destruct (amap (bbNames xs ys) x) as [v|] eqn:E; auto.
    pose proof (amap_inv _ (bbNames_consistent Sat) x v) as Q. rewrite E in Q. cbn in Q. rewrite Bool.eqb_reflx in Q. apply existsb_exists in Q as (l & J & El). destruct (lit_eqb_spec (x, v) l); [subst|discriminate].
    rewrite forallb_forall in H. specialize (H _ J). unfold eval_lit in H. cbn in H. destruct v, (b x); auto. }
  destruct (eval b t) eqn:E.
  - rewrite (bbNames_true b E), (Ov (bbNames_true b E)). auto.
  - destruct (forallb (eval_lit b) (bbNames xs ys)) eqn:H; auto. rewrite (Ov eq_refl). auto.
Qed.
End Forced.

Lemma reads_lits s V ps xs : winv s V -> Forall2 (fun v x => Reads s v (TLit (x, true))) ps xs -> Forall2 (litDen s) ps (map (fun x => (x, true)) xs).
Proof. intros I. induction 1; cbn; constructor; auto. apply Den_litt_inv. apply Reads_Den; auto. apply I. Qed.
Lemma newAssignment_some s ls ns : wf s -> Forall2 (litDen s) ls ns -> consistent ns -> exists a, newAssignment ls = Some a.
Proof. intros W F C. pose proof (newAssignment_spec s ls ns W F) as H. destruct (newAssignment ls); eauto. contradiction. Qed.
Lemma advanced_ok len cf less cfg start bb E1 E2 s V f t : Solver.env_ok E1 -> Solver.env_ok E2 -> winv s V -> Den s f t -> SmusProps.plain t -> bbRight s t bb -> (ac_negations cfg = true -> pbfree t = true) ->
  wp (fun n => advanced len cf less cfg n start bb E1 E2 f) s V (fun r s' V' =>
    AdvPost E1 E2 t r s' \/ (r = AdvCancelled /\ (start = false \/ (bb = BbCancelled /\ ac_backbone cfg = true)))).
Proof.
  intros O1 O2 I D Pl B HN. unfold advanced. destruct start; [|cbn; apply wp_ret; auto]. cbn [negb]. destruct (ac_backbone cfg) eqn:Eb.
  - destruct bb as [| |ps ns]; [apply wp_ret; auto| |].
    + apply wp_ret; auto. left. exists TFalse. split; [apply Den_false|]. split; [exact B|intros x []].
    + destruct B as (Sat & xs & ys & Rp & Rn & Hx & Hy).
      eapply wp_bind; [apply (completeBackbone_ok s V ps ns xs ys I); eapply reads_lits; eauto|]. cbv beta. intros ls s1 V1 I1 X1 F. fold (bbNames xs ys) in F.
      destruct (newAssignment_some s1 ls _ (v_wf _ _ I1) F (bbNames_consistent t xs ys Hx Hy Sat)) as (a & Ea). rewrite Ea.
      eapply wp_bind; [apply (restrict_full a (bbNames xs ys) t s1 V1 f I1); [exists ls; auto|eapply wext_Den; eauto]|]. cbv beta. intros g s2 V2 I2 X2 (t1 & Dg & Rt & Nt).
      eapply wp_conseq; [apply (advancedRest_ok len cf less cfg E1 E2 s2 V2 ls (bbNames xs ys) g t t1); auto|cbv beta; auto].
      * eapply wext_litDens; eauto.
      * intros [x p] J. apply (bbNames_in t xs ys Hx Hy) in J. apply J.
      * rewrite Eb. intros b. apply bb_eval; auto.
  - eapply wp_conseq; [apply (advancedRest_ok len cf less cfg E1 E2 s V [] [] f t t); auto|cbv beta; auto].
    + intros x; auto.
    + intros l [].
    + rewrite Eb. auto.
Qed.
Lemma qmc_ok len cf less bb E1 E2 s V f t : Solver.env_ok E1 -> Solver.env_ok E2 -> winv s V -> Den s f t -> SmusProps.plain t ->
  wp (fun n => advanced len cf less qmcAdv n true bb E1 E2 f) s V (fun r s' V' => DNFPost E1 E2 t r s').
Proof.
  intros O1 O2 I D Pl. unfold advanced, advancedRest. cbn [negb qmcAdv ac_backbone ac_factor ac_negations].
  eapply wp_bind; [apply (computeMinDNF_ok E1 E2 s V f t); auto|]. cbv beta. intros [d|] s1 V1 I1 X1 HD; [|apply wp_ret; auto].
  unfold simplifyWithRating. cbn [ac_rate]. apply (wp_bret d). apply (wp_bret d). apply (wp_bret d). apply (wp_bret d). apply wp_ret; auto.
Qed.
