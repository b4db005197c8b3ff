(** * Proofs about Substitute *)
From Coq Require Import String Ascii List Bool ZArith NArith Lia.
From Verif Require Import Spec Factory FactoryProofs FactoryProofs2 FactoryProofs3 FactoryApi FactoryProps Assign NormalForm NfBase NfAssign.
Import ListNotations.
Local Open Scope N_scope.

(** the assignment that first evaluates the substituted formulas *)
Definition through (sg : string -> option tree) (b : asg) : asg :=
  fun x => match sg x with Some t => eval b t | None => b x end.

(** in a constraint only constants and literals can be substituted *)
Definition plain (o : option tree) : bool :=
  match o with None | Some TTrue | Some TFalse | Some (TLit _) => true | _ => false end.
Definition plainAll (sg : string -> option tree) (ls : list lit) : bool := forallb (fun l : lit => plain (sg (fst l))) ls.
Fixpoint substitutable (sg : string -> option tree) (t : tree) : bool :=
  match t with
  | TFalse | TTrue | TLit _ => true
  | TNot t => substitutable sg t
  | TAnd ts | TOr ts => forallb (substitutable sg) ts
  | TImpl a b | TEquiv a b => substitutable sg a && substitutable sg b
  | TPBC _ _ _ ls _ => plainAll sg ls
  end.

(** [sb] maps the variables of the factory as [sg] says *)
Definition substIs (s : state) (sb : substitution) (sg : string -> option tree) : Prop :=
  forall v x, litDen s v (x, true) ->
    match sb v with Some g => exists t, sg x = Some t /\ Den s g t | None => sg x = None end.

Lemma names_var s x : wf s -> names s x -> exists v, litDen s v (x, true).
Proof.
  intros [W T] H. unfold names in H. destruct (posLit s x) as [v|] eqn:E; [|congruence].
  apply (c_pos s T) in E. exists v. apply node_lit; auto.
Qed.
Lemma substIs_pstep s s' sb sg : wf s -> pstep s s' -> substIs s sb sg -> substIs s' sb sg.
Proof.
  intros Hw P H v x Hv. pose proof (pstep_wf _ _ P) as Hw'. pose proof (pstep_ext _ _ P) as E.
  destruct P as (_ & _ & N). pose proof (lit_name s' v (x, true) Hw' Hv) as Hn. apply N in Hn.
  destruct (names_var s x Hw Hn) as (v0 & Hv0). assert (v0 = v) as ->.
  { destruct Hw' as [W' _]. apply (w_uniq s' W' _ _ (ShLit x true)); auto. apply E; auto. }
  specialize (H v x Hv0). destruct (sb v); auto. destruct H as (t & H1 & H2). exists t. split; eauto using ext_Den.
Qed.

Lemma substLoop_ok sb sg : forall ls ks cs s, wf s -> substIs s sb sg -> Forall2 (litDen s) ls ks -> length cs = length ls ->
  rp (fun _ => substLoop sb (combine ls cs)) s (fun r s' =>
    if plainAll sg ks then
      exists ls' ks' cs' fx, r = Some (ls', cs', fx) /\ Forall2 (litDen s') ls' ks' /\ length cs' = length ls' /\
        forall b, wsum (through sg b) ks cs = (wsum b ks' cs' + fx)%Z
    else r = None).
Proof.
  induction ls as [|l ls IH]; intros ks cs s Hw Hsb HF Hn; inversion HF; subst; destruct cs as [|c cs]; try discriminate.
  - simpl. apply rp_ret; auto. exists [], [], [], 0%Z. repeat split; auto.
  - destruct y as [x p]. cbn [combine substLoop]. change (plainAll sg ((x, p) :: l')) with (plain (sg x) && plainAll sg l').
    rename H1 into Hl. rename H3 into HF'. rename l' into ks.
    pose proof (Hsb _ x (litVariable_den s l x p Hw Hl)) as Hx.
    assert (EL : forall b, eval_lit (through sg b) (x, p) = match sg x with Some t => if p then eval b t else negb (eval b t) | None => eval_lit b (x, p) end).
    { intros b. unfold eval_lit, through; simpl. destruct (sg x); auto. }
    assert (Hn' : length cs = length ls) by (simpl in Hn; lia).
    destruct (sb (litVariable l)) as [g|].
    + destruct Hx as (t & Esg & Hg). rewrite Esg in *. rewrite (Den_sort _ _ _ Hg).
      destruct t; try (cbn [plain andb]; (apply rp_ret; auto); fail).
      * cbn [plain andb]. eapply rp_bind; [apply (IH ks cs s); auto|]. intros y s1 P1 Hy. pose proof (pstep_wf _ _ P1) as Hw1.
        simpl in Hy. destruct (plainAll sg ks); [|subst; apply rp_ret; simpl; auto].
        destruct Hy as (ls' & ks' & cs' & fx & -> & H1 & H2 & H3). apply rp_ret; auto.
        exists ls', ks', cs', (if isPos l then fx else fx + c)%Z. split; [reflexivity|]. split; auto. split; auto.
        intros b. cbn [wsum]. rewrite H3, EL, (litpos _ _ _ _ Hw Hl). simpl. destruct p; simpl; lia.
      * cbn [plain andb]. eapply rp_bind; [apply (IH ks cs s); auto|]. intros y s1 P1 Hy. pose proof (pstep_wf _ _ P1) as Hw1.
        simpl in Hy. destruct (plainAll sg ks); [|subst; apply rp_ret; simpl; auto].
        destruct Hy as (ls' & ks' & cs' & fx & -> & H1 & H2 & H3). apply rp_ret; auto.
        exists ls', ks', cs', (if isPos l then fx + c else fx)%Z. split; [reflexivity|]. split; auto. split; auto.
        intros b. cbn [wsum]. rewrite H3, EL, (litpos _ _ _ _ Hw Hl). simpl. destruct p; simpl; lia.
      * cbn [plain andb]. destruct l0 as [z q]. pose proof (Den_litt_inv _ _ _ Hg) as Hgl.
        eapply rp_bind with (Q := fun nl s' => litDen s' nl (z, if p then q else negb q)).
        { rewrite (litpos _ _ _ _ Hw Hl). destruct p; [apply rp_ret; auto|apply rp_negateLit; auto]. }
        intros nl s0 P0 Hnl.
        eapply rp_bind; [apply (IH ks cs s0); [eapply pstep_wf; eauto|eapply substIs_pstep; eauto|eapply litDen_ext; eauto using pstep_ext|auto]|].
        intros y s1 P1 Hy. pose proof (pstep_wf _ _ P1) as Hw1.
        simpl in Hy. destruct (plainAll sg ks); [|subst; apply rp_ret; simpl; auto].
        destruct Hy as (ls' & ks' & cs' & fx & -> & H1 & H2 & H3). apply rp_ret; auto.
        exists (nl :: ls'), ((z, if p then q else negb q) :: ks'), (c :: cs'), fx. split; [reflexivity|]. split; [constructor; auto; apply (pstep_ext _ _ P1); auto|].
        split; [simpl; lia|]. intros b. cbn [wsum]. rewrite H3, EL.
        assert (E : eval_lit b (z, if p then q else negb q) = if p then eval b (TLit (z, q)) else negb (eval b (TLit (z, q)))).
        { simpl. unfold eval_lit; simpl. destruct p, q; simpl; auto. rewrite negb_involutive; auto. }
        rewrite E. lia.
      * destruct cc; apply rp_ret; simpl; auto.
    + rewrite Hx. cbn [plain andb]. eapply rp_bind; [apply (IH ks cs s); auto|]. intros y s1 P1 Hy. pose proof (pstep_wf _ _ P1) as Hw1.
      simpl in Hy. destruct (plainAll sg ks); [|subst; apply rp_ret; simpl; auto].
      destruct Hy as (ls' & ks' & cs' & fx & -> & H1 & H2 & H3). apply rp_ret; auto.
      exists (l :: ls'), ((x, p) :: ks'), (c :: cs'), fx. split; [reflexivity|]. split; [constructor; auto; apply (pstep_ext _ _ P1); auto|].
      split; [simpl; lia|]. intros b. cbn [wsum]. rewrite H3, EL, Hx. lia.
Qed.

Lemma cmp_shift c w fx r : cmp_holds c (w + fx) r = cmp_holds c w (r - fx).
Proof.
  destruct c; simpl; [destruct (Z.eqb_spec (w + fx) r), (Z.eqb_spec w (r - fx))
             |destruct (Z.leb_spec (w + fx) r), (Z.leb_spec w (r - fx))
             |destruct (Z.ltb_spec (w + fx) r), (Z.ltb_spec w (r - fx))
             |destruct (Z.leb_spec r (w + fx)), (Z.leb_spec (r - fx) w)
             |destruct (Z.ltb_spec r (w + fx)), (Z.ltb_spec (r - fx) w)]; auto; lia.
Qed.

Definition substPost (sg : string -> option tree) (t : tree) (r : option formula) (s' : state) : Prop :=
  if substitutable sg t then exists g u, r = Some g /\ Den s' g u /\ (forall b, eval b u = eval (through sg b) t) else r = None.

Lemma rp_mapO {A B C} (h : nat -> A -> M (option B)) (ok : C -> bool) (P : state -> A -> C -> Prop) (Q : state -> B -> C -> Prop) :
  (forall s s', pstep s s' -> forall a c, P s a c -> P s' a c) ->
  (forall s s', pstep s s' -> forall a c, Q s a c -> Q s' a c) ->
  forall l cs s,
  (forall a c, In a l -> In c cs -> forall s', pstep s s' -> P s' a c ->
    rp (fun n => h n a) s' (fun b s2 => if ok c then exists x, b = Some x /\ Q s2 x c else b = None)) ->
  wf s -> Forall2 (P s) l cs ->
  rp (fun n => mapO (h n) l) s (fun bs s' => if forallb ok cs then exists xs, bs = Some xs /\ Forall2 (Q s') xs cs else bs = None).
Proof.
  intros HP HQ l. induction l as [|a l IH]; intros cs s Hh I HF; inversion HF; subst.
  - apply rp_ret; auto. exists []. auto.
  - simpl. eapply rp_bind.
    + apply (Hh a y); simpl; auto. apply pstep_refl; auto.
    + intros b s1 X1 Hb. simpl in Hb. pose proof (pstep_wf _ _ X1) as Hw1. destruct (ok y); simpl.
      * destruct Hb as (x & -> & Hx). eapply rp_bind.
        -- apply (IH l' s1); auto.
          ++ intros a' c' Ha Hc s2 X2 H'. apply Hh; simpl; auto. eapply pstep_trans; eauto.
          ++ eapply Forall2_impl; [|eassumption]. intros; eapply HP; eauto.
        -- intros bs s2 X2 Hbs. apply rp_ret; [eapply pstep_wf; eauto|]. destruct (forallb ok l').
          ++ destruct Hbs as (xs & -> & Hxs). exists (x :: xs). split; auto. constructor; auto. eapply HQ; eauto.
          ++ subst. auto.
      * subst. apply rp_ret; auto.
Qed.

Lemma substitute_ok sb sg : forall t s f, wf s -> substIs s sb sg -> Den s f t ->
  rp (fun n => substitute n sb f) s (substPost sg t).
Proof.
  induction t using tree_ind'; intros s f Hw Hsb Hd; pose proof (Den_sort _ _ _ Hd) as Hs; apply rp_S; cbn [substitute]; rewrite Hs; unfold substPost; cbn [substitutable].
  - apply rp_ret; auto. exists f, TFalse. auto.
  - apply rp_ret; auto. exists f, TTrue. auto.
  - destruct l as [x p]. pose proof (Den_litt_inv _ _ _ Hd) as Hl. pose proof (Hsb _ x (litVariable_den s f x p Hw Hl)) as Hx.
    rewrite (litpos _ _ _ _ Hw Hl). destruct (sb (litVariable f)) as [g|].
    + destruct Hx as (t & E & Hg). destruct p.
      * apply rp_ret; auto. exists g, t. split; auto. split; auto. intros b. simpl. unfold eval_lit, through; simpl. rewrite E. auto.
      * eapply rp_bind; [apply (rp_not g t); auto|]. intros y s1 P1 (u & Hu & Hn). apply rp_ret; [eapply pstep_wf; eauto|].
        exists y, u. split; auto. split; auto. intros b. rewrite (is_neg_of_eval _ _ b Hn). simpl. unfold eval_lit, through; simpl. rewrite E. auto.
    + apply rp_ret; auto. exists f, (TLit (x, p)). split; auto. split; auto. intros b. simpl. unfold eval_lit, through; simpl. rewrite Hx. auto.
  - apply rp_get. eapply rp_bind; [apply IHt; eauto; apply opNot_den; auto|]. intros x s1 P1 Hx. pose proof (pstep_wf _ _ P1) as Hw1. unfold substPost in Hx.
    destruct (substitutable sg t); [|subst; apply rp_ret; simpl; auto]. destruct Hx as (g & u & -> & Hg & Hu).
    eapply rp_bind; [apply (rp_not g u); auto|]. intros z s2 P2 (w & Hz & Hn). apply rp_ret; [eapply pstep_wf; eauto|]. exists z, w. split; auto. split; auto.
    intros b. rewrite (is_neg_of_eval _ _ b Hn). simpl. rewrite Hu. auto.
  - apply rp_get. eapply rp_bind.
    + apply (rp_mapO (fun n => substitute n sb) (substitutable sg) (fun s f t => Den s f t /\ substIs s sb sg /\ wf s)
         (fun s g t => exists u, Den s g u /\ forall b, eval b u = eval (through sg b) t)) with (cs := ts).
      * intros s1 s2 P a0 c (H1 & H2 & H3). split; [eauto using ext_Den, pstep_ext|]. split; [eapply substIs_pstep; eauto|apply (pstep_wf _ _ P)].
      * intros s1 s2 P a0 c (u & H1 & H2). exists u. split; eauto using ext_Den, pstep_ext.
      * intros a0 c Hin Hc s1 P (H1 & H2 & H3). rewrite Forall_forall in H. eapply rp_conseq; [apply (H c Hc); auto|].
        intros r s2 P2 Hr. unfold substPost in Hr. destruct (substitutable sg c); auto. destruct Hr as (g & u & -> & ? & ?). exists g. split; auto. exists u; auto.
      * auto.
      * eapply Forall2_impl; [|apply (opNary_and s f ts Hw Hd)]. simpl. auto.
    + simpl. intros r s1 P1 Hr. pose proof (pstep_wf _ _ P1) as Hw1. destruct (forallb (substitutable sg) ts); [|subst; apply rp_ret; simpl; auto].
      destruct Hr as (nops & -> & Hn).
      assert (Hus : exists us, Forall2 (Den s1) nops us /\ Forall2 (fun t u => forall b, eval b u = eval (through sg b) t) ts us).
      { clear -Hn. induction Hn; [exists []; auto|]. destruct IHHn as (us & ? & ?). destruct H as (u & ? & ?). exists (u :: us). split; constructor; auto. }
      destruct Hus as (us & Hus & Hr). rewrite naryOp_and.
      eapply rp_bind; [apply (rp_and nops us); auto|]. intros z s2 P2 (w & Hz & Heq & _). apply rp_ret; [eapply pstep_wf; eauto|].
      exists z, w. split; auto. split; auto. intros b. rewrite Heq. simpl. clear -Hr. induction Hr; simpl; auto. rewrite IHHr. f_equal. apply H.
  - apply rp_get. eapply rp_bind.
    + apply (rp_mapO (fun n => substitute n sb) (substitutable sg) (fun s f t => Den s f t /\ substIs s sb sg /\ wf s)
         (fun s g t => exists u, Den s g u /\ forall b, eval b u = eval (through sg b) t)) with (cs := ts).
      * intros s1 s2 P a0 c (H1 & H2 & H3). split; [eauto using ext_Den, pstep_ext|]. split; [eapply substIs_pstep; eauto|apply (pstep_wf _ _ P)].
      * intros s1 s2 P a0 c (u & H1 & H2). exists u. split; eauto using ext_Den, pstep_ext.
      * intros a0 c Hin Hc s1 P (H1 & H2 & H3). rewrite Forall_forall in H. eapply rp_conseq; [apply (H c Hc); auto|].
        intros r s2 P2 Hr. unfold substPost in Hr. destruct (substitutable sg c); auto. destruct Hr as (g & u & -> & ? & ?). exists g. split; auto. exists u; auto.
      * auto.
      * eapply Forall2_impl; [|apply (opNary_or s f ts Hw Hd)]. simpl. auto.
    + simpl. intros r s1 P1 Hr. pose proof (pstep_wf _ _ P1) as Hw1. destruct (forallb (substitutable sg) ts); [|subst; apply rp_ret; simpl; auto].
      destruct Hr as (nops & -> & Hn).
      assert (Hus : exists us, Forall2 (Den s1) nops us /\ Forall2 (fun t u => forall b, eval b u = eval (through sg b) t) ts us).
      { clear -Hn. induction Hn; [exists []; auto|]. destruct IHHn as (us & ? & ?). destruct H as (u & ? & ?). exists (u :: us). split; constructor; auto. }
      destruct Hus as (us & Hus & Hr). rewrite naryOp_or.
      eapply rp_bind; [apply (rp_or nops us); auto|]. intros z s2 P2 (w & Hz & Heq & _). apply rp_ret; [eapply pstep_wf; eauto|].
      exists z, w. split; auto. split; auto. intros b. rewrite Heq. simpl. clear -Hr. induction Hr; simpl; auto. rewrite IHHr. f_equal. apply H.
  - apply rp_get. destruct (opBin_impl s f t1 t2 Hw Hd) as [D1 D2].
    eapply rp_bind; [apply IHt1; eauto|]. intros x s1 P1 Hx. pose proof (pstep_wf _ _ P1) as Hw1. unfold substPost in Hx.
    destruct (substitutable sg t1); [|subst; apply rp_ret; simpl; auto]. destruct Hx as (l & u1 & -> & Hl & Hu1). cbv beta iota.
    eapply rp_bind; [apply IHt2; [exact Hw1|apply (substIs_pstep s s1); auto|apply (ext_Den s s1 (pstep_ext _ _ P1)); exact D2]|].
    intros y s2 P2 Hy. pose proof (pstep_wf _ _ P2) as Hw2. unfold substPost in Hy.
    destruct (substitutable sg t2); [|subst; apply rp_ret; simpl; auto]. destruct Hy as (r & u2 & -> & Hr & Hu2).
    rewrite binOp_impl. eapply rp_bind; [apply (rp_impl l r u1 u2); eauto using ext_Den, pstep_ext|].
    intros z s3 P3 (w & Hz & Heq & _). apply rp_ret; [eapply pstep_wf; eauto|]. exists z, w. split; auto. split; auto.
    intros b. rewrite Heq. simpl. rewrite Hu1, Hu2. auto.
  - apply rp_get. destruct (opBin_equiv s f t1 t2 Hw Hd) as [D1 D2].
    eapply rp_bind; [apply IHt1; eauto|]. intros x s1 P1 Hx. pose proof (pstep_wf _ _ P1) as Hw1. unfold substPost in Hx.
    destruct (substitutable sg t1); [|subst; apply rp_ret; simpl; auto]. destruct Hx as (l & u1 & -> & Hl & Hu1). cbv beta iota.
    eapply rp_bind; [apply IHt2; [exact Hw1|apply (substIs_pstep s s1); auto|apply (ext_Den s s1 (pstep_ext _ _ P1)); exact D2]|].
    intros y s2 P2 Hy. pose proof (pstep_wf _ _ P2) as Hw2. unfold substPost in Hy.
    destruct (substitutable sg t2); [|subst; apply rp_ret; simpl; auto]. destruct Hy as (r & u2 & -> & Hr & Hu2).
    rewrite binOp_equiv. eapply rp_bind; [apply (rp_equiv l r u1 u2); eauto using ext_Den, pstep_ext|].
    intros z s3 P3 (w & Hz & Heq & _). apply rp_ret; [eapply pstep_wf; eauto|]. exists z, w. split; auto. split; auto.
    intros b. rewrite Heq. simpl. rewrite Hu1, Hu2. auto.
  - assert (G : rp (fun n => bind (get (opPbc f)) (fun p => substitutePbc sb p)) s (substPost sg (TPBC k c r ls cs))).
    { apply rp_get. destruct (opPbc_den s f k c r ls cs Hw Hd) as (Hl & Hcs & Hr & Hc & Hlen & Hne & _).
      unfold substitutePbc. rewrite Hcs, Hr, Hc.
      eapply rp_bind; [apply (substLoop_ok sb sg _ ls cs s); auto; rewrite Hlen; symmetry; eapply Forall2_length; eauto|].
      intros y s1 P1 Hy. pose proof (pstep_wf _ _ P1) as Hw1. unfold substPost. cbn [substitutable].
      simpl in Hy. destruct (plainAll sg ls); [|subst; apply rp_ret; simpl; auto].
      destruct Hy as (ls' & ks' & cs' & fx & -> & H1 & H2 & H3). destruct ls' as [|l0 ls'].
      - inversion H1; subst. apply rp_ret; auto. exists (Constant (evaluateComparator fx (p_rhs (opPbc f s)) (p_cmp (opPbc f s)))), (K (evaluateComparator fx (p_rhs (opPbc f s)) (p_cmp (opPbc f s)))).
        split; auto. split; [apply Den_Constant|]. intros b. rewrite eval_K, evaluateComparator_ok. simpl. rewrite H3. destruct cs'; auto.
      - eapply rp_bind; [apply (rp_pbc c (r - fx) _ cs' ks' s1); eauto|]. intros g s2 P2 Hg. apply rp_ret; [eapply pstep_wf; eauto|].
        exists g, (pb_tree c (r - fx) ks' cs'). split; auto. split; auto. intros b. rewrite pb_tree_equiv. simpl. rewrite H3. symmetry. apply cmp_shift. }
    destruct k; exact G.
Qed.
