(** * Proofs about the Plaisted-Greenbaum transformation, the CNF dispatcher and AIGs *)
From Coq Require Import String Ascii List Bool ZArith NArith Lia.
From Verif Require Import Spec Factory FactoryProofs FactoryProofs2 FactoryProofs3 FactoryApi FactoryProps Assign NormalForm NfBase NfAssign NfEnc NfNnf NfCnf NfFun NfTseitin.
Import ListNotations.
Local Open Scope N_scope.

(** the literal that stands for a formula *)
Definition litOf (s : state) (x : auxState) (f : formula) (l : lit) : Prop :=
  if fsort_eqb (srt f) SLit then litDen s f l else exists v, x_literal x f = Some v /\ litDen s v l.
Definition xle (x x' : auxState) : Prop := forall f v, x_literal x f = Some v -> x_literal x' f = Some v.
Definition top (k : fsort) (b : asg) (ls : list lit) : bool :=
  match k with SAnd => forallb (eval_lit b) ls | _ => existsb (eval_lit b) ls end.

Record pinv (s : state) (V : asg -> Prop) (x : auxState) : Prop := {
  p_lit : forall f v, x_literal x f = Some v -> exists t y, Den s f t /\ litDen s v (y, true) /\ ~ occurs y t /\ auxN y /\
    forall b, V b -> b y = eval b t;
  p_formula : forall f g, x_formula x f = Some g -> exists k ts u lf ls, dual k /\ Den s f (mk k ts) /\ Den s g u /\ is_cnf u = true /\
    litOf s x f lf /\ Forall2 (litOf s x) (Operands f s) ls /\
    (forall b, eval b u = true -> eval_lit b lf = true -> top k b ls = true) /\ (forall b, V b -> eval b u = true) /\
    (forall z, occurs z u -> z = fst lf \/ In z (map fst ls)) }.

Lemma xle_refl x : xle x x. Proof. intros f v H; auto. Qed.
Lemma xle_trans x y z : xle x y -> xle y z -> xle x z. Proof. intros H1 H2 f v H; auto. Qed.
Lemma litOf_mono s s' x x' f l : ext s s' -> xle x x' -> litOf s x f l -> litOf s' x' f l.
Proof.
  intros E L. unfold litOf. destruct (fsort_eqb (srt f) SLit); [apply litDen_ext1; auto|].
  intros (v & H1 & H2). exists v. split; auto. eapply litDen_ext1; eauto.
Qed.
Lemma litsOf_mono s s' x x' fs ls : ext s s' -> xle x x' -> Forall2 (litOf s x) fs ls -> Forall2 (litOf s' x') fs ls.
Proof. intros E L. apply Forall2_impl. intros f l. apply litOf_mono; auto. Qed.
Lemma litOf_fun s x f l l' : wf s -> litOf s x f l -> litOf s x f l' -> l = l'.
Proof.
  intros Hw. unfold litOf. destruct (fsort_eqb (srt f) SLit).
  - intros H H'. eapply litDen_fun; eauto.
  - intros (v & H1 & H2) (v' & H1' & H2'). rewrite H1 in H1'. inversion H1'; subst. eapply litDen_fun; eauto.
Qed.
Lemma litsOf_fun s x fs ls ls' : wf s -> Forall2 (litOf s x) fs ls -> Forall2 (litOf s x) fs ls' -> ls = ls'.
Proof. intros Hw H. revert ls'. induction H; intros ls' H'; inversion H'; subst; auto. f_equal; auto. eapply litOf_fun; eauto. Qed.
Lemma is_slit s f t : Den s f t -> fsort_eqb (srt f) SLit = is_lit t.
Proof. intros Hd. rewrite (Den_sort _ _ _ Hd). destruct t; auto. destruct cc; auto. Qed.
Lemma litOf_eval s V x f l t : wf s -> pinv s V x -> litOf s x f l -> Den s f t ->
  (forall b, V b -> eval_lit b l = eval b t) /\ (occurs (fst l) t \/ auxN (fst l)).
Proof.
  intros Hw HP Hl Hd. unfold litOf in Hl. rewrite (is_slit s f t Hd) in Hl. destruct (is_lit t) eqn:Et.
  - destruct t; try discriminate. apply Den_litt_inv in Hd. assert (l0 = l) as -> by (eapply litDen_fun; eauto). split; auto. left. simpl. auto.
  - destruct Hl as (v & H1 & H2). destruct (p_lit _ _ _ HP f v H1) as (t' & y & A & B & C & D & E).
    assert (t' = t) as -> by (eapply Den_fun; eauto). assert (l = (y, true)) as -> by (eapply litDen_fun; eauto). split; auto.
Qed.

Lemma Operands_ext s s' f t : wf s -> wf s' -> ext s s' -> Den s f t -> Operands f s' = Operands f s.
Proof.
  intros Hw Hw' E Hd. eapply (Dens_inj s' Hw' (subtrees t)); [apply Operands_den; auto; eapply ext_Den; eauto|].
  eapply ext_Dens; [exact E|]. apply Operands_den; auto.
Qed.
Lemma pinv_ext s V s' V' x : winv s V -> winv s' V' -> wext s V s' V' -> pinv s V x -> pinv s' V' x.
Proof.
  intros I I' X [A B]. assert (E : ext s s') by apply X. constructor.
  - intros f v H. destruct (A f v H) as (t & y & H1 & H2 & H3 & H4 & H5). exists t, y. split; [eapply wext_Den; eauto|].
    split; [eapply wext_litDen; eauto|]. split; auto. split; auto. intros b Hb. apply H5. apply X; auto.
  - intros f g H. destruct (B f g H) as (k & ts & u & lf & ls & H0 & H1 & H2 & H3 & H4 & H5 & H6 & H7 & H8).
    exists k, ts, u, lf, ls. split; auto. split; [eapply wext_Den; eauto|]. split; [eapply wext_Den; eauto|]. split; auto.
    split; [eapply litOf_mono; eauto using xle_refl|].
    split; [rewrite (Operands_ext s s' f (mk k ts)); auto; [eapply litsOf_mono; eauto using xle_refl|apply I|apply I']|].
    split; auto. split; auto. intros b Hb. apply H7. apply X; auto.
Qed.
Lemma pinv_new s V : pinv s V newAuxState. Proof. constructor; intros f v H; discriminate. Qed.

Lemma xle_set x f v : x_literal x f = None -> xle x (setXL f v x).
Proof. intros H g w Hg. simpl. unfold upd. destruct (feqb_spec g f) as [->|]; auto. congruence. Qed.
Lemma pinv_setXL s V x f v t y : pinv s V x -> x_literal x f = None -> Den s f t -> litDen s v (y, true) -> ~ occurs y t -> auxN y ->
  (forall b, V b -> b y = eval b t) -> pinv s V (setXL f v x).
Proof.
  intros [A B] Hn Hd Hl Ho Ha Hv. pose proof (xle_set x f v Hn) as L. constructor.
  - intros g w Hg. simpl in Hg. unfold upd in Hg. destruct (feqb_spec g f) as [->|]; [|apply A; auto]. inversion Hg; subst. exists t, y. auto.
  - intros g h H. destruct (B g h H) as (k & ts & u & lf & ls & H0 & H1 & H2 & H3 & H4 & H5 & H6 & H7 & H8).
    exists k, ts, u, lf, ls. split; auto. split; auto. split; auto. split; auto. split; [eapply litOf_mono; eauto using ext_refl|].
    split; [eapply litsOf_mono; eauto using ext_refl|auto].
Qed.

Lemma pgVariable_ok t s V f x : winv s V -> pinv s V x -> Den s f t ->
  wp (fun _ => pgVariable f x) s V (fun r s' V' => pinv s' V' (snd r) /\ xle x (snd r) /\ x_formula (snd r) = x_formula x /\
     exists l, litDen s' (fst r) l /\ litOf s' (snd r) f l).
Proof.
  intros I HP Hd. unfold pgVariable.
  assert (Es : forall (A : Type) (p q : A), match srt f with SLit => p | _ => q end = if is_lit t then p else q).
  { intros A p q. rewrite (Den_sort _ _ _ Hd). destruct t; auto. destruct cc; auto. }
  rewrite Es. destruct (is_lit t) eqn:Et.
  - destruct t; try discriminate. apply wp_ret; auto. split; auto. split; [apply xle_refl|]. split; auto. exists l. simpl. unfold litOf.
    rewrite (is_slit s f _ Hd). simpl. apply Den_litt_inv in Hd. auto.
  - destruct (x_literal x f) as [v|] eqn:Ev.
    + apply wp_ret; auto. split; auto. split; [apply xle_refl|]. split; auto. simpl. destruct (p_lit _ _ _ HP f v Ev) as (t' & y & A & B & _).
      exists (y, true). split; auto. unfold litOf. rewrite (is_slit s f _ Hd), Et. eauto.
    + destruct (NewAuxVar AuxCNF s) as [v s1] eqn:E1. set (y := auxName AuxCNF (auxCtr s AuxCNF)).
      destruct (winv_aux s V AuxCNF v s1 (fun b => eval b t) I E1) as (I1 & X1 & Hv & _).
      { intros b b' Hb. apply eval_agree. intros z Hz. apply Hb. apply (v_fresh _ _ I). eapply Den_names; [apply I|exact Hd|exact Hz]. }
      fold y in I1, X1, Hv.
      assert (Hnew : ~ occurs y t).
      { intros Ho. apply (v_fresh _ _ I y); [eapply Den_names; [apply I|exact Hd|exact Ho]|]. left. exists AuxCNF, (auxCtr s AuxCNF). split; [reflexivity|lia]. }
      eapply wp_up; [exact E1|exact X1|]. apply wp_ret; auto. simpl.
      split; [|split; [apply xle_set; auto|split; auto]].
      * apply (pinv_setXL s1 _ x f v t y); [eapply pinv_ext; [exact I|exact I1|exact X1|exact HP]|exact Ev|eapply wext_Den; eauto|exact Hv|exact Hnew|left; exists AuxCNF, (auxCtr s AuxCNF); auto|intros b [_ Hb]; exact Hb].
      * exists (y, true). split; auto. unfold litOf. rewrite (is_slit s f _ Hd), Et. exists v. split; auto. simpl. unfold upd.
        destruct (feqb_spec f f); congruence.
Qed.

(** loops that carry the auxiliary state *)
Lemma wp_mapX {B C} (h : nat -> formula -> auxState -> M (B * auxState)) (P : state -> (asg -> Prop) -> auxState -> Prop)
  (Q : state -> (asg -> Prop) -> auxState -> formula -> B -> C -> Prop) :
  (forall s V s' V' x x' a b c, wext s V s' V' -> xle x x' -> Q s V x a b c -> Q s' V' x' a b c) ->
  forall l (cs : list C) (R : state -> formula -> C -> Prop) s V x,
  (forall s V s' V' a c, wext s V s' V' -> R s a c -> R s' a c) ->
  (forall a c, In a l -> In c cs -> forall s' V' x', winv s' V' -> wext s V s' V' -> xle x x' -> P s' V' x' -> R s' a c ->
     wp (fun n => h n a x') s' V' (fun r s2 V2 => P s2 V2 (snd r) /\ xle x' (snd r) /\ Q s2 V2 (snd r) a (fst r) c)) ->
  winv s V -> P s V x -> Forall2 (R s) l cs ->
  wp (fun n => mapX (h n) l x) s V (fun r s' V' => P s' V' (snd r) /\ xle x (snd r) /\
     exists bs, fst r = bs /\ Forall2 (fun p c => Q s' V' (snd r) (fst p) (snd p) c) (combine l bs) cs /\ length bs = length l).
Proof.
  intros HQ l. induction l as [|a l IH]; intros cs R s V x HR Hh I HP HF; inversion HF; subst.
  - apply wp_ret; auto. simpl. split; auto. split; [apply xle_refl|]. exists []. auto.
  - rename y into c, l' into cs. simpl. eapply wp_bind; [apply (Hh a c); simpl; auto; [apply wext_refl|apply xle_refl]|].
    intros [b x1] s1 V1 I1 X1 (P1 & L1 & Q1). simpl in *. eapply wp_bind.
    + apply (IH cs R s1 V1 x1); auto.
      * intros a' c' Ha' Hc' s' V' x' I' X' L' P' R'. apply (Hh a' c'); auto; [eapply wext_trans; eauto|eapply xle_trans; eauto].
      * eapply Forall2_impl; [|exact H3]. intros a' c' H'. eapply HR; eauto.
    + intros [bs x2] s2 V2 I2 X2 (P2 & L2 & bs' & E & Q2 & Hlen). simpl in *. subst bs'. apply wp_ret; auto. simpl. split; auto.
      split; [eapply xle_trans; eauto|]. exists (b :: bs). split; auto. split; [|simpl; auto]. simpl. constructor; auto. simpl. eapply HQ; eauto.
Qed.

Lemma pinv_setXF s V x f g k ts u lf ls : pinv s V x -> dual k -> Den s f (mk k ts) -> Den s g u -> is_cnf u = true ->
  litOf s x f lf -> Forall2 (litOf s x) (Operands f s) ls ->
  (forall b, eval b u = true -> eval_lit b lf = true -> top k b ls = true) -> (forall b, V b -> eval b u = true) ->
  (forall z, occurs z u -> z = fst lf \/ In z (map fst ls)) -> pinv s V (setXF f g x).
Proof.
  intros [A B] H0 H1 H2 H3 H4 H5 H6 H7 H8. constructor; auto.
  intros h w Hh. simpl in Hh. unfold upd in Hh. destruct (feqb_spec h f) as [->|].
  - inversion Hh; subst. exists k, ts, u, lf, ls. auto 12.
  - apply (B h w Hh).
Qed.

Lemma opNary_mk' k s f ts : dual k -> wf s -> Den s f (mk k ts) -> opNary f s = Operands f s /\ Forall2 (Den s) (Operands f s) ts.
Proof.
  intros Hk Hw Hd. assert (HF : Forall2 (Den s) (Operands f s) ts).
  { pose proof (Operands_den s f _ Hw Hd) as HF. destruct Hk as [-> | ->]; exact HF. }
  split; auto. eapply (Dens_inj s Hw ts); auto. destruct Hk as [-> | ->]; [apply opNary_and|apply opNary_or]; auto.
Qed.

Lemma top_eval k b ls ts : dual k -> Forall2 (fun l t => eval_lit b l = eval b t) ls ts -> top k b ls = eval b (mk k ts).
Proof. intros Hk HE. destruct Hk as [-> | ->]; simpl; induction HE; simpl; auto; rewrite H, IHHE; auto. Qed.

Lemma litsOf_eval s V x fs ls ts : wf s -> pinv s V x -> Forall2 (litOf s x) fs ls -> Forall2 (Den s) fs ts ->
  forall b, V b -> Forall2 (fun l t => eval_lit b l = eval b t) ls ts.
Proof.
  intros Hw HP H1 H2 b Hb. revert ts H2. induction H1; intros ts H2; inversion H2; subst; constructor; auto.
  destruct (litOf_eval s V x x0 y y0 Hw HP H H4) as [H' _]. auto.
Qed.

Definition polPost (x : auxState) (f : formula) (r : formula * auxState) (s' : state) (V' : asg -> Prop) : Prop :=
  pinv s' V' (snd r) /\ xle x (snd r) /\ x_formula (snd r) f = Some (fst r).

Lemma split_combine {A B C L} (R : A -> L -> Prop) (T : B -> L -> Prop) (l : list A) : forall (bs : list B) (cs : list C),
  Forall2 (fun p c => exists l, R (fst p) l /\ T (snd p) l) (combine l bs) cs -> length bs = length l ->
  exists ls, Forall2 R l ls /\ Forall2 T bs ls.
Proof.
  induction l as [|a l IH]; intros [|b bs] cs H Hl; try discriminate; [exists []; auto|].
  simpl in H. inversion H as [|? ? ? ? (x & A1 & A2) A3]; subst. destruct (IH bs _ A3) as (ls & B1 & B2); [simpl in Hl; lia|].
  exists (x :: ls). auto.
Qed.

Lemma setXF_same f g x : x_formula (setXF f g x) f = Some g.
Proof. unfold setXF, upd; simpl. destruct (feqb_spec f f); congruence. Qed.
Lemma computePosPolarity_ok k ts s V f x : dual k -> winv s V -> pinv s V x -> Den s f (mk k ts) ->
  wp (fun _ => computePosPolarity f x) s V (polPost x f).
Proof.
  intros Hk I HP Hd. unfold computePosPolarity. destruct (x_formula x f) as [g|] eqn:Ef.
  { apply wp_ret; auto. split; auto. split; [apply xle_refl|auto]. }
  eapply wp_bind; [apply (pgVariable_ok (mk k ts) s V f x I HP Hd)|].
  intros [v x1] s1 V1 I1 X1 (P1 & L1 & E1 & lf & Dv & Lf). simpl in *.
  pose proof (wext_Den _ _ _ _ _ _ X1 Hd) as Hd1.
  destruct (opNary_mk' k s1 f ts Hk (v_wf _ _ I1) Hd1) as [EO HO].
  assert (Hlf : exists y, lf = (y, true)).
  { unfold litOf in Lf. rewrite (is_slit s1 f _ Hd1) in Lf. replace (is_lit (mk k ts)) with false in Lf by (destruct Hk as [-> | ->]; auto).
    destruct Lf as (v' & A & B). destruct (p_lit _ _ _ P1 f v' A) as (t' & y & _ & C & _). exists y. eapply litDen_fun; eauto. }
  destruct Hlf as [y ->].
  set (PP := fun (kk : asg -> list lit -> bool) (r : formula * auxState) (s' : state) (V' : asg -> Prop) =>
    exists u ls, pinv s' V' (snd r) /\ xle x1 (snd r) /\ Den s' (fst r) u /\ Forall2 (litOf s' (snd r)) (Operands f s1) ls /\ is_cnf u = true /\
           (forall b, eval b u = negb (b y) || kk b ls) /\ (forall z, occurs z u -> z = y \/ In z (map fst ls))).
  destruct Hk as [-> | ->].
  - rewrite (Den_sort _ _ _ Hd1). cbn [mk]. apply wp_bind with (Q := PP (fun b ls => forallb (eval_lit b) ls)).
    + apply wp_get. rewrite EO. eapply wp_bind.
      * apply (wp_mapX (fun _ op x => nv <- up (negateLit v) ;; w <- pgVariable op x ;; c <- up (Clause [nv; fst w]) ;; ret (c, snd w))
          (fun s V x => pinv s V x) (fun s V x a b (c : tree) => exists l, litOf s x a l /\ Den s b (TOr [TLit (y, false); TLit l])))
          with (cs := ts) (R := Den).
        -- intros s2 V2 s3 V3 x2 x3 a b c X L (l & A & B). exists l. split; [eapply litOf_mono; [apply X|eauto|eauto]|eapply wext_Den; eauto].
        -- intros; eapply wext_Den; eauto.
        -- intros op t _ _ s2 V2 x2 I2 X2 L2 P2 D2.
           destruct (negateLit v s2) as [nv s3] eqn:En.
           destruct (winv_negateLit s2 V2 v y true nv s3 I2 (wext_litDen _ _ _ _ _ _ X2 Dv) En) as (I3 & X3 & Hnv).
           eapply wp_up; [exact En|exact X3|].
           eapply wp_bind; [apply (pgVariable_ok t s3 V2 op x2 I3); [eapply pinv_ext; [exact I2|exact I3|exact X3|exact P2]|eapply wext_Den; [exact X3|exact D2]]|].
           intros [w x4] s4 V4 I4 X4 (P4 & L4 & E4 & l & Dw & Lw). simpl in *.
           destruct (Clause [nv; w] s4) as [c s5] eqn:Ec.
           destruct (winv_clause s4 V4 [nv; w] [(y, false); l] c s5 I4) as (I5 & X5 & u & Du & _ & Eu); auto.
           { constructor; auto. eapply wext_litDen; [exact X4|exact Hnv]. }
           eapply wp_up; [exact Ec|exact X5|]. apply wp_ret; auto. simpl. split; [eapply pinv_ext; [exact I4|exact I5|exact X5|exact P4]|]. split; auto.
           exists l. subst u. split; auto. eapply litOf_mono; [apply X5|apply xle_refl|auto].
        -- exact I1.
        -- exact P1.
        -- exact HO.
      * intros [cs x2] s2 V2 I2 X2 (P2 & L2 & bs & <- & Q2 & Hlen). simpl in *.
        assert (Hls : exists ls, Forall2 (litOf s2 x2) (Operands f s1) ls /\ Forall2 (Den s2) cs (map (fun l => TOr [TLit (y, false); TLit l]) ls)).
        { destruct (split_combine (litOf s2 x2) (fun b l => Den s2 b (TOr [TLit (y, false); TLit l])) _ _ _ Q2 Hlen) as (ls & A & B). exists ls. split; auto. clear -B. induction B; simpl; auto. }
        destruct Hls as (ls & HL & HC).
        eapply wp_bind; [apply rp_wp; [exact I2|eapply (rp_and cs); [apply I2|exact HC]]|].
        intros g s3 V3 I3 X3 (-> & u & U1 & U2 & U3). apply wp_ret; auto.
        assert (G : exists ls, pinv s3 V2 x2 /\ xle x1 x2 /\ Den s3 g u /\ Forall2 (litOf s3 x2) (Operands f s1) ls /\ is_cnf u = true /\
           (forall b, eval b u = negb (b y) || forallb (eval_lit b) ls) /\ (forall z, occurs z u -> z = y \/ In z (map fst ls))).
        { exists ls. split; [eapply pinv_ext; [exact I2|exact I3|exact X3|exact P2]|]. split; auto. split; auto. split; [eapply litsOf_mono; [apply X3|apply xle_refl|auto]|].
          split; [eapply and_shape_cnf; eauto; clear; induction ls; simpl; auto|]. split.
          - intros b. rewrite U2. simpl. clear. induction ls; simpl; [rewrite orb_true_r; auto|]. rewrite IHls. unfold eval_lit at 1; simpl.
            destruct (b y), (eval_lit b a); simpl; auto.
          - intros z Hz. destruct (and_shape_occurs z _ _ U3 Hz) as (w & Hw & Hz'). apply in_map_iff in Hw. destruct Hw as (l & <- & Hl).
            apply occurs_or in Hz'. destruct Hz' as (w' & [<-|[<-|[]]] & Hz'); simpl in Hz'; subst; auto. right. apply in_map; auto. }
        exact (ex_intro _ u G).
    + intros [g x2] s2 V2 I2 X2 (u & ls & P2 & L2 & U1 & HL & Uc & Ue & Uo). simpl in *. apply wp_ret; auto. simpl.
      assert (X12 : wext s1 V1 s2 V2) by auto.
      split; [|split; [eapply xle_trans; eauto|apply setXF_same]].
      assert (EO2 : Operands f s2 = Operands f s1) by (eapply Operands_ext; eauto; [apply I1|apply I2|apply X2]).
      apply (pinv_setXF s2 V2 x2 f g SAnd ts u (y, true) ls); auto.
      * left; auto.
      * eapply wext_Den; eauto.
      * eapply litOf_mono; [apply X2|exact L2|exact Lf].
      * rewrite EO2. auto.
      * intros b Hb Hy. rewrite Ue in Hb. unfold eval_lit in Hy. simpl in *. rewrite Hy in Hb. auto.
      * intros b Hb. rewrite Ue.
        pose proof (litsOf_eval s2 V2 x2 _ ls ts (v_wf _ _ I2) P2 HL (wext_Dens _ _ _ _ _ _ X2 HO) b Hb) as HE.
        change (forallb (eval_lit b) ls) with (top SAnd b ls). rewrite (top_eval SAnd b ls ts (or_introl eq_refl) HE).
        destruct (litOf_eval s2 V2 x2 f (y, true) (mk SAnd ts) (v_wf _ _ I2) P2) as [HH _].
        { eapply litOf_mono; [apply X2|exact L2|exact Lf]. } { eapply wext_Den; eauto. }
        specialize (HH b Hb). unfold eval_lit in HH; simpl in HH. simpl. rewrite HH. destruct (forallb (eval b) ts); auto.
  - rewrite (Den_sort _ _ _ Hd1). cbn [mk]. apply wp_bind with (Q := PP (fun b ls => existsb (eval_lit b) ls)).
    + apply wp_get. rewrite EO. destruct (negateLit v s1) as [nv s2] eqn:En.
      destruct (winv_negateLit s1 V1 v y true nv s2 I1 Dv En) as (I2 & X2 & Hnv). eapply wp_up; [exact En|exact X2|].
      eapply wp_bind.
      * apply (wp_mapX (fun _ => pgVariable) (fun s V x => pinv s V x) (fun s V x a b (c : tree) => exists l, litOf s x a l /\ litDen s b l))
          with (cs := ts) (R := Den).
        -- intros s3 V3 s4 V4 x3 x4 a b c X L (l & A & B). exists l. split; [eapply litOf_mono; [apply X|eauto|eauto]|eapply wext_litDen; eauto].
        -- intros; eapply wext_Den; eauto.
        -- intros op t _ _ s3 V3 x3 I3 X3 L3 P3 D3. eapply wp_conseq; [apply (pgVariable_ok t s3 V3 op x3 I3 P3 D3)|].
           intros [w x4] s4 V4 I4 X4 (P4 & L4 & E4 & l & Dw & Lw). split; auto. split; auto. exists l. auto.
        -- exact I2.
        -- eapply pinv_ext; [exact I1|exact I2|exact X2|exact P1].
        -- eapply wext_Dens; eauto.
      * intros [ws x3] s3 V3 I3 X3 (P3 & L3 & bs & <- & Q3 & Hlen). simpl in *.
        assert (Hls : exists ls, Forall2 (litOf s3 x3) (Operands f s1) ls /\ Forall2 (litDen s3) ws ls).
        { exact (split_combine (litOf s3 x3) (litDen s3) _ _ _ Q3 Hlen). }
        destruct Hls as (ls & HL & HC).
        destruct (Clause (nv :: ws) s3) as [c s4] eqn:Ec.
        destruct (winv_clause s3 V3 (nv :: ws) ((y, false) :: ls) c s4 I3) as (I4 & X4 & u & Du & Ue & Eu); auto.
        { constructor; auto. eapply wext_litDen; [exact X3|exact Hnv]. }
        eapply wp_up; [exact Ec|exact X4|]. apply wp_ret; auto.
        assert (G : exists ls, pinv s4 V3 x3 /\ xle x1 x3 /\ Den s4 c u /\ Forall2 (litOf s4 x3) (Operands f s1) ls /\ is_cnf u = true /\
           (forall b, eval b u = negb (b y) || existsb (eval_lit b) ls) /\ (forall z, occurs z u -> z = y \/ In z (map fst ls))).
        { exists ls. split; [eapply pinv_ext; [exact I3|exact I4|exact X4|exact P3]|]. split; auto. split; auto.
          split; [eapply litsOf_mono; [apply X4|apply xle_refl|auto]|]. split; [|split].
          - subst u. destruct ls; auto. simpl. clear. induction ls; auto.
          - intros b. rewrite Ue. simpl. unfold eval_lit at 1. simpl. rewrite existsb_TLit. auto.
          - intros z Hz. assert (Hz' : occurs z (TOr (map TLit ((y, false) :: ls)))).
            { subst u. destruct ls; auto. simpl in Hz. apply occurs_or. exists (TLit (y, false)). simpl. auto. }
            apply occurs_or in Hz'. destruct Hz' as (w & Hw & Hz'). apply in_map_iff in Hw. destruct Hw as (l & <- & Hl). simpl in Hz'. subst z.
            destruct Hl as [<-|Hl]; auto. right. apply in_map; auto. }
        exact (ex_intro _ u G).
    + intros [g x2] s2 V2 I2 X2 (u & ls & P2 & L2 & U1 & HL & Uc & Ue & Uo). simpl in *. apply wp_ret; auto. simpl.
      split; [|split; [eapply xle_trans; eauto|apply setXF_same]].
      assert (EO2 : Operands f s2 = Operands f s1) by (eapply Operands_ext; eauto; [apply I1|apply I2|apply X2]).
      apply (pinv_setXF s2 V2 x2 f g SOr ts u (y, true) ls); auto.
      * right; auto.
      * eapply wext_Den; eauto.
      * eapply litOf_mono; [apply X2|exact L2|exact Lf].
      * rewrite EO2. auto.
      * intros b Hb Hy. rewrite Ue in Hb. unfold eval_lit in Hy. simpl in *. rewrite Hy in Hb. auto.
      * intros b Hb. rewrite Ue.
        pose proof (litsOf_eval s2 V2 x2 _ ls ts (v_wf _ _ I2) P2 HL (wext_Dens _ _ _ _ _ _ X2 HO) b Hb) as HE.
        change (existsb (eval_lit b) ls) with (top SOr b ls). rewrite (top_eval SOr b ls ts (or_intror eq_refl) HE).
        destruct (litOf_eval s2 V2 x2 f (y, true) (mk SOr ts) (v_wf _ _ I2) P2) as [HH _].
        { eapply litOf_mono; [apply X2|exact L2|exact Lf]. } { eapply wext_Den; eauto. }
        specialize (HH b Hb). unfold eval_lit in HH; simpl in HH. simpl. rewrite HH. destruct (existsb (eval b) ts); auto.
Qed.

Definition ctQ (s : state) (V : asg -> Prop) (x : auxState) (f g : formula) (t : tree) : Prop :=
  exists u l, Den s g u /\ is_cnf u = true /\ litOf s x f l /\ (forall b, eval b u = true -> eval_lit b l = true -> eval b t = true) /\
    (forall b, V b -> eval b u = true) /\ (forall z, occurs z u -> occurs z t \/ auxN z).
Lemma ctQ_mono s V s' V' x x' f g t : wext s V s' V' -> xle x x' -> ctQ s V x f g t -> ctQ s' V' x' f g t.
Proof.
  intros X L (u & l & A & B & C & D & E & F). exists u, l. split; [eapply wext_Den; eauto|]. split; auto.
  split; [eapply litOf_mono; [apply X|eauto|eauto]|]. split; auto. split; auto. intros b Hb. apply E. apply X; auto.
Qed.

Lemma nnfn_ops k s f ts : dual k -> wf s -> Den s f (mk k ts) -> nnfn (mk k ts) = true -> Forall (fun t => nnfn t = true) ts.
Proof.
  intros Hk Hw Hd Hn. apply Forall_forall. intros t Ht. eapply nnfn_sub; [exact Hw| |exact Hd|exact Hn].
  econstructor; [|constructor]. destruct Hk as [-> | ->]; exact Ht.
Qed.

Lemma computeTransformation_nary k ts s V f x : dual k -> winv s V -> pinv s V x -> Den s f (mk k ts) ->
  (forall t, In t ts -> forall s V f x, winv s V -> pinv s V x -> Den s f t ->
     wp (fun n => computeTransformation n f x) s V (fun r s' V' => pinv s' V' (snd r) /\ xle x (snd r) /\ ctQ s' V' (snd r) f (fst r) t)) ->
  wp (fun n => ops <- get (opNary f) ;; p <- computePosPolarity f x ;; nops <- mapX (computeTransformation n) ops (snd p) ;;
      g <- up (And (fst p :: fst nops)) ;; ret (g, snd nops)) s V
    (fun r s' V' => pinv s' V' (snd r) /\ xle x (snd r) /\ ctQ s' V' (snd r) f (fst r) (mk k ts)).
Proof.
  intros Hk I HP Hd IH. apply wp_get. destruct (opNary_mk' k s f ts Hk (v_wf _ _ I) Hd) as [EO HO]. rewrite EO.
  eapply wp_bind; [apply (computePosPolarity_ok k ts s V f x Hk I HP Hd)|].
  intros [p x1] s1 V1 I1 X1 (P1 & L1 & F1). simpl in *.
  destruct (p_formula _ _ _ P1 f p F1) as (k' & ts' & u & lf & ls & Hk' & Hd' & U1 & U2 & U3 & U4 & U5 & U6 & U7).
  pose proof (wext_Den _ _ _ _ _ _ X1 Hd) as Hd1.
  assert (Ek : mk k' ts' = mk k ts) by (eapply Den_fun; [exact Hd'|exact Hd1]).
  assert (k' = k /\ ts' = ts) as [-> ->] by (destruct Hk as [-> | ->], Hk' as [-> | ->]; simpl in Ek; inversion Ek; auto). clear Ek Hd' Hk'.
  assert (EO1 : Operands f s1 = Operands f s) by (eapply Operands_ext; [apply I|apply I1|apply X1|exact Hd]). rewrite EO1 in U4.
  eapply wp_bind.
  - apply (wp_mapX computeTransformation (fun s V x => pinv s V x) (fun s V x a b c => ctQ s V x a b c)) with (cs := ts) (R := Den).
    + intros; eapply ctQ_mono; eauto.
    + intros; eapply wext_Den; eauto.
    + intros op t _ Ht s2 V2 x2 I2 X2 L2 P2 D2. apply (IH t Ht); auto.
    + exact I1.
    + exact P1.
    + eapply wext_Dens; eauto.
  - intros [nops x2] s2 V2 I2 X2 (P2 & L2 & bs & <- & Q2 & Hlen). simpl in *.
    pose proof (litsOf_mono _ _ _ _ _ _ (x_ext _ _ _ _ X2) L2 U4) as U4'.
    assert (HU : exists us, Forall2 (Den s2) nops us /\ forallb is_cnf us = true /\
       (forall b, forallb (eval b) us = true -> Forall2 (fun l t => eval_lit b l = true -> eval b t = true) ls ts) /\
       (forall b, V2 b -> forallb (eval b) us = true) /\ (forall z w, In w us -> occurs z w -> (exists t, In t ts /\ occurs z t) \/ auxN z)).
    { clear -Q2 Hlen U4' I2. revert ls nops ts Hlen Q2 U4'. generalize (Operands f s). induction l as [|a l IH]; intros ls [|g nops] ts Hlen Q2 U4; try discriminate.
      - inversion Q2; inversion U4; subst. exists []. simpl. split; auto. split; auto. split; auto. split; auto. intros ? ? [].
      - simpl in Q2. inversion Q2 as [|? t ? ts' (u & l' & A1 & A2 & A3 & A4 & A5 & A6) Q3]; subst. inversion U4 as [|? la ? ls' B1 B2]; subst. simpl in *.
        assert (l' = la) as -> by (eapply litOf_fun; [apply I2|exact A3|exact B1]).
        destruct (IH ls' nops ts') as (us & C1 & C2 & C3 & C4 & C5); auto. exists (u :: us). split; auto. split; [simpl; rewrite A2; auto|]. split; [|split].
        + intros b Hb. simpl in Hb. apply andb_true_iff in Hb. destruct Hb. constructor; auto.
        + intros b Hb. simpl. rewrite A5, C4; auto.
        + intros z w [<-|Hw] Hz.
          * destruct (A6 z Hz); auto. left. exists t. split; [left; auto|auto].
          * destruct (C5 z w Hw Hz) as [(t' & D1 & D2)|]; auto. left. exists t'. split; [right; auto|auto]. }
    destruct HU as (us & C1 & C2 & C3 & C4 & C5).
    eapply wp_bind; [apply rp_wp; [exact I2|apply (rp_and (p :: nops) (u :: us)); [apply I2|constructor; [eapply wext_Den; eauto|auto]]]|].
    intros g s3 V3 I3 X3 (-> & w & W1 & W2 & W3). apply wp_ret; auto. simpl.
    split; [eapply pinv_ext; [exact I2|exact I3|exact X3|exact P2]|]. split; [eapply xle_trans; eauto|].
    exists w, lf. split; auto. split; [eapply and_shape_cnf; [exact W3|simpl; rewrite U2, C2; auto]|].
    split; [eapply litOf_mono; [apply X3|apply xle_refl|eapply litOf_mono; [apply X2|exact L2|exact U3]]|].
    assert (WE : forall b, eval b w = eval b u && forallb (eval b) us) by (intros b; rewrite W2; auto).
    split; [|split].
    + intros b Hb Hl. rewrite WE in Hb. apply andb_true_iff in Hb. destruct Hb as [Hb1 Hb2]. specialize (U5 b Hb1 Hl). specialize (C3 b Hb2).
      clear -U5 C3 Hk. destruct Hk as [-> | ->]; simpl in *.
      * induction C3; simpl in *; auto. apply andb_true_iff in U5. destruct U5. rewrite H; auto.
      * induction C3; simpl in *; auto. apply orb_true_iff in U5. destruct U5 as [U5|U5]; [rewrite H; auto|rewrite IHC3; auto; apply orb_true_r].
    + intros b Hb. rewrite WE, C4 by auto. rewrite U6; auto. apply X2; auto.
    + intros z Hz. destruct (and_shape_occurs z _ _ W3 Hz) as (w' & [<-|Hw'] & Hz').
      * assert (HO2 : Forall2 (Den s2) (Operands f s) ts) by (eapply wext_Dens; [exact X2|eapply wext_Dens; eauto]).
        destruct (U7 z Hz') as [->|Hin].
        -- apply (litOf_eval s2 V2 x2 f lf (mk k ts)); [apply I2|exact P2|eapply litOf_mono; [apply X2|exact L2|exact U3]|eapply wext_Den; eauto].
        -- apply in_map_iff in Hin. destruct Hin as (l & <- & Hl). destruct (Forall2_in_r _ _ _ _ U4' Hl) as (op & Hop & Lop).
           destruct (Forall2_in_l _ _ _ _ HO2 Hop) as (t & Ht & Dt).
           destruct (litOf_eval s2 V2 x2 op l t (v_wf _ _ I2) P2 Lop Dt) as [_ [Ho|Ho]]; auto. left. apply occurs_mk; auto. eauto.
      * destruct (C5 z w' Hw' Hz') as [(t & Ht & Ho)|]; auto. left. apply occurs_mk; auto. eauto.
Qed.

Lemma computeTransformation_ok : forall t s V f x, winv s V -> pinv s V x -> Den s f t -> nnfn t = true ->
  wp (fun n => computeTransformation n f x) s V (fun r s' V' => pinv s' V' (snd r) /\ xle x (snd r) /\ ctQ s' V' (snd r) f (fst r) t).
Proof.
  induction t using tree_ind'; intros s V f x I HP Hd Hn; try discriminate; pose proof (Den_sort _ _ _ Hd) as Hs; apply wp_S; cbn [computeTransformation]; rewrite Hs.
  - apply wp_ret; auto. split; auto. split; [apply xle_refl|]. exists TTrue, l. simpl. split; [apply Den_true|]. split; auto.
    split; [unfold litOf; rewrite (is_slit s f _ Hd); simpl; apply Den_litt_inv; auto|]. split; auto. split; auto. intros z [].
  - assert (Hts : Forall (fun t => nnfn t = true) ts) by (apply (nnfn_ops SAnd s f ts (or_introl eq_refl) (v_wf _ _ I) Hd Hn)).
    apply (computeTransformation_nary SAnd ts s V f x (or_introl eq_refl) I HP Hd).
    rewrite Forall_forall in *. intros t Ht s1 V1 f1 x1 I1 P1 D1. apply (H t Ht); auto.
  - assert (Hts : Forall (fun t => nnfn t = true) ts) by (apply (nnfn_ops SOr s f ts (or_intror eq_refl) (v_wf _ _ I) Hd Hn)).
    apply (computeTransformation_nary SOr ts s V f x (or_intror eq_refl) I HP Hd).
    rewrite Forall_forall in *. intros t Ht s1 V1 f1 x1 I1 P1 D1. apply (H t Ht); auto.
Qed.

Definition pgPost (t : tree) (g : formula) (s' : state) (V' : asg -> Prop) : Prop :=
  exists w, Den s' g w /\ is_cnf w = true /\ auxrepr V' t w.

(** The invariant of the auxiliary state survives unless a small formula was factorised: then the
    code stores the literal 0 for it (see C15_reuse_refuted). *)
Lemma pgCNF_ok cf bnd t s V f x : winv s V -> pinv s V x -> Den s f t -> encodable cf t ->
  wp (fun n => pgCNF n cf bnd f x) s V (fun r s' V' => pgPost t (fst r) s' V').
Proof.
  intros I HX Hd He. unfold pgCNF. eapply wp_bind; [apply (NNF_ok cf t s V f I Hd He)|].
  intros g s1 V1 I1 X1 (u & Du & Nu & Ru & Sh).
  pose proof (wext_Den _ _ _ _ _ _ X1 Hd) as Hd1. pose proof (pinv_ext _ _ _ _ _ I I1 X1 HX) as HX1.
  assert (Hpu : pbfree u = true) by (apply is_nnf_pbfree; auto).
  eapply wp_bind; [apply (isCNF_ok u s1 V1 g I1 Du)|]. intros b s2 V2 I2 X2 (-> & -> & ->).
  destruct (is_cnf u) eqn:Ec.
  { apply wp_ret; auto. exists u. split; auto. split; auto. apply repr_auxrepr; auto. }
  assert (Cu : compound u = true) by (destruct u; auto; discriminate).
  assert (Hnn : nnfn u = true) by (unfold nnfn; rewrite Nu; destruct u; auto; discriminate).
  eapply wp_bind; [apply (numberOfAtoms_ok u s1 V1 g I1 Du)|]. intros z s3 V3 I3 X3 Hz.
  assert (G : wp (fun n => if (z <? bnd)%Z then g <- factorizedCNF n cf g ;; ret (g, x)
        else p <- computeTransformation n g x ;;
             g <- restrict n (newAsn1 (getXL g (snd p))) (fst p) ;; ret (g, snd p)) s3 V3
     (fun r s' V' => pgPost u (fst r) s' V')).
  { pose proof (wext_Den _ _ _ _ _ _ X3 Du) as Du3. pose proof (pinv_ext _ _ _ _ _ I1 I3 X3 HX1) as HX3.
    destruct (z <? bnd)%Z.
    - eapply wp_bind; [apply (factorizedCNF_ok cf u s3 V3 g I3 Du3); apply pbfree_encodable; auto|].
      intros r s4 V4 I4 X4 (w & A1 & A2 & A3). apply wp_ret; auto.
      exists w. split; auto. split; auto. apply repr_auxrepr; auto.
    - eapply wp_bind; [apply (computeTransformation_ok u s3 V3 g x I3 HX3 Du3 Hnn)|].
      intros [p x4] s4 V4 I4 X4 (P4 & L4 & w & l & A1 & A2 & A3 & A4 & A5 & A6). simpl in *.
      pose proof (wext_Den _ _ _ _ _ _ X4 Du3) as Du4.
      assert (Hl : exists v y, x_literal x4 g = Some v /\ litDen s4 v (y, true) /\ l = (y, true) /\ ~ occurs y u).
      { unfold litOf in A3. rewrite (is_slit s4 g _ Du4) in A3. replace (is_lit u) with false in A3 by (destruct u; auto; discriminate).
        destruct A3 as (v & B1 & B2). destruct (p_lit _ _ _ P4 g v B1) as (t' & y & C1 & C2 & C3 & _).
        assert (t' = u) as -> by (eapply Den_fun; [exact C1|exact Du4]). exists v, y. split; auto. split; auto. split; auto.
        eapply litDen_fun; [exact B2|exact C2]. }
      destruct Hl as (v & y & B1 & B2 & -> & B3).
      assert (EL : getXL g x4 = v) by (unfold getXL; rewrite B1; auto). rewrite EL.
      eapply wp_bind; [apply rp_wp; [exact I4|apply (restrict_cnf (newAsn1 v) [(y, true)] w s4 p); [apply I4|apply newAsn1_is; [apply I4|auto]|auto|auto]]|].
      intros r s5 V5 I5 X5 (-> & q & Q1 & [R1 R2] & Q3). apply wp_ret; auto. simpl. exists q. split; auto. split; auto.
      assert (Hov : forall b x, x <> y -> over (amap [(y, true)]) b x = b x).
      { intros b z0 Hx. unfold over. rewrite amap1. destruct (String.eqb_spec z0 y); auto. contradiction. }
      assert (Hov1 : forall b, over (amap [(y, true)]) b y = true). { intros b. unfold over. rewrite amap1, String.eqb_refl. auto. }
      assert (Hev : forall b, eval (over (amap [(y, true)]) b) u = eval b u).
      { intros b. apply eval_agree. intros x0 Hx. apply Hov. intros ->. auto. }
      split; [|split].
      + intros b Hb. rewrite R1 in Hb. rewrite <- Hev. apply A4; auto. unfold eval_lit; simpl. apply Hov1.
      + intros b HV Hb. rewrite R1. rewrite (eval_agree w _ b); [apply A5; auto|]. intros x0 Hx. unfold over. rewrite amap1.
        destruct (String.eqb_spec x0 y) as [->|]; auto.
        destruct (litOf_eval s4 V4 x4 g (y, true) u (v_wf _ _ I4) P4 A3 Du4) as [HH _]. specialize (HH b HV). rewrite Hb in HH. unfold eval_lit in HH; simpl in HH. auto.
      + intros _ x0 Hx. destruct (R2 x0 Hx) as [Ho _]. auto. }
  eapply wp_bind; [exact G|]. intros r s4 V4 I4 X4 (w & A & B & C). apply wp_ret; auto. simpl.
  assert (X14 : wext s1 V1 s4 V4) by (eapply wext_trans; eauto).
  exists w. split; auto. split; auto. eapply wext_repr in Ru; [|exact X14]. destruct Ru as (R1 & R2 & R3), C as (C1 & C2 & C3).
  split; auto. split; auto. intros Hp z0 Hz0. destruct (C3 Hpu z0 Hz0); auto. left. apply R3; auto.
Qed.
