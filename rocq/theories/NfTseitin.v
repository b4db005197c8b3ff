(** * Proofs about the Tseitin transformation *)
From Coq Require Import String Ascii List Bool ZArith NArith Lia.
From Verif Require Import Spec Factory FactoryProofs FactoryProofs2 FactoryProofs3 FactoryApi FactoryProps Assign NormalForm NfBase NfAssign NfEnc NfNnf NfCnf NfFun.
Import ListNotations.
Local Open Scope N_scope.

(** ** Restriction keeps conjunctive normal forms *)
Lemma rp_conj {A} (m : nat -> M A) s (P Q : A -> state -> Prop) : rp m s P -> rp m s Q -> rp m s (fun a s' => P a s' /\ Q a s').
Proof.
  intros (n0 & a & s' & H & X & HP) (n1 & a1 & s1 & H1 & X1 & HQ).
  assert (E : Some (a, s') = Some (a1, s1)) by (rewrite <- (H (Nat.max n0 n1)), <- (H1 (Nat.max n0 n1)) by lia; auto).
  inversion E; subst. exists n0, a1, s1. auto.
Qed.

Definition constLit (t : tree) : bool := match t with TTrue | TFalse | TLit _ => true | _ => false end.
Lemma restrict_atom a ns t s f : wf s -> asnIs s a ns -> Den s f t -> constLit t = true ->
  rp (fun n => restrict n a f) s (fun g s' => exists u, Den s' g u /\ constLit u = true).
Proof.
  intros Hw Ha Hd Hc. pose proof (Den_sort _ _ _ Hd) as Hs. apply rp_S; cbn [restrict]; rewrite Hs. destruct t; try discriminate; simpl.
  - apply rp_ret; auto. exists TFalse. auto.
  - apply rp_ret; auto. exists TTrue. auto.
  - destruct l as [n p]. pose proof (Den_litt_inv _ _ _ Hd) as Hl. apply rp_ret; auto. rewrite (restrictLit_ok s a ns f n p Hw Ha Hl).
    destruct (amap ns n) as [v|] eqn:Em.
    + exists (if Bool.eqb p v then TTrue else TFalse). split; [destruct (Bool.eqb p v); [apply Den_true|apply Den_false]|destruct (Bool.eqb p v); auto].
    + exists (TLit (n, p)). auto.
Qed.
Lemma restrict_ops a ns (P : tree -> bool) ops ts s : wf s -> asnIs s a ns -> Forall2 (Den s) ops ts ->
  (forall t s f, In t ts -> wf s -> asnIs s a ns -> Den s f t -> rp (fun n => restrict n a f) s (fun g s' => exists u, Den s' g u /\ P u = true)) ->
  rp (fun n => mapM (restrict n a) ops) s (fun nops s' => exists us, Forall2 (Den s') nops us /\ forallb P us = true).
Proof.
  intros Hw Ha HF HP. eapply rp_conseq.
  - apply (rp_mapM (fun n => restrict n a) (fun s f t => Den s f t /\ asnIs s a ns) (fun s g t => exists u, Den s g u /\ P u = true)) with (cs := ts).
    + intros s1 s2 P1 a0 c (H1 & H2). apply pstep_ext in P1. split; eauto using ext_Den, asnIs_ext.
    + intros s1 s2 P1 a0 c (u & H1 & H2). apply pstep_ext in P1. exists u. split; eauto using ext_Den.
    + intros a0 c Hin Hc s1 P1 (H1 & H2). apply (HP c); auto. eapply pstep_wf; eauto.
    + auto.
    + eapply Forall2_impl; [|exact HF]. simpl. auto.
  - simpl. intros nops s1 P1 Hn. clear -Hn. induction Hn; [exists []; auto|]. destruct IHHn as (us & ? & ?). destruct H as (u & ? & ?).
    exists (u :: us). split; [constructor; auto|]. simpl. rewrite H2, H1. auto.
Qed.
Lemma constLit_flat u : constLit u = true -> flatOr u = true. Proof. destruct u; auto; discriminate. Qed.
Lemma restrict_clause a ns t s f : wf s -> asnIs s a ns -> Den s f t -> is_clause t = true ->
  rp (fun n => restrict n a f) s (fun g s' => exists u, Den s' g u /\ flatOr u = true).
Proof.
  intros Hw Ha Hd Hc. destruct t; try discriminate.
  - eapply rp_conseq; [apply (restrict_atom a ns (TLit l)); auto|]. intros g s' _ (u & H1 & H2). exists u. split; auto. apply constLit_flat; auto.
  - pose proof (Den_sort _ _ _ Hd) as Hs. apply rp_S; cbn [restrict]; rewrite Hs. apply rp_get.
    simpl in Hc. rewrite forallb_forall in Hc.
    eapply rp_bind; [apply (restrict_ops a ns constLit _ ts); auto; [apply opNary_or; auto|]|].
    { intros t s1 f1 Ht Hw1 Ha1 Hd1. apply (restrict_atom a ns t); auto. specialize (Hc t Ht). destruct t; auto; discriminate. }
    intros nops s1 P1 (us & Hus & Hcl). rewrite naryOp_or. eapply rp_conseq; [apply (rp_or nops us); [eapply pstep_wf; eauto|auto]|].
    intros r s2 P2 (w & Hw2 & Heq & Hsh). exists w. split; auto. eapply or_shape_flat; eauto.
    rewrite forallb_forall in *. intros u Hu. apply constLit_flat; auto.
Qed.
Lemma restrict_cnf a ns t s f : wf s -> asnIs s a ns -> Den s f t -> is_cnf t = true ->
  rp (fun n => restrict n a f) s (fun g s' => exists u, Den s' g u /\ restricted (amap ns) t u /\ is_cnf u = true).
Proof.
  intros Hw Ha Hd Hc.
  assert (G : rp (fun n => restrict n a f) s (fun g s' => exists u, Den s' g u /\ is_cnf u = true)).
  { destruct t; try discriminate.
    - eapply rp_conseq; [apply (restrict_atom a ns TFalse); auto|]. intros g s' _ (u & H1 & H2). exists u. split; auto. destruct u; auto; discriminate.
    - eapply rp_conseq; [apply (restrict_atom a ns TTrue); auto|]. intros g s' _ (u & H1 & H2). exists u. split; auto. destruct u; auto; discriminate.
    - eapply rp_conseq; [apply (restrict_atom a ns (TLit l)); auto|]. intros g s' _ (u & H1 & H2). exists u. split; auto. destruct u; auto; discriminate.
    - pose proof (Den_sort _ _ _ Hd) as Hs. apply rp_S; cbn [restrict]; rewrite Hs. apply rp_get.
      simpl in Hc. rewrite forallb_forall in Hc.
      eapply rp_bind; [apply (restrict_ops a ns flatOr _ ts); auto; [apply opNary_and; auto|]|].
      { intros t s1 f1 Ht Hw1 Ha1 Hd1. apply (restrict_clause a ns t); auto. }
      intros nops s1 P1 (us & Hus & Hcl). rewrite naryOp_and. eapply rp_conseq; [apply (rp_and nops us); [eapply pstep_wf; eauto|auto]|].
      intros r s2 P2 (w & Hw2 & Heq & Hsh). exists w. split; auto. eapply and_shape_cnf; eauto.
      rewrite forallb_forall in *. intros u Hu. apply flatOr_cnf; auto.
    - eapply rp_conseq; [apply (restrict_clause a ns (TOr ts)); auto|]. intros g s' _ (u & H1 & H2). exists u. split; auto. apply flatOr_cnf; auto. }
  eapply rp_conseq; [apply rp_conj; [exact G|apply (restrict_ok a ns t); auto]|].
  intros g s' P [(u & H1 & H2) (u' & H3 & H4)]. assert (u' = u) as -> by (eapply Den_fun; eauto). exists u. auto.
Qed.

(** ** The definitions of auxiliary variables *)
(** [D] lists subformulas and the variable that stands for each. *)
Definition satD (b : asg) (D : list (tree * string)) : Prop := forall t y, In (t, y) D -> b y = eval b t.
Definition okD (V : asg -> Prop) (xs : string -> Prop) (D : list (tree * string)) : Prop :=
  forall t y, In (t, y) D -> (forall x, occurs x t -> xs x) /\ auxN y /\ forall b, V b -> b y = eval b t.
Record tdef (V : asg -> Prop) (t : tree) (y : string) (u : tree) (D : list (tree * string)) : Prop := {
  d_cnf : is_cnf u = true;
  d_in : In (t, y) D;
  d_new : ~ occurs y t;
  d_ok : okD V (fun x => occurs x t) D;
  d_sem : forall b, eval b u = true <-> satD b D;
  d_occ : forall x, occurs x u -> occurs x t \/ exists t', In (t', x) D }.

Definition xinv (s : state) (V : asg -> Prop) (x : auxState) : Prop :=
  forall f h, x_formula x f = Some h -> exists t, Den s f t /\ is_nnf t = true /\
    match t with
    | TLit _ => x_literal x f = Some f
    | TAnd _ | TOr _ => exists v y u D, x_literal x f = Some v /\ litDen s v (y, true) /\ Den s h u /\ tdef V t y u D
    | _ => False
    end.
Definition xdone (x : auxState) (f : formula) : Prop := x_formula x f <> None.

Lemma okD_mono (V V' : asg -> Prop) (xs xs' : string -> Prop) D : (forall b, V' b -> V b) -> (forall x, xs x -> xs' x) -> okD V xs D -> okD V' xs' D.
Proof. intros H1 H2 H t y Hi. destruct (H t y Hi) as (A & B & C). auto. Qed.
Lemma tdef_mono (V V' : asg -> Prop) t y u D : (forall b, V' b -> V b) -> tdef V t y u D -> tdef V' t y u D.
Proof. intros H [A B C E F G]. constructor; auto. apply (okD_mono V V' (fun x => occurs x t) (fun x => occurs x t)); auto. Qed.
Lemma litDen_ext1 s s' l n : ext s s' -> litDen s l n -> litDen s' l n.
Proof. intros E H. pose proof (litDen_ext s s' [l] [n] E (Forall2_cons _ _ H (Forall2_nil _))) as HF. inversion HF; auto. Qed.
Lemma wext_litDen s V s' V' l n : wext s V s' V' -> litDen s l n -> litDen s' l n.
Proof. intros X. apply litDen_ext1. apply X. Qed.
Lemma xinv_ext s V s' V' x : wext s V s' V' -> xinv s V x -> xinv s' V' x.
Proof.
  intros X H f h Hf. destruct (H f h Hf) as (t & D & Hn & HT). exists t. split; [eapply wext_Den; eauto|]. split; auto.
  destruct t; auto; destruct HT as (v & y & u & Ds & H1 & H2 & H3 & H4); exists v, y, u, Ds;
  (split; [auto|split; [eapply wext_litDen; eauto|split; [eapply wext_Den; eauto|eapply tdef_mono; [apply X|auto]]]]).
Qed.
Lemma xinv_new s V : xinv s V newAuxState.
Proof. intros f h H. discriminate. Qed.

Lemma satD_app b D E : satD b (D ++ E) <-> satD b D /\ satD b E.
Proof.
  unfold satD. split.
  - intros H. split; intros t y Hi; apply H; apply in_or_app; auto.
  - intros [H1 H2] t y Hi. apply in_app_or in Hi. destruct Hi; auto.
Qed.
Lemma satD_cons b t y D : satD b ((t, y) :: D) <-> b y = eval b t /\ satD b D.
Proof.
  unfold satD. split.
  - intros H. split; [apply H; left; auto|]. intros t' y' Hi. apply H. right; auto.
  - intros [H1 H2] t' y' [E|Hi]; [inversion E; subst; auto|auto].
Qed.
Lemma okD_app V xs D E : okD V xs D -> okD V xs E -> okD V xs (D ++ E).
Proof. intros H1 H2 t y Hi. apply in_app_or in Hi. destruct Hi; auto. Qed.

(** a literal stands for a subformula *)
Definition stands (D : list (tree * string)) (l : lit) (t : tree) : Prop :=
  (forall b, satD b D -> eval_lit b l = eval b t) /\ (occurs (fst l) t \/ exists t', In (t', fst l) D).
Lemma stands_mono D E l t : incl D E -> stands D l t -> stands E l t.
Proof.
  intros Hi [H1 H2]. split.
  - intros b Hb. apply H1. intros t' y' Hy. auto.
  - destruct H2 as [H2|(t' & H2)]; [auto|right; exists t'; auto].
Qed.

Lemma wp_shift {A} (m : nat -> M A) s V Q : wp m s V Q -> wp (fun n => m (S n)) s V Q.
Proof. intros (n0 & a & s' & V' & H & R). exists n0, a, s', V'. split; auto. Qed.

(** what [handleNary] returns *)
Definition naryPost (V : asg -> Prop) (x : auxState) (ts : list tree)
  (q : list formula * list formula * list formula * auxState) (s' : state) : Prop :=
  let '(nops, os, ns, x2) := q in
  x2 = x /\ exists ls us D,
    Forall2 (litDen s') os ls /\ Forall2 (litDen s') ns (map (fun l => (fst l, negb (snd l))) ls) /\
    Forall2 (Den s') nops us /\ forallb is_cnf us = true /\
    okD V (fun z => occurs z (TAnd ts)) D /\ (forall b, forallb (eval b) us = true <-> satD b D) /\
    (forall z u, In u us -> occurs z u -> occurs z (TAnd ts) \/ exists t', In (t', z) D) /\
    Forall2 (stands D) ls ts.

Lemma negl_ok l : (fun l : lit => (fst l, negb (snd l))) l = (fst l, negb (snd l)). Proof. auto. Qed.

Lemma handleNary_ok x : forall ops ts s V, winv s V -> xinv s V x -> Forall2 (Den s) ops ts -> Forall (xdone x) ops ->
  wp (fun n => handleNary (computeTseitin n) ops x) s V (fun q s' V' => V' = V /\ naryPost V x ts q s').
Proof.
  induction ops as [|op ops IH]; intros ts s V I HX HF HD; inversion HF; subst.
  - apply wp_ret; auto. split; auto. split; auto. exists [], [], []. simpl.
    split; auto. split; auto. split; auto. split; auto. split; [intros ? ? []|]. split; [|split; auto; intros ? ? []].
    intros b. split; auto. intros _ ? ? [].
  - rename y into t, l' into ts. inversion HD as [|? ? Hd HD']; subst.
    destruct (x_formula x op) as [h|] eqn:Eh; [|elim Hd; auto]. destruct (HX op h Eh) as (t' & Dt & Hn & HT).
    assert (t' = t) as -> by (eapply Den_fun; eauto; apply I). clear Dt.
    assert (Hlit : exists l lt us1 D1, x_literal x op = Some l /\ litDen s l lt /\
      (match srt op with SLit => us1 = [] | _ => exists u, us1 = [u] /\ Den s h u /\ is_cnf u = true end) /\
      okD V (fun z => occurs z t) D1 /\ (forall b, forallb (eval b) us1 = true <-> satD b D1) /\
      (forall z u, In u us1 -> occurs z u -> occurs z t \/ exists t', In (t', z) D1) /\ stands D1 lt t).
    { pose proof (Den_sort _ _ _ H1) as Hs. destruct t; try contradiction.
      - exists op, l, [], []. split; auto. split; [apply Den_litt_inv; auto|]. rewrite Hs. simpl. split; auto. split; [intros ? ? []|].
        split; [intros b; split; auto; intros _ ? ? []|]. split; [intros ? ? []|]. split; [intros b _; auto|]. left; simpl; auto.
      - destruct HT as (v & y & u & D & A & B & C & [E1 E2 E3 E4 E5 E6]). exists v, (y, true), [u], D. split; auto. split; auto.
        rewrite Hs. split; [exists u; auto|]. split; auto. split; [intros b; simpl; rewrite andb_true_r; apply E5|].
        split; [intros z w [<-|[]]; auto|]. split; [|right; simpl; exists (TAnd ts0); auto]. intros b Hb. unfold eval_lit; simpl. rewrite (Hb _ _ E2). simpl. destruct (forallb (eval b) ts0); auto.
      - destruct HT as (v & y & u & D & A & B & C & [E1 E2 E3 E4 E5 E6]). exists v, (y, true), [u], D. split; auto. split; auto.
        rewrite Hs. split; [exists u; auto|]. split; auto. split; [intros b; simpl; rewrite andb_true_r; apply E5|].
        split; [intros z w [<-|[]]; auto|]. split; [|right; simpl; exists (TOr ts0); auto]. intros b Hb. unfold eval_lit; simpl. rewrite (Hb _ _ E2). simpl. destruct (existsb (eval b) ts0); auto. }
    destruct Hlit as (l & [ln lp] & us1 & D1 & L1 & L2 & L3 & L4 & L5 & L6 & L7).
    assert (Hpre : exists pre, (pre = match srt op with SLit => [] | _ => [getXF op x] end) /\ Forall2 (Den s) pre us1 /\ forallb is_cnf us1 = true).
    { eexists. split; [reflexivity|]. unfold getXF. rewrite Eh. destruct (srt op); try (destruct L3 as (u & -> & ? & E); simpl; rewrite E; auto). subst; auto. }
    destruct Hpre as (pre & Epre & Hpre & Hcnf).
    apply wp_S. apply (wp_ext (fun n => nl <- up (negateLit l) ;; q <- handleNary (computeTseitin (S n)) ops x ;;
       let '(nops, os, ns, x2) := q in ret (pre ++ nops, l :: os, nl :: ns, x2))).
    { intros n. cbn [handleNary].
      assert (Er : (match srt op with SLit => ret x | _ => computeTseitin (S n) op x end) = ret x).
      { cbn [computeTseitin]. rewrite Eh. destruct (srt op); auto. }
      rewrite Er. match goal with |- _ = bind (ret x) ?k s => change (bind (ret x) k s) with (k x s) end. cbv beta.
      assert (Eg : getXL op x = l) by (unfold getXL; rewrite L1; auto). rewrite Eg. cbv zeta. rewrite <- Epre. reflexivity. }
    destruct (negateLit l s) as [nl s1] eqn:En. destruct (winv_negateLit s V l ln lp nl s1 I L2 En) as (I1 & X1 & Hnl).
    eapply wp_up; [exact En|exact X1|].
    eapply wp_bind; [apply (wp_shift (fun n => handleNary (computeTseitin n) ops x)); apply (IH ts s1 V); auto; [eapply xinv_ext; eauto|eapply wext_Dens; eauto]|].
    intros [[[nops os] ns] x2] s2 V2 I2 X2 (-> & -> & ls & us & D & A1 & A2 & A3 & A4 & A5 & A6 & A7 & A8).
    assert (X : wext s V s2 V) by (eapply wext_trans; eauto).
    apply wp_ret; auto. split; auto. split; auto. exists ((ln, lp) :: ls), (us1 ++ us), (D1 ++ D).
    split; [constructor; [eapply wext_litDen; [exact X|exact L2]|exact A1]|]. split; [simpl; constructor; [eapply wext_litDen; [exact X2|exact Hnl]|exact A2]|].
    split; [apply Forall2_app; auto; eapply wext_Dens; eauto|]. split; [rewrite forallb_app, Hcnf, A4; auto|].
    assert (O1 : forall z, occurs z t -> occurs z (TAnd (t :: ts))) by (intros z Hz; apply occurs_and; exists t; split; [left; auto|auto]).
    assert (O2 : forall z, occurs z (TAnd ts) -> occurs z (TAnd (t :: ts))).
    { intros z Hz. apply occurs_and in Hz. destruct Hz as (w & Hw & Hz). apply occurs_and. exists w. split; [right; auto|auto]. }
    split; [apply okD_app; [eapply okD_mono; [|exact O1|exact L4]|eapply okD_mono; [|exact O2|exact A5]]; auto|].
    split; [intros b; rewrite forallb_app, andb_true_iff, satD_app, L5, A6; tauto|].
    split.
    + intros z u Hu Hz. apply in_app_or in Hu. destruct Hu as [Hu|Hu].
      * destruct (L6 z u Hu Hz) as [K|(t' & K)]; [left; auto|right; exists t'; apply in_or_app; auto].
      * destruct (A7 z u Hu Hz) as [K|(t' & K)]; [left; auto|right; exists t'; apply in_or_app; auto].
    + constructor; [eapply stands_mono; [|exact L7]; apply incl_appl; apply incl_refl|].
      eapply Forall2_impl; [|exact A8]. intros ? ?. apply stands_mono. apply incl_appr. apply incl_refl.
Qed.

(** ** One step of the transformation *)
Definition compound (t : tree) : bool := match t with TAnd _ | TOr _ => true | _ => false end.
(** a disjunction of two or more literals *)
Lemma wp_orlits s V fs ls : winv s V -> Forall2 (litDen s) fs ls ->
  wp (fun _ => up (Or fs)) s V (fun g s' V' => V' = V /\ exists u, Den s' g u /\ equiv u (TOr (map TLit ls)) /\ is_cnf u = true /\ forall x, occurs x u -> In x (map fst ls)).
Proof.
  intros I HF. assert (HF' : Forall2 (Den s) fs (map TLit ls)). { clear -HF. induction HF; simpl; constructor; auto. destruct y; apply DLit; auto. }
  eapply wp_conseq; [apply rp_wp; [exact I|apply (rp_or fs (map TLit ls)); [apply I|auto]]|].
  intros g s' V' _ _ (-> & u & H1 & H2 & H3). split; auto. exists u. split; auto. split; auto. split.
  - apply flatOr_cnf. eapply or_shape_flat; eauto. clear. induction ls; auto.
  - intros x Hx. destruct (or_shape_occurs x _ _ H3 Hx) as (t & Ht & Hx'). apply in_map_iff in Ht. destruct Ht as (l & <- & Hl).
    simpl in Hx'. subst. apply in_map; auto.
Qed.
(** binary clauses with one common literal *)
Lemma wp_orpairs n0 l0 : forall fs ls s V, winv s V -> litDen s n0 l0 -> Forall2 (litDen s) fs ls ->
  wp (fun _ => mapM (fun o => up (Or [n0; o])) fs) s V (fun gs s' V' => V' = V /\ exists us, Forall2 (Den s') gs us /\ forallb is_cnf us = true /\ (forall b, forallb (eval b) us = eval_lit b l0 || forallb (eval_lit b) ls) /\ forall x u, In u us -> occurs x u -> x = fst l0 \/ In x (map fst ls)).
Proof.
  induction fs as [|f fs IH]; intros ls s V I H0 HF; inversion HF; subst.
  - apply wp_ret; auto. split; auto. exists []. split; auto. split; auto. split; [intros b; simpl; rewrite orb_true_r; auto|intros ? ? []].
  - rename y into l, l' into ls. simpl. eapply wp_bind; [apply (wp_orlits s V [n0; f] [l0; l]); auto|].
    intros g s1 V1 I1 X1 (-> & u & A1 & A2 & A3 & A4). eapply wp_bind; [apply (IH ls); auto; [eapply wext_litDen; eauto|eapply wext_litDens; eauto]|].
    intros gs s2 V2 I2 X2 (-> & us & B1 & B2 & B3 & B4). apply wp_ret; auto. split; auto. exists (u :: us).
    split; [constructor; auto; eapply wext_Den; eauto|]. split; [simpl; rewrite A3, B2; auto|]. split.
    + intros b. simpl. rewrite A2, B3. simpl. destruct (eval_lit b l0), (eval_lit b l); auto.
    + intros x w [<-|Hw] Hx; [|destruct (B4 x w Hw Hx); auto; right; right; auto].
      apply A4 in Hx. simpl in Hx. destruct Hx as [<-|[<-|[]]]; simpl; auto.
Qed.
Lemma eval_negl b (l : lit) : eval_lit b (fst l, negb (snd l)) = negb (eval_lit b l).
Proof. destruct l as [n []]; unfold eval_lit; simpl; auto. rewrite negb_involutive; auto. Qed.
Lemma negl_forall b ls : existsb (eval_lit b) (map (fun l : lit => (fst l, negb (snd l))) ls) = negb (forallb (eval_lit b) ls).
Proof. induction ls; simpl; auto. rewrite IHls, eval_negl, negb_andb. auto. Qed.
Lemma negl_exists b ls : forallb (eval_lit b) (map (fun l : lit => (fst l, negb (snd l))) ls) = negb (existsb (eval_lit b) ls).
Proof. induction ls; simpl; auto. rewrite IHls, eval_negl, negb_orb. auto. Qed.
Lemma negl_names (ls : list lit) : map fst (map (fun l : lit => (fst l, negb (snd l))) ls) = map fst ls.
Proof. induction ls; simpl; auto. rewrite IHls; auto. Qed.
Lemma existsb_TLit b ls : existsb (eval b) (map TLit ls) = existsb (eval_lit b) ls.
Proof. induction ls; simpl; auto. rewrite IHls; auto. Qed.

(** the clauses that define the variable of a conjunction or disjunction *)
Lemma defs_ok k v nv y os ns ls s V : dual k -> winv s V -> litDen s v (y, true) -> litDen s nv (y, false) ->
  Forall2 (litDen s) os ls -> Forall2 (litDen s) ns (map (fun l : lit => (fst l, negb (snd l))) ls) ->
  wp (fun _ => match k with
               | SAnd => cs <- mapM (fun o => up (Or [nv; o])) os ;; c <- up (Or (v :: ns)) ;; ret (cs ++ [c])
               | _ => cs <- mapM (fun o => up (Or [v; o])) ns ;; c <- up (Or (nv :: os)) ;; ret (cs ++ [c])
               end) s V
     (fun gs s' V' => V' = V /\ exists us, Forall2 (Den s') gs us /\ forallb is_cnf us = true /\ (forall b, forallb (eval b) us = Bool.eqb (b y) (match k with SAnd => forallb (eval_lit b) ls | _ => existsb (eval_lit b) ls end)) /\ forall x u, In u us -> occurs x u -> x = y \/ In x (map fst ls)).
Proof.
  intros Hk I Hv Hnv Ho Hn. set (neg := fun l : lit => (fst l, negb (snd l))) in *.
  assert (E1 : forall b, eval_lit b (y, true) = b y) by (intros b; unfold eval_lit; simpl; auto).
  assert (E2 : forall b, eval_lit b (y, false) = negb (b y)) by (intros b; unfold eval_lit; simpl; auto).
  destruct Hk as [-> | ->].
  - eapply wp_bind; [apply (wp_orpairs nv (y, false) os ls); auto|]. intros cs s1 V1 I1 X1 (-> & us & B1 & B2 & B3 & B4).
    eapply wp_bind; [apply (wp_orlits s1 V (v :: ns) ((y, true) :: map neg ls)); auto; constructor; [eapply wext_litDen; eauto|eapply wext_litDens; eauto]|].
    intros c s2 V2 I2 X2 (-> & u & A1 & A2 & A3 & A4). apply wp_ret; auto. split; auto. exists (us ++ [u]).
    split; [apply Forall2_app; [eapply wext_Dens; eauto|auto]|]. split; [rewrite forallb_app, B2; simpl; rewrite A3; auto|]. split.
    + intros b. rewrite forallb_app, B3. simpl. rewrite A2. simpl. rewrite existsb_TLit. unfold neg. rewrite negl_forall. fold (eval_lit b (y, true)). rewrite E1, E2.
      destruct (b y), (forallb (eval_lit b) ls); auto.
    + intros x w Hw Hx. apply in_app_or in Hw. destruct Hw as [Hw|[<-|[]]]; [apply (B4 x w Hw Hx)|]. apply A4 in Hx. simpl in Hx.
      destruct Hx as [<-|Hx]; auto. right. unfold neg in Hx. rewrite negl_names in Hx. auto.
  - eapply wp_bind; [apply (wp_orpairs v (y, true) ns (map neg ls)); auto|]. intros cs s1 V1 I1 X1 (-> & us & B1 & B2 & B3 & B4).
    eapply wp_bind; [apply (wp_orlits s1 V (nv :: os) ((y, false) :: ls)); auto; constructor; [eapply wext_litDen; eauto|eapply wext_litDens; eauto]|].
    intros c s2 V2 I2 X2 (-> & u & A1 & A2 & A3 & A4). apply wp_ret; auto. split; auto. exists (us ++ [u]).
    split; [apply Forall2_app; [eapply wext_Dens; eauto|auto]|]. split; [rewrite forallb_app, B2; simpl; rewrite A3; auto|]. split.
    + intros b. rewrite forallb_app, B3. simpl. rewrite A2. simpl. rewrite existsb_TLit. unfold neg. rewrite negl_exists. rewrite E1. fold (eval_lit b (y, false)). rewrite E2.
      destruct (b y), (existsb (eval_lit b) ls); auto.
    + intros x w Hw Hx. apply in_app_or in Hw. destruct Hw as [Hw|[<-|[]]].
      * destruct (B4 x w Hw Hx) as [?|Hi]; auto. unfold neg in Hi. rewrite negl_names in Hi. auto.
      * apply A4 in Hx. simpl in Hx. destruct Hx as [<-|Hx]; auto.
Qed.

Lemma setX_formula f g v x h : x_formula (setXF f g (setXL f v x)) h = if feqb h f then Some g else x_formula x h.
Proof. unfold setXF, setXL, upd; simpl. auto. Qed.
Lemma setX_literal f g v x h : x_literal (setXF f g (setXL f v x)) h = if feqb h f then Some v else x_literal x h.
Proof. unfold setXF, setXL, upd; simpl. auto. Qed.

(** storing a new entry *)
Lemma xinv_set s V x f g v t : wf s -> xinv s V x -> Den s f t -> is_nnf t = true ->
  match t with
  | TLit _ => v = f
  | TAnd _ | TOr _ => exists y u D, litDen s v (y, true) /\ Den s g u /\ tdef V t y u D
  | _ => False
  end -> xinv s V (setXF f g (setXL f v x)).
Proof.
  intros Hw HX Hd Hn HT h k Hk. rewrite setX_formula in Hk. rewrite setX_literal. destruct (feqb_spec h f) as [->|Hne].
  - inversion Hk; subst. exists t. split; auto. split; auto. destruct t; auto; [subst; auto| |];
    destruct HT as (y & u & D & A & B & C); exists v, y, u, D; auto.
  - apply HX; auto.
Qed.

Definition stepPost (x : auxState) (f : formula) (x' : auxState) (s' : state) (V' : asg -> Prop) : Prop :=
  xinv s' V' x' /\ xdone x' f /\ forall g, xdone x g -> xdone x' g.

Definition nnfn (t : tree) : bool := is_nnf t && match t with TTrue | TFalse => false | _ => true end.

Lemma tseitin_nary k ts s V f x : dual k -> winv s V -> xinv s V x -> Den s f (mk k ts) -> is_nnf (mk k ts) = true ->
  Forall (xdone x) (Operands f s) ->
  wp (fun n => v <- up (NewAuxVar AuxCNF) ;; ops <- get (Operands f) ;; nv <- up (negateLit v) ;;
        q <- handleNary (computeTseitin n) ops x ;;
        let '(nops, os, ns, x1) := q in
        defs <- (match k with
                 | SAnd => cs <- mapM (fun o => up (Or [nv; o])) os ;; c <- up (Or (v :: ns)) ;; ret (cs ++ [c])
                 | _ => cs <- mapM (fun o => up (Or [v; o])) ns ;; c <- up (Or (nv :: os)) ;; ret (cs ++ [c])
                 end) ;;
        g <- up (And (nops ++ defs)) ;; ret (setXF f g (setXL f v x1))) s V (stepPost x f).
Proof.
  intros Hk I HX Hd Hn HO.
  assert (Hdone : forall g v h, xdone x h \/ h = f -> xdone (setXF f g (setXL f v x)) h).
  { intros g v h Hh. unfold xdone in *. rewrite setX_formula. destruct (feqb_spec h f); [discriminate|]. destruct Hh; auto. }
  destruct (NewAuxVar AuxCNF s) as [v s1] eqn:Ev. set (y := auxName AuxCNF (auxCtr s AuxCNF)).
  destruct (winv_aux s V AuxCNF v s1 (fun b => eval b (mk k ts)) I Ev) as (I1 & X1 & Hv & _).
  { intros b b' Hb. apply eval_agree. intros z Hz. apply Hb. apply (v_fresh _ _ I). eapply Den_names; [apply I|exact Hd|exact Hz]. }
  fold y in I1, X1, Hv. set (V1 := fun b : asg => V b /\ b y = eval b (mk k ts)) in *.
  assert (Hnew : ~ occurs y (mk k ts)).
  { intros Ho. apply (v_fresh _ _ I y); [eapply Den_names; [apply I|exact Hd|exact Ho]|]. left. exists AuxCNF, (auxCtr s AuxCNF). split; [reflexivity|lia]. }
  eapply wp_up; [exact Ev|exact X1|]. apply wp_get.
  assert (Hsub : subtrees (mk k ts) = ts) by (destruct Hk as [-> | ->]; auto).
  assert (HOp : Operands f s1 = Operands f s).
  { eapply (Dens_inj s1 (v_wf _ _ I1) ts); [rewrite <- Hsub; apply Operands_den; [apply I1|eapply wext_Den; eauto]|].
    eapply wext_Dens; [exact X1|]. rewrite <- Hsub. apply Operands_den; auto. apply I. }
  rewrite HOp. destruct (negateLit v s1) as [nv s2] eqn:En.
  destruct (winv_negateLit s1 V1 v y true nv s2 I1 Hv En) as (I2 & X2 & Hnv). simpl in Hnv.
  eapply wp_up; [exact En|exact X2|].
  assert (X02 : wext s V s2 V1) by (eapply wext_trans; eauto).
  assert (HX2 : xinv s2 V1 x) by (eapply xinv_ext; eauto).
  eapply wp_bind; [apply (handleNary_ok x (Operands f s) ts s2 V1 I2 HX2); auto|].
  { eapply wext_Dens; [exact X02|]. rewrite <- Hsub. apply Operands_den; auto. apply I. }
  intros [[[nops os] ns] x1] s3 V3 I3 X3 (-> & -> & ls & us & D & A1 & A2 & A3 & A4 & A5 & A6 & A7 & A8).
  assert (Hv3 : litDen s3 v (y, true)) by (eapply wext_litDen; [exact X3|]; eapply wext_litDen; [exact X2|exact Hv]).
  assert (Hnv3 : litDen s3 nv (y, false)) by (eapply wext_litDen; [exact X3|exact Hnv]).
  eapply wp_bind; [apply (defs_ok k v nv y os ns ls s3 V1 Hk I3 Hv3 Hnv3 A1 A2)|].
  intros gs s4 V4 I4 X4 (-> & us' & B1 & B2 & B3 & B4).
  eapply wp_bind; [apply rp_wp; [exact I4|apply (rp_and (nops ++ gs) (us ++ us')); [apply I4|apply Forall2_app; [eapply wext_Dens; eauto|auto]]]|].
  intros g s5 V5 I5 X5 (-> & u & C1 & C2 & C3).
  assert (X25 : wext s2 V1 s5 V1) by (eapply wext_trans; [exact X3|eapply wext_trans; eauto]).
  assert (X05 : wext s V s5 V1) by (eapply wext_trans; [exact X02|exact X25]).
  apply wp_ret; auto. split; [|split; [apply (Hdone g v); auto|intros h Hh; apply (Hdone g v); auto]].
  apply (xinv_set s5 V1 x f g v (mk k ts)); [apply I5|eapply xinv_ext; [exact X25|exact HX2]|eapply wext_Den; eauto|auto|].
  assert (OM : forall z, occurs z (TAnd ts) <-> occurs z (mk k ts)) by (intros z; rewrite occurs_mk, occurs_and; auto; tauto).
  assert (HT : tdef V1 (mk k ts) y u ((mk k ts, y) :: D)).
  { constructor.
    - eapply and_shape_cnf; [exact C3|]. rewrite forallb_app, A4, B2. auto.
    - left; auto.
    - exact Hnew.
    - intros t' y' [E|Hi].
      + inversion E; subst t' y'. split; auto. split; [left; exists AuxCNF, (auxCtr s AuxCNF); auto|]. intros b [_ Hb]. exact Hb.
      + destruct (A5 t' y' Hi) as (P1 & P2 & P3). split; auto. intros z Hz. apply OM. auto.
    - intros b. rewrite satD_cons, C2. simpl. rewrite forallb_app, andb_true_iff, A6, B3.
      assert (HL : satD b D -> match k with SAnd => forallb (eval_lit b) ls | _ => existsb (eval_lit b) ls end = eval b (mk k ts)).
      { intros Hb. assert (HE : Forall2 (fun l t => eval_lit b l = eval b t) ls ts).
        { eapply Forall2_impl; [|exact A8]. intros l t [Hl _]. auto. }
        clear -Hk HE. destruct Hk as [-> | ->]; simpl; induction HE; simpl; auto; rewrite H, IHHE; auto. }
      split; intros [P Q].
      + rewrite HL in Q by auto. apply eqb_prop in Q. auto.
      + rewrite HL by auto. rewrite P. split; auto. apply eqb_reflx.
    - intros z Hz. destruct (and_shape_occurs z _ _ C3 Hz) as (w & Hw & Hz'). apply in_app_or in Hw. destruct Hw as [Hw|Hw].
      + destruct (A7 z w Hw Hz') as [K|(t' & K)]; [left; apply OM; auto|right; exists t'; right; auto].
      + destruct (B4 z w Hw Hz') as [->|K]; [right; exists (mk k ts); left; auto|].
        apply in_map_iff in K. destruct K as (l & <- & Hl).
        destruct (Forall2_in_l _ _ _ _ A8 Hl) as (t & Ht & [_ [Ho|(t' & Ho)]]).
        * left. apply occurs_mk; auto. eauto.
        * right. exists t'. right; auto. }
  assert (Hv5 : litDen s5 v (y, true)) by (eapply wext_litDen; [exact X25|]; eapply wext_litDen; [exact X2|exact Hv]).
  destruct Hk as [-> | ->]; simpl; eauto 8.
Qed.

Lemma computeTseitin_ok t s V f x : winv s V -> xinv s V x -> Den s f t -> nnfn t = true -> Forall (xdone x) (Operands f s) ->
  wp (fun n => computeTseitin n f x) s V (stepPost x f).
Proof.
  intros I HX Hd Hnn HO. apply andb_true_iff in Hnn. destruct Hnn as [Hn Hc]. apply wp_S. cbn [computeTseitin].
  destruct (x_formula x f) as [h|] eqn:Ef.
  { apply wp_ret; auto. split; auto. split; auto. unfold xdone. rewrite Ef. discriminate. }
  pose proof (Den_sort _ _ _ Hd) as Hs. rewrite Hs.
  assert (Hdone : forall g v h, xdone x h \/ h = f -> xdone (setXF f g (setXL f v x)) h).
  { intros g v h Hh. unfold xdone in *. rewrite setX_formula. destruct (feqb_spec h f); [discriminate|]. destruct Hh; auto. }
  destruct t; try discriminate.
  - apply wp_ret; auto. change (setXL f f (setXF f f x)) with (setXF f f (setXL f f x)).
    split; [|split; [|intros g Hg]]; [|apply (Hdone f f); auto|apply (Hdone f f); auto].
    apply (xinv_set s V x f f f (TLit l)); auto. apply I.
  - apply (tseitin_nary SAnd ts); auto. left; auto.
  - apply (tseitin_nary SOr ts); auto. right; auto.
Qed.

(** ** The whole transformation *)
Lemma forX_ok : forall l ts done s V x, winv s V -> xinv s V x -> Forall2 (Den s) l ts -> bottomup done ts ->
  (forall t, In t ts -> nnfn t = true) -> (forall t, In t done -> exists g, Den s g t /\ xdone x g) ->
  wp (fun n => forX (computeTseitin n) l x) s V (fun x' s' V' => xinv s' V' x' /\ (forall g, xdone x g -> xdone x' g) /\ Forall (xdone x') l).
Proof.
  induction l as [|f l IH]; intros ts done s V x I HX HF HB HN HD; inversion HF; subst.
  - apply wp_ret; auto.
  - rename y into t, l' into ts. destruct HB as [HB1 HB2]. simpl. eapply wp_bind.
    + apply (computeTseitin_ok t s V f x); auto; [apply HN; left; auto|].
      apply Forall_forall. intros g Hg. destruct (Forall2_in_l _ _ _ _ (Operands_den s f t (v_wf _ _ I) H1) Hg) as (t' & Ht' & Hgt).
      destruct (HD t' (HB1 t' Ht')) as (g' & Hg' & Hx). rewrite (Den_inj s (v_wf _ _ I) t' g g' Hgt Hg'). auto.
    + intros x1 s1 V1 I1 X1 (A1 & A2 & A3). eapply wp_conseq; [apply (IH ts (done ++ [t]) s1 V1 x1); auto|].
      * eapply wext_Dens; eauto.
      * intros t' Ht'. apply HN. right; auto.
      * intros t' Ht'. apply in_app_or in Ht'. destruct Ht' as [Ht'|[<-|[]]].
        -- destruct (HD t' Ht') as (g & Hg & Hx). exists g. split; auto. eapply wext_Den; eauto.
        -- exists f. split; auto. eapply wext_Den; eauto.
      * intros x2 s2 V2 _ _ (B1 & B2 & B3). split; auto.
Qed.

Lemma nnfn_sub s u t : wf s -> subtree u t -> forall f, Den s f t -> nnfn t = true -> nnfn u = true.
Proof.
  intros Hw H. induction H as [t|u v t Hv Hs IH]; intros f Hd Hn; auto.
  apply andb_true_iff in Hn. destruct Hn as [Hn Hc].
  assert (G : forall ts, (t = TAnd ts /\ forallb innerTA ts = true \/ t = TOr ts /\ forallb innerTO ts = true) ->
     Forall2 (Den s) (Operands f s) ts -> nnfn u = true).
  { intros ts Ht HF.
    assert (Hin : In v ts) by (destruct Ht as [[-> _]|[-> _]]; exact Hv).
    destruct (Forall2_in_r _ _ _ _ HF Hin) as (g & Hg & Dg). apply (IH g Dg). unfold nnfn.
    assert (Hf : forallb is_nnf ts = true) by (destruct Ht as [[-> _]|[-> _]]; exact Hn). rewrite forallb_forall in Hf. rewrite (Hf v Hin). simpl.
    destruct Ht as [[_ Hi]|[_ Hi]]; rewrite forallb_forall in Hi; specialize (Hi v Hin); destruct v; auto. }
  pose proof (Operands_den s f t Hw Hd) as HF. destruct t; simpl in Hv; try contradiction; try discriminate.
  - apply (G ts); auto. left. split; auto. eapply and_inner; eauto.
  - apply (G ts); auto. right. split; auto. eapply or_inner; eauto.
Qed.

Lemma newAsn1_is s v l : wf s -> litDen s v l -> asnIs s (newAsn1 v) [l].
Proof.
  intros Hw H. assert (HF : Forall2 (litDen s) [v] [l]) by auto. pose proof (newAssignment_spec s [v] [l] Hw HF) as HS.
  unfold newAsn1. destruct (newAssignment [v]) as [a|] eqn:E; [exists [v]; auto|]. elim HS.
  intros x [[A|[]] [B|[]]]. rewrite A in B. inversion B.
Qed.

(** [w] is a conjunctive normal form equivalent to [t] up to auxiliary variables, whose values
    it determines when [t] has no arithmetic constraints *)
Definition auxrepr (V : asg -> Prop) (t w : tree) : Prop :=
  (forall b, eval b w = true -> eval b t = true) /\ (forall b, V b -> eval b t = true -> eval b w = true) /\
  (pbfree t = true -> (forall x, occurs x w -> occurs x t \/ auxN x)).
Definition determined (t w : tree) : Prop :=
  forall b b', eval b w = true -> eval b' w = true -> (forall x, occurs x t -> b x = b' x) -> forall x, occurs x w -> b x = b' x.
Definition tsPost (t : tree) (g : formula) (s' : state) (V' : asg -> Prop) : Prop :=
  exists w, Den s' g w /\ is_cnf w = true /\ auxrepr V' t w /\ (pbfree t = true -> determined t w).

Lemma repr_auxrepr V t u : repr V t u -> auxrepr V t u /\ (pbfree t = true -> determined t u).
Proof.
  intros (R1 & R2 & R3). split.
  - split; auto. split; auto. intros Hp x Hx. left. apply R3; auto.
  - intros Hp b b' _ _ H x Hx. apply H. apply R3; auto.
Qed.
Lemma auxrepr_trans V t u w : repr V t u -> (pbfree t = true -> pbfree u = true) -> auxrepr V u w -> (pbfree u = true -> determined u w) ->
  auxrepr V t w /\ (pbfree t = true -> determined t w).
Proof.
  intros (R1 & R2 & R3) Hp (A1 & A2 & A3) Hd. split.
  - split; auto. split; auto. intros Ht x Hx. destruct (A3 (Hp Ht) x Hx); auto. left. apply R3; auto.
  - intros Ht b b' Hb Hb' H. apply (Hd (Hp Ht)); auto. intros x Hx. apply H. apply R3; auto.
Qed.

Lemma amap1 y x : amap [(y, true)] x = if String.eqb x y then Some true else None.
Proof.
  unfold amap. simpl. unfold lit_eqb; simpl. rewrite !orb_false_r.
  destruct (String.eqb x y); simpl; auto.
Qed.
(** restricting the definitions by the variable of the whole formula *)
Lemma tdef_top V t y u D w : tdef V t y u D -> restricted (amap [(y, true)]) u w ->
  auxrepr V t w /\ (pbfree t = true -> determined t w).
Proof.
  intros [E1 E2 E3 E4 E5 E6] [R1 R2].
  assert (Hov : forall b x, x <> y -> over (amap [(y, true)]) b x = b x).
  { intros b x Hx. unfold over. rewrite amap1. destruct (String.eqb_spec x y); auto. contradiction. }
  assert (Hov1 : forall b, over (amap [(y, true)]) b y = true). { intros b. unfold over. rewrite amap1, String.eqb_refl. auto. }
  assert (Hev : forall b t', (forall x, occurs x t' -> occurs x t) -> eval (over (amap [(y, true)]) b) t' = eval b t').
  { intros b t' Ht. apply eval_agree. intros x Hx. apply Hov. intros ->. apply E3. auto. }
  assert (Hsat : forall b, eval b w = true -> satD (over (amap [(y, true)]) b) D). { intros b Hb. apply E5. rewrite <- R1. auto. }
  split; [split; [|split]|].
  - intros b Hb. pose proof (Hsat b Hb t y E2) as H. rewrite Hov1, Hev in H; auto.
  - intros b HV Hb. rewrite R1. apply E5. intros t' y' Hi. destruct (E4 t' y' Hi) as (P1 & P2 & P3). rewrite Hev by auto.
    destruct (String.eqb_spec y' y) as [->|Hne]; [rewrite Hov1; destruct (E4 t y E2) as (_ & _ & P4); rewrite <- (P3 b HV), (P4 b HV); auto|].
    rewrite Hov by auto. apply P3; auto.
  - intros _ x Hx. destruct (R2 x Hx) as [Ho _]. destruct (E6 x Ho) as [K|(t' & K)]; auto. right. apply (E4 t' x K).
  - intros _ b b' Hb Hb' H x Hx. destruct (R2 x Hx) as [Ho Hm]. rewrite amap1 in Hm. destruct (String.eqb_spec x y) as [->|Hne]; [discriminate|].
    destruct (E6 x Ho) as [K|(t' & K)]; auto. destruct (E4 t' x K) as (P1 & _ & _).
    pose proof (Hsat b Hb t' x K) as S1. pose proof (Hsat b' Hb' t' x K) as S2. rewrite Hov, Hev in S1, S2 by auto. rewrite S1, S2.
    apply eval_agree. auto.
Qed.

(** the last step: restrict the stored definitions by the stored literal *)
Lemma finish_ok s V x f t : winv s V -> xinv s V x -> Den s f t -> compound t = true -> xdone x f ->
  wp (fun n => g <- restrict n (newAsn1 (getXL f x)) (getXF f x) ;; ret (g, x)) s V (fun r s' V' => snd r = x /\ V' = V /\ tsPost t (fst r) s' V').
Proof.
  intros I HX Hd Hc Hx. unfold xdone in Hx. destruct (x_formula x f) as [h|] eqn:Eh; [|congruence].
  destruct (HX f h Eh) as (t' & Dt & Hn & HT). assert (t' = t) as -> by (eapply Den_fun; eauto; apply I).
  assert (HT' : exists v y u D, x_literal x f = Some v /\ litDen s v (y, true) /\ Den s h u /\ tdef V t y u D) by (destruct t; auto; discriminate).
  destruct HT' as (v & y & u & D & L1 & L2 & L3 & L4).
  assert (EL : getXL f x = v) by (unfold getXL; rewrite L1; auto). assert (EF : getXF f x = h) by (unfold getXF; rewrite Eh; auto).
  rewrite EL, EF. eapply wp_bind.
  - apply rp_wp; [exact I|]. apply (restrict_cnf (newAsn1 v) [(y, true)] u s h); [apply I|apply newAsn1_is; [apply I|auto]|auto|apply L4].
  - intros g s1 V1 I1 X1 (-> & w & A1 & A2 & A3). apply wp_ret; auto. split; auto. split; auto. exists w. split; auto. split; auto.
    eapply tdef_top; eauto.
Qed.

(** the entry of a formula that is not in negation normal form is never consulted *)
Lemma xinv_setXL s V x f g t u : wf s -> xinv s V x -> Den s f t -> Den s g u -> (is_nnf t = true -> u = t) -> xinv s V (setXL f (getXL g x) x).
Proof.
  intros Hw HX Hf Hg Hn h k Hk. simpl in Hk. destruct (HX h k Hk) as (t' & Dt & Hn' & HT). exists t'. split; auto. split; auto.
  unfold setXL, upd. simpl. destruct (feqb_spec h f) as [->|Hne]; auto.
  assert (t' = t) as -> by (eapply Den_fun; eauto). specialize (Hn Hn'). subst u.
  assert (g = f) as -> by (eapply Den_inj; eauto). unfold getXL.
  destruct t; auto; [rewrite HT; auto| |]; destruct HT as (v & y & u & D & L1 & L2); rewrite L1; exists v, y, u, D; auto.
Qed.

Lemma tsPost_trans V s u t g : repr V t u -> (pbfree t = true -> pbfree u = true) -> tsPost u g s V -> tsPost t g s V.
Proof.
  intros R Hp (w & A & B & C & D). exists w. split; auto. split; auto. apply (auxrepr_trans V t u w); auto.
Qed.

Lemma tseitinCNF_ok cf bnd t s V f x : winv s V -> xinv s V x -> Den s f t -> encodable cf t ->
  wp (fun n => tseitinCNF n cf bnd f x) s V (fun r s' V' => tsPost t (fst r) s' V' /\ xinv s' V' (snd r)).
Proof.
  intros I HX Hd He. unfold tseitinCNF. eapply wp_bind; [apply (NNF_ok cf t s V f I Hd He)|].
  intros g s1 V1 I1 X1 (u & Du & Nu & Ru & Sh). destruct (Sh eq_refl) as [_ Hid].
  pose proof (wext_Den _ _ _ _ _ _ X1 Hd) as Hd1. pose proof (xinv_ext _ _ _ _ _ X1 HX) as HX1.
  assert (Hpu : pbfree u = true) by (apply is_nnf_pbfree; auto).
  eapply wp_bind; [apply (isCNF_ok u s1 V1 g I1 Du)|]. intros b s2 V2 I2 X2 (-> & -> & ->).
  destruct (is_cnf u) eqn:Ec.
  { apply wp_ret; auto. split; auto. exists u. split; auto. split; auto. apply repr_auxrepr; auto. }
  assert (Cu : compound u = true) by (destruct u; auto; discriminate).
  assert (Hnn : nnfn u = true) by (unfold nnfn; rewrite Nu; destruct u; auto; discriminate).
  destruct (x_formula x g) as [h|] eqn:Eh.
  { assert (EF : h = getXF g x) by (unfold getXF; rewrite Eh; auto). subst h.
    eapply wp_conseq; [apply (finish_ok s1 V1 x g u I1 HX1 Du Cu); unfold xdone; congruence|].
    intros r s3 V3 I3 X3 (-> & -> & HP). split; [eapply tsPost_trans; eauto|eapply xinv_ext; eauto]. }
  eapply wp_bind; [apply (numberOfAtoms_ok u s1 V1 g I1 Du)|]. intros z s3 V3 I3 X3 Hz.
  assert (G : wp (fun n => if (z <? bnd)%Z then g <- factorizedCNF n cf g ;; ret (g, x)
          else ops <- subNodes n g ;;
               x1 <- forX (computeTseitin n) ops x ;;
               g <- restrict n (newAsn1 (getXL g x1)) (getXF g x1) ;; ret (g, x1)) s3 V3
     (fun r s' V' => tsPost u (fst r) s' V' /\ xinv s' V' (snd r))).
  { pose proof (wext_Den _ _ _ _ _ _ X3 Du) as Du3. pose proof (xinv_ext _ _ _ _ _ X3 HX1) as HX3.
    destruct (z <? bnd)%Z.
    - eapply wp_bind; [apply (factorizedCNF_ok cf u s3 V3 g I3 Du3); apply pbfree_encodable; auto|].
      intros r s4 V4 I4 X4 (w & A1 & A2 & A3). apply wp_ret; auto. split; [|eapply xinv_ext; eauto].
      exists w. split; auto. split; auto. apply repr_auxrepr; auto.
    - eapply wp_bind; [apply (subNodes_ok u s3 V3 g I3 Du3)|]. intros ops s4 V4 I4 X4 (ts & B1 & B2 & B3 & B4).
      pose proof (wext_Den _ _ _ _ _ _ X4 Du3) as Du4. pose proof (xinv_ext _ _ _ _ _ X4 HX3) as HX4.
      eapply wp_bind; [apply (forX_ok ops ts [] s4 V4 x); auto|].
      + intros t' Ht'. apply B4 in Ht'. eapply nnfn_sub; [apply I4|exact Ht'|exact Du4|auto].
      + intros t' [].
      + intros x1 s5 V5 I5 X5 (C1 & C2 & C3).
        assert (Hdone : xdone x1 g).
        { assert (Hin : In u ts) by (apply B4; constructor). destruct (Forall2_in_r _ _ _ _ B1 Hin) as (g' & Hg' & Dg').
          assert (g' = g) as -> by (eapply Den_inj; [apply I4|exact Dg'|exact Du4]). rewrite Forall_forall in C3. auto. }
        eapply wp_conseq; [apply (finish_ok s5 V5 x1 g u I5 C1); auto; eapply wext_Den; eauto|].
        intros r s6 V6 I6 X6 (-> & -> & HP). split; auto. eapply xinv_ext; eauto. }
  eapply wp_bind; [exact G|]. intros r s4 V4 I4 X4 [HP HX4]. apply wp_ret; auto. simpl.
  assert (X14 : wext s1 V1 s4 V4) by (eapply wext_trans; eauto).
  split; [eapply tsPost_trans; [eapply wext_repr; eauto|auto|auto]|].
  eapply xinv_setXL; [apply I4|exact HX4|eapply wext_Den; eauto|eapply wext_Den; [exact X14|exact Du]|exact Hid].
Qed.
