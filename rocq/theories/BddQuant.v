(** * Restriction and quantification of BDDs *)
From Coq Require Import List Bool ZArith Lia.
From Verif Require Import Spec Factory Bdd BddTable BddNode BddSem.
Import ListNotations.
Local Open Scope Z_scope.

Lemma sem_ext vn k : core vn k -> forall n t, Rep k n t -> forall x y, (forall l, lv vn k n <= l < vn -> x l = y l) -> sem t x = sem t y.
Proof.
  intros C n t R. induction R as [| |n a b L Ra IHa Rb IHb]; intros x y H; auto.
  destruct (c_node _ _ C n L) as (R1 & V1 & V2 & _ & O1 & O2).
  assert (E : lv vn k n = levels k n) by (unfold lv; destruct L as [L _]; destruct (Z.ltb_spec n 2); auto; lia).
  cbn [sem]. rewrite (H (levels k n)) by lia. rewrite (IHa x y), (IHb x y); auto; intros l Hl; apply H; lia.
Qed.

(** ** The first of two assignments by a list of literals *)
Fixpoint assoc (l : Z) (ls : list (Z * bool)) : option bool :=
  match ls with [] => None | (l', p) :: r => if l =? l' then Some p else assoc l r end.
Lemma override_assoc ls b l : override ls b l = match assoc l ls with Some p => p | None => b l end.
Proof. induction ls as [|[l' p] r IH]; auto. cbn. destruct (l =? l'); auto. Qed.

(** levels of the literals and variables of a path lie below the node *)
Lemma plits_range vn k : core vn k -> forall n t, Rep k n t -> forall l p, assoc l (plits t) = Some p -> lv vn k n <= l < vn.
Proof.
  intros C n t R. induction R as [| |n a b L Ra IHa Rb IHb]; intros l p H; try discriminate.
  destruct (c_node _ _ C n L) as (R1 & V1 & V2 & _ & O1 & O2).
  assert (E : lv vn k n = levels k n) by (unfold lv; destruct L as [L _]; destruct (Z.ltb_spec n 2); auto; lia).
  cbn [plits] in H. destruct a as [[]|la aa ab]; cbn [assoc] in H; destruct (Z.eqb_spec l (levels k n)); try lia.
  - discriminate.
  - specialize (IHb _ _ H). lia.
  - specialize (IHa _ _ H). lia.
Qed.
Lemma pvars_range vn k : core vn k -> forall n t, Rep k n t -> forall l, In l (pvars t) -> lv vn k n <= l < vn.
Proof.
  intros C n t R. induction R as [| |n a b L Ra IHa Rb IHb]; intros l H; try contradiction.
  destruct (c_node _ _ C n L) as (R1 & V1 & V2 & _ & O1 & O2).
  assert (E : lv vn k n = levels k n) by (unfold lv; destruct L as [L _]; destruct (Z.ltb_spec n 2); auto; lia).
  destruct H as [<-|H]; [lia|]. specialize (IHb _ H). lia.
Qed.
Lemma pvars_nodup vn k : core vn k -> forall n t, Rep k n t -> NoDup (pvars t).
Proof.
  intros C n t R. induction R as [| |n a b L Ra IHa Rb IHb]; cbn; try constructor; auto.
  destruct (c_node _ _ C n L) as (R1 & V1 & V2 & _ & O1 & O2). intros H. apply (pvars_range _ _ C _ _ Rb) in H. lia.
Qed.
Lemma Rep_false_inv k n : Rep k n (Lf false) -> n = 0.
Proof. inversion 1; auto. Qed.

(** ** The tables of literals and variables *)
Definition qinv (vn : Z) (k : kernel) : Prop := 0 <= quantvarsetId k /\ forall l, Z.abs (quantvarset k l) <= quantvarsetId k.
Definition rset (vn : Z) (k : kernel) (pl : list (Z * bool)) : Prop := 0 < quantvarsetId k /\ (forall l, vn <= l -> assoc l pl = None) /\ quantlast k = vn /\
  forall l, match assoc l pl with Some true => quantvarset k l = quantvarsetId k | Some false => quantvarset k l = - quantvarsetId k | None => Z.abs (quantvarset k l) <> quantvarsetId k end.
Definition vset (vn : Z) (k : kernel) (vs : list Z) : Prop :=
  (forall l, quantvarset k l = quantvarsetId k <-> In l vs) /\ (forall l, In l vs -> l <= quantlast k).

(** only the fields of the quantification tables change *)
Definition qmod (k k' : kernel) : Prop := exists q i l, k' = with_quantlast l (with_quantvarsetId i (with_quantvarset q k)).
Lemma qmod_Rep k k' n t : qmod k k' -> Rep k n t -> Rep k' n t.
Proof. intros (q & i & l & ->). apply Rep_ext; reflexivity. Qed.
Lemma qmod_opinv vn k k' : qmod k k' -> opinv vn k -> opinv vn k'.
Proof.
  intros (q & i & l & ->) [A B C D]. constructor; auto.
  - pose proof (c_stack _ _ A) as S. revert A. apply core_ext; auto.
  - revert B. apply tab_ext; reflexivity.
  - revert C. apply caches_ext; reflexivity.
Qed.
Lemma qmod_trans k1 k2 k3 : qmod k1 k2 -> qmod k2 k3 -> qmod k1 k3.
Proof. intros (q & i & l & ->) (q' & i' & l' & ->). exists q', i', l'. reflexivity. Qed.
Lemma qmod_prot k k' n : qmod k k' -> prot k n -> prot k' n.
Proof.
  intros (q & i & l & ->) H. induction H as [n H1 H2|n Hp IH H2|n Hp IH H2].
  - apply p_root; auto.
  - apply (p_low (with_quantlast l (with_quantvarsetId i (with_quantvarset q k))) n); auto.
  - apply (p_high (with_quantlast l (with_quantvarsetId i (with_quantvarset q k))) n); auto.
Qed.
Lemma qmod_pv k k' n : qmod k k' -> pv k n -> pv k' n.
Proof. intros Q [?|[?|H]]; unfold pv; auto. right; right. eapply qmod_prot; eauto. Qed.
Lemma qmod_lv vn k k' n : qmod k k' -> lv vn k' n = lv vn k n.
Proof. intros (q & i & l & ->). reflexivity. Qed.

Lemma svarLoop_ok vn id : 0 < id -> forall d n k t, opinv vn k -> Rep k n t -> quantvarsetId k = id -> vn - lv vn k n < Z.of_nat d ->
  (2 <= n \/ quantlast k = vn) ->
  kwp (svarLoop d n) (fun _ k' => qmod k k' /\ quantvarsetId k' = id /\ quantlast k' = vn /\
    forall l, quantvarset k' l = match assoc l (plits t) with Some true => id | Some false => - id | None => quantvarset k l end) k.
Proof.
  intros Hid. induction d as [|d IH]; intros n k t O R Ei Hd Hq.
  { pose proof (lv_range _ _ _ (o_core _ _ O) (Rep_valid _ _ _ R)). lia. }
  cbn [svarLoop]. unfold isConst. destruct (Z.ltb_spec n 2) as [Hc|Hc].
  { apply kwp_ret. split; [exists (quantvarset k), (quantvarsetId k), (quantlast k); destruct k; reflexivity|]. split; auto. split; [lia|].
    intros l. inversion R as [| |? ? ? L]; subst; auto. destruct L; lia. }
  pose proof (o_core _ _ O) as C. destruct (Rep_inv _ _ _ _ C R Hc) as (a & b & -> & Ra & Rb & [L _] & Rg & La & Lb & El).
  apply kwp_bind, kwp_rd; [lia|]. apply kwp_bind, kwp_rd; [lia|]. apply kwp_bind, kwp_gets. rewrite Ei.
  set (lvl := levels k n) in *. unfold isZero.
  apply kwp_bind' with (P := fun n' k1 => exists t' p, k1 = with_quantvarset (upd (quantvarset k) lvl (if p : bool then id else - id)) k /\ Rep k n' t' /\ lvl < lv vn k n' /\
     plits (Nd lvl a b) = (lvl, p) :: plits t').
  { destruct (Z.eqb_spec (lows k n) 0) as [E0|N0].
    - apply kwp_bind, kwp_modify. apply kwp_rd; [cbn; lia|]. exists b, true. split; auto. split; auto. split; auto.
      rewrite E0 in Ra. inversion Ra as [| |? ? ? [X _]]; subst; [|lia]. auto.
    - apply kwp_bind, kwp_modify. apply kwp_rd; [cbn; lia|]. exists a, false. split; auto. split; auto. split; auto.
      cbn [plits]. destruct a as [[]|? ? ?]; auto. apply Rep_false_inv in Ra. contradiction. }
  intros n' k1 (t' & p & Ek & Rt & Lt & Ep).
  assert (V' : 0 <= n' < nodesize k1) by (subst k1; cbn; eapply valid_range; eauto; eapply Rep_valid; eauto).
  apply kwp_bind, kwp_rd; auto. apply kwp_bind, kwp_modify.
  assert (Q1 : qmod k (with_quantlast (levels k1 n') k1)). { exists (upd (quantvarset k) lvl (if p then id else - id)), (quantvarsetId k), (levels k1 n'). subst k1. destruct k; reflexivity. }
  eapply kwp_conseq; [apply (IH n' _ t')|].
  - eapply qmod_opinv; eauto.
  - eapply qmod_Rep; eauto.
  - subst k1. exact Ei.
  - rewrite (qmod_lv _ _ _ _ Q1). lia.
  - destruct (Z.le_gt_cases 2 n'); auto. right. subst k1. cbn. destruct (o_lev _ _ O) as [X Y]. pose proof (valid_range _ _ _ C (Rep_valid _ _ _ Rt)).
    assert (n' = 0 \/ n' = 1) as [-> | ->] by lia; auto.
  - intros [] k' (Q2 & Ei' & Eq' & H). split; [exact (qmod_trans _ _ _ Q1 Q2)|]. split; auto. split; auto. intros l. rewrite H, Ep. cbn [assoc].
    pose proof (plits_range _ _ C _ _ Rt l) as Rl. subst k1. cbn [quantvarset with_quantlast with_quantvarset]. unfold upd.
    destruct (Z.eqb_spec l lvl) as [->|Nl]; auto. destruct (assoc lvl (plits t')) as [q|]; [specialize (Rl q eq_refl); lia|]. auto.
Qed.
Lemma svartable_ok vn k n t : opinv vn k -> qinv vn k -> Rep k n t -> 2 <= n ->
  kwp (varset2svartable n) (fun _ k' => qmod k k' /\ qinv vn k' /\ rset vn k' (plits t)) k.
Proof.
  intros O [Q1 Q2] R Hn. unfold varset2svartable. destruct (Z.ltb_spec n 2); [lia|]. apply kwp_bind, kwp_modify. apply kwp_bind, kwp_get.
  set (k1 := with_quantvarsetId (quantvarsetId k + 1) k). assert (Qm : qmod k k1) by (exists (quantvarset k), (quantvarsetId k + 1), (quantlast k); destruct k; reflexivity).
  pose proof (o_core _ _ O) as C. pose proof (lv_range _ _ _ C (Rep_valid _ _ _ R)) as B. pose proof (c_vn _ _ C).
  eapply kwp_conseq; [apply (svarLoop_ok vn (quantvarsetId k + 1)) with (t := t); [lia|eapply qmod_opinv; eauto|eapply qmod_Rep; eauto|reflexivity| |auto]|].
  { rewrite (qmod_lv _ _ _ _ Qm). unfold maxdepth. change (cap k1) with (cap k). rewrite (c_cap _ _ C). lia. }
  intros [] k' (Qm' & Ei & El & Hq). split; [exact (qmod_trans _ _ _ Qm Qm')|]. assert (Hk1 : forall l, Z.abs (quantvarset k1 l) <= quantvarsetId k) by exact Q2.
  split; [split; [lia|]|].
  - intros l. rewrite Hq, Ei. specialize (Hk1 l). destruct (assoc l (plits t)) as [[]|]; lia.
  - split; [lia|]. split; [|split; auto].
    + intros l Hl. destruct (assoc l (plits t)) as [p|] eqn:E; auto. apply (plits_range _ _ C _ _ R) in E. lia.
    + intros l. rewrite Hq, Ei. specialize (Hk1 l). destruct (assoc l (plits t)) as [[]|]; lia.
Qed.
Lemma varLoop_ok vn id : forall d n k t, opinv vn k -> Rep k n t -> quantvarsetId k = id -> vn - lv vn k n < Z.of_nat d ->
  kwp (varLoop d n) (fun _ k' => qmod k k' /\ quantvarsetId k' = id /\ (forall l, In l (pvars t) -> l <= quantlast k') /\ (quantlast k < lv vn k n -> quantlast k <= quantlast k') /\
    forall l, quantvarset k' l = if existsb (Z.eqb l) (pvars t) then id else quantvarset k l) k.
Proof.
  induction d as [|d IH]; intros n k t O R Ei Hd.
  { pose proof (lv_range _ _ _ (o_core _ _ O) (Rep_valid _ _ _ R)). lia. }
  cbn [varLoop]. destruct (Z.leb_spec n 1) as [Hc|Hc].
  { apply kwp_ret. split; [exists (quantvarset k), (quantvarsetId k), (quantlast k); destruct k; reflexivity|]. split; auto.
    inversion R as [| |? ? ? L]; subst; try (destruct L; lia); cbn; (split; [intros l []|split; auto; lia]). }
  assert (Hc' : 2 <= n) by lia. pose proof (o_core _ _ O) as C. destruct (Rep_inv _ _ _ _ C R Hc') as (a & b & -> & Ra & Rb & [L _] & Rg & La & Lb & El).
  apply kwp_bind, kwp_rd; [lia|]. apply kwp_bind, kwp_gets. rewrite Ei. set (lvl := levels k n) in *.
  apply kwp_bind, kwp_modify. apply kwp_bind, kwp_modify. apply kwp_bind, kwp_rd; [cbn; lia|].
  match goal with |- kwp _ _ ?x => set (k1 := x) end.
  assert (Q1 : qmod k k1) by (exists (upd (quantvarset k) lvl id), (quantvarsetId k), lvl; destruct k; reflexivity).
  eapply kwp_conseq; [apply (IH (highs k n) k1 b)|].
  - eapply qmod_opinv; eauto.
  - eapply qmod_Rep; eauto.
  - exact Ei.
  - rewrite (qmod_lv _ _ _ _ Q1). lia.
  - intros [] k' (Q2 & Ei' & Hl & Hm & H). rewrite (qmod_lv _ _ _ _ Q1) in Hm. change (quantlast k1) with lvl in Hm.
    split; [exact (qmod_trans _ _ _ Q1 Q2)|]. split; auto. specialize (Hm Lb). split; [intros l [<-|Hi]; auto; fold lvl; lia|]. split; [intros; lia|].
    intros l. rewrite H. cbn [pvars existsb]. change (quantvarset k1) with (upd (quantvarset k) lvl id). unfold upd.
    destruct (existsb (Z.eqb l) (pvars b)), (Z.eqb_spec l lvl); auto.
Qed.
Lemma vartable_ok vn k n t : opinv vn k -> qinv vn k -> Rep k n t -> 2 <= n ->
  kwp (varset2vartable n) (fun _ k' => qmod k k' /\ qinv vn k' /\ vset vn k' (pvars t)) k.
Proof.
  intros O [Q1 Q2] R Hn. unfold varset2vartable. destruct (Z.ltb_spec n 2); [lia|]. apply kwp_bind, kwp_modify. apply kwp_bind, kwp_get.
  set (k1 := with_quantvarsetId (quantvarsetId k + 1) k). assert (Qm : qmod k k1) by (exists (quantvarset k), (quantvarsetId k + 1), (quantlast k); destruct k; reflexivity).
  pose proof (o_core _ _ O) as C. pose proof (lv_range _ _ _ C (Rep_valid _ _ _ R)) as B. pose proof (c_vn _ _ C).
  eapply kwp_conseq; [apply (varLoop_ok vn (quantvarsetId k + 1)) with (t := t); [eapply qmod_opinv; eauto|eapply qmod_Rep; eauto|reflexivity|]|].
  { rewrite (qmod_lv _ _ _ _ Qm). unfold maxdepth. change (cap k1) with (cap k). rewrite (c_cap _ _ C). lia. }
  intros [] k' (Qm' & Ei & El & _ & Hq). split; [exact (qmod_trans _ _ _ Qm Qm')|]. assert (Hk1 : forall l, Z.abs (quantvarset k1 l) <= quantvarsetId k) by exact Q2.
  split; [split; [lia|]|split; auto].
  - intros l. rewrite Hq, Ei. specialize (Hk1 l). destruct (existsb (Z.eqb l) (pvars t)); lia.
  - intros l. rewrite Hq, Ei. specialize (Hk1 l). destruct (existsb (Z.eqb l) (pvars t)) eqn:E.
    + apply existsb_exists in E. destruct E as (y & Hy & E). apply Z.eqb_eq in E. subst. tauto.
    + split; [lia|]. intros Hi. assert (existsb (Z.eqb l) (pvars t) = true) by (apply existsb_exists; exists l; split; auto; apply Z.eqb_refl). congruence.
Qed.

(** ** Recursion over one BDD *)
Section Unary.
Variables (vn : Z) (F : Z -> K Z) (g : ((Z -> bool) -> bool) -> (Z -> bool) -> bool) (J : kernel -> Prop) (m : Z).
Hypothesis HJ : forall k k', fr k k' -> J k -> J k'.
Hypothesis HF : forall r k t, opinv vn k -> J k -> pv k r -> Rep k r t -> m < lv vn k r -> Z.of_nat (List.length (refstack k)) + 2 * (vn - lv vn k r) <= cap k ->
  kwp (F r) (post vn k (g (sem t)) (lv vn k r)) k.
Lemma unary_seq {B} k r ta tb (cont : Z -> Z -> Z -> K B) (Q : B -> kernel -> Prop) : opinv vn k -> J k -> prot k r -> 2 <= r -> Rep k r (Nd m ta tb) -> levels k r = m ->
  Z.of_nat (List.length (refstack k)) + 2 * (vn - m) <= cap k ->
  (forall n1 n2 k2 t1 t2, opinv vn k2 -> fr k k2 -> refstack k2 = n1 :: refstack k -> Rep k2 n1 t1 -> Rep k2 n2 t2 ->
    (forall b, sem t1 b = g (sem ta) b) -> (forall b, sem t2 b = g (sem tb) b) -> m < lv vn k2 n1 -> m < lv vn k2 n2 -> kwp (cont m n1 n2) Q (push n2 k2)) ->
  kwp (x <~ low r; n1 <~ F x; pushRef n1 ~; x <~ high r; n2 <~ F x; pushRef n2 ~; lv <~ level r; a <~ readRef 2; b <~ readRef 1; cont lv a b) Q k.
Proof.
  intros O Jk Pr H2 R Em Cap H. pose proof (o_core _ _ O) as C.
  destruct (Rep_inv _ _ _ _ C R H2) as (ta' & tb' & Et & Ra & Rb & L & Rg & La & Lb & Er). injection Et as _ <- <-.
  destruct L as [Rr Nl]. apply kwp_bind, kwp_rd; [lia|].
  assert (Pa : pv k (lows k r)) by (eapply pv_low; eauto). assert (Pb : pv k (highs k r)) by (eapply pv_high; eauto).
  eapply kwp_bind'; [apply HF; [exact O|exact Jk|exact Pa|exact Ra|lia|lia]|]. intros n1 k1 H1.
  destruct (first_ok _ _ _ _ _ _ O H1) as (t1 & O1 & F1 & St1 & R1 & S1 & M1 & P1).
  apply kwp_bind, kwp_push. { destruct H1 as (_ & G & _). rewrite (frame_stack _ _ G), (fr_cap _ _ (frame_fr _ _ G)). lia. }
  fold (push n1 k1). set (k1' := push n1 k1) in *. clearbody k1'. clear H1.
  destruct (fr_prot _ _ F1 r Pr) as ([Rr1 _] & _ & _ & Eh). apply kwp_bind, kwp_rd; [lia|]. rewrite Eh.
  pose proof (fr_pv _ _ F1 _ Pb) as Pb1. pose proof (Rep_fr _ _ _ _ F1 Pb Rb) as Rb1. pose proof (fr_lv vn _ _ _ F1 Pb) as Lb1.
  eapply kwp_bind'; [apply HF; [exact O1|eapply HJ; eauto|exact Pb1|exact Rb1|lia|rewrite St1, (fr_cap _ _ F1); cbn [List.length]; lia]|]. intros n2 k2 H2'.
  destruct (second_ok _ _ _ _ _ _ _ _ _ F1 St1 P1 R1 H2') as (F2 & St2 & R1' & Lv1). destruct H2' as (O2 & _ & (t2 & R2 & S2) & M2).
  eapply build_seq; [exact O2|exact F2|exact St2|eapply Rep_valid; eauto|exact Pr|reflexivity|lia|]. rewrite Em.
  apply (H n1 n2 k2 t1 t2); auto; lia.
Qed.
End Unary.

Lemma fr_quantfields k k' : fr k k' -> quantvarset k' = quantvarset k /\ quantvarsetId k' = quantvarsetId k /\ quantlast k' = quantlast k.
Proof. intros F. pose proof (fr_static _ _ F) as E. unfold static0, static in E. cbn in E. split; [|split]; congruence. Qed.
Lemma rset_fr vn k k' pl : fr k k' -> rset vn k pl -> rset vn k' pl.
Proof. intros F. destruct (fr_quantfields _ _ F) as (E1 & E2 & E3). unfold rset. rewrite E1, E2, E3. auto. Qed.
Lemma vset_fr vn k k' pl : fr k k' -> vset vn k pl -> vset vn k' pl.
Proof. intros F. destruct (fr_quantfields _ _ F) as (E1 & E2 & E3). unfold vset. rewrite E1, E2, E3. auto. Qed.

(** ** restrict *)
Definition rJ vn v tv k : Prop := rset vn k (plits tv) /\ pv k v /\ Rep k v tv.
Lemma rJ_fr vn v tv k k' : fr k k' -> rJ vn v tv k -> rJ vn v tv k'.
Proof. intros F (A & B & D). split; [eapply rset_fr; eauto|]. split; [eapply fr_pv; eauto|eapply Rep_fr; eauto]. Qed.
Lemma post_weak vn k f f' m m' res k' : (forall x, f x = f' x) -> m' <= m -> post vn k f m res k' -> post vn k f' m' res k'.
Proof. intros E L (A & B & (t & R & S) & M). split; auto. split; auto. split; [exists t; split; auto; intros x; rewrite S; auto|lia]. Qed.

Lemma restrictRec_ok vn v tv : forall d r k t, opinv vn k -> rJ vn v tv k -> pv k r -> Rep k r t -> Z.of_nat (List.length (refstack k)) + 2 * (vn - lv vn k r) <= cap k ->
  vn - lv vn k r < Z.of_nat d -> kwp (restrictRec d r (8 * v + 1)) (post vn k (fun x => sem t (override (plits tv) x)) (lv vn k r)) k.
Proof.
  induction d as [|d IH]; intros r k t O Jk P R Cap Hd.
  { pose proof (lv_range _ _ _ (o_core _ _ O) (Rep_valid _ _ _ R)). lia. }
  cbn [restrictRec]. unfold isConst. pose proof (o_core _ _ O) as C.
  destruct (Z.ltb_spec r 2) as [Hc|Hc].
  { apply kwp_ret. split; auto. split; [eapply frame_refl; eauto|]. split; [|lia]. exists t. split; auto. intros x. inversion R as [| |? ? ? L]; subst; auto. destruct L; lia. }
  pose proof (valid_range _ _ _ C (Rep_valid _ _ _ R)) as Vr. apply kwp_bind, kwp_rd; auto. apply kwp_bind, kwp_gets.
  pose proof R as R0. destruct (Rep_inv _ _ _ _ C R Hc) as (ta & tb & -> & Ra & Rb & L & Rg & La & Lb & Er). pose proof (pv_ge2 _ _ P Hc) as Pr.
  pose proof Jk as ((Hid & HoutV & Hql & Hset) & Pv & Rv). destruct (Z.ltb_spec (quantlast k) (levels k r)); [lia|].
  apply kwp_bind, kwp_gets. apply kwp_bind, kwp_gets. set (i := cacheIndex k _).
  destruct ((e_a (misccache k i) =? r) && (e_c (misccache k i) =? 8 * v + 1)) eqn:Ec.
  { apply andb_true_iff in Ec. destruct Ec as [E1 E2]. apply Z.eqb_eq in E1, E2. apply kwp_ret.
    destruct (ca_misc _ _ (o_caches _ _ O) i ltac:(lia) v E2) as (tv' & Rv' & ta' & tr & Ra' & Rr & Sr & Lr).
    rewrite E1 in Ra', Lr. rewrite (Rep_fun _ _ _ Rv _ Rv'), (Rep_fun _ _ _ R _ Ra'). split; auto. split; [eapply frame_refl; eauto|]. split; auto. exists tr; auto. }
  clear Ec. apply kwp_bind, kwp_get. set (lvl := levels k r) in *.
  apply kwp_bind' with (P := post vn k (fun x => sem (Nd lvl ta tb) (override (plits tv) x)) lvl).
  { specialize (Hset lvl). unfold insvarset. destruct (Z.eqb_spec (Z.abs (quantvarset k lvl)) (quantvarsetId k)) as [Es|Es].
    - destruct (assoc lvl (plits tv)) as [[]|] eqn:Ea; [| |contradiction].
      + destruct (Z.ltb_spec 0 (quantvarset k lvl)); [|lia]. apply kwp_bind, kwp_rd; auto.
        eapply kwp_conseq; [apply IH; [exact O|exact Jk|eapply pv_high; eauto|exact Rb|lia|lia]|]. intros res k'. apply post_weak; [|lia].
        intros x. cbn [sem]. rewrite override_assoc, Ea. auto.
      + destruct (Z.ltb_spec 0 (quantvarset k lvl)); [lia|]. apply kwp_bind, kwp_rd; auto.
        eapply kwp_conseq; [apply IH; [exact O|exact Jk|eapply pv_low; eauto|exact Ra|lia|lia]|]. intros res k'. apply post_weak; [|lia].
        intros x. cbn [sem]. rewrite override_assoc, Ea. auto.
    - assert (Ea : assoc lvl (plits tv) = None). { destruct (assoc lvl (plits tv)) as [[]|]; auto; lia. }
      apply (unary_seq vn (fun x => restrictRec d x (8 * v + 1)) (fun f x => f (override (plits tv) x)) (rJ vn v tv) lvl) with (ta := ta) (tb := tb); auto; try lia.
      + apply rJ_fr.
      + intros r' k' t' O' J' P' R' L' C'. apply IH; auto. lia.
      + intros n1 n2 k2 t1 t2 O2 F2 St2 R1 R2 S1 S2 L1 L2.
        eapply kwp_bind'; [eapply build_ok; [exact O2|exact F2|exact St2|exact R1|exact R2|lia|lia|lia]|].
        intros res k3 (O3 & F3 & St3 & (t3 & R3 & S3) & M3). apply kwp_bind. unfold popref. apply kwp_modify. rewrite St3. cbn [skipn].
        fold (pops k k3). destruct (pop_ok _ _ _ O3 F3) as (O4 & F4). apply kwp_ret. split; auto. split; auto. split; [|exact M3].
        exists t3. split; [apply Rep_pops; auto|]. intros x. rewrite S3, S1, S2. cbn [sem]. rewrite override_assoc, Ea. auto. }
  intros res k4 (O4 & F4 & (t3 & R3 & S3) & M3). apply kwp_bind, kwp_modify, kwp_ret.
  split; [|split; [apply frame_misc; auto|split; [exists t3; split; auto; apply Rep_misc; auto|rewrite Er; exact M3]]].
  apply opinv_misc; auto. intros _ v' E. cbn [e_c] in E. replace v' with v by lia. exists tv.
  split; [eapply Rep_fr; [apply frame_fr; eauto|exact Pv|exact Rv]|]. cbn [e_a e_res]. exists (Nd lvl ta tb), t3.
  split; [eapply Rep_fr; [apply frame_fr; eauto|exact P|exact R0]|]. split; auto. split; auto. rewrite (frame_lv _ _ _ _ F4 P). lia.
Qed.

(** ** exists and forAll *)
Section Quant.
Variable o : bool -> bool -> bool.
Hypothesis o_idem : forall x, o x x = x.
Hypothesis o_ac : forall a b c d, o (o a b) (o c d) = o (o a c) (o b d).
(** [f] does not depend on level [l] *)
Definition indep (f : (Z -> bool) -> bool) (l : Z) : Prop := forall x p, f (upd x l p) = f x.
Definition exte (f : (Z -> bool) -> bool) : Prop := forall x y, (forall l, x l = y l) -> f x = f y.
Lemma quant_ext vs : forall f f', (forall x, f x = f' x) -> forall x, quant o vs f x = quant o vs f' x.
Proof. induction vs as [|v r IH]; intros f f' H x; cbn; auto. rewrite (IH f f'), (IH f f' H (upd x v true)); auto. Qed.
Lemma quant_exte vs : forall f, exte f -> exte (quant o vs f).
Proof.
  induction vs as [|v r IH]; intros f H x y E; cbn; auto.
  rewrite (IH f H (upd x v false) (upd y v false)), (IH f H (upd x v true) (upd y v true)); auto; intros l; unfold upd; destruct (l =? v); auto.
Qed.
Lemma quant_const vs f : (forall l, In l vs -> indep f l) -> forall x, quant o vs f x = f x.
Proof.
  induction vs as [|v r IH]; intros H x; cbn; auto. rewrite !IH by (intros; apply H; right; auto).
  rewrite !(H v) by (left; auto). apply o_idem.
Qed.
Lemma quant_indep vs f l : exte f -> indep f l -> indep (quant o vs f) l.
Proof.
  intros E. revert f E. induction vs as [|v r IH]; intros f E H x p; cbn; auto.
  destruct (Z.eq_dec l v) as [->|N].
  - f_equal; apply quant_exte; auto; intros j; unfold upd; destruct (j =? v); auto.
  - rewrite <- (IH f E H (upd x v false) p), <- (IH f E H (upd x v true) p). f_equal; apply quant_exte; auto; intros j; unfold upd;
    destruct (Z.eqb_spec j v), (Z.eqb_spec j l); auto; lia.
Qed.
Lemma quant_ite_out vs a b l : exte a -> exte b -> ~ In l vs ->
  forall x, quant o vs (fun y => if y l then b y else a y) x = if x l then quant o vs b x else quant o vs a x.
Proof.
  intros Ea Eb. induction vs as [|v r IH]; intros N x; cbn; auto. rewrite !IH by (intros Hi; apply N; right; auto).
  assert (l <> v) by (intros ->; apply N; left; auto). unfold upd at 1 4. destruct (Z.eqb_spec l v); [contradiction|]. destruct (x l); auto.
Qed.
Lemma quant_ite_in vs a b l : exte a -> exte b -> indep a l -> indep b l -> NoDup vs -> In l vs ->
  forall x, quant o vs (fun y => if y l then b y else a y) x = o (quant o vs a x) (quant o vs b x).
Proof.
  intros Ea Eb Ia Ib. induction vs as [|v r IH]; intros ND Hin x; [contradiction|]. inversion ND as [|? ? Nv ND']; subst. cbn [quant].
  destruct (Z.eq_dec v l) as [->|Nl].
  - rewrite !quant_ite_out by auto. unfold upd at 1 4. rewrite Z.eqb_refl.
    rewrite !(quant_indep _ _ _ Ea Ia x), !(quant_indep _ _ _ Eb Ib x), !o_idem. auto.
  - destruct Hin as [?|Hin]; [contradiction|]. rewrite !IH by auto. apply o_ac.
Qed.
End Quant.

(** the two quantifiers *)
Definition qop (e : bool) : bop := if e then BOr else BAnd.
Definition qfun (e : bool) : bool -> bool -> bool := if e then orb else andb.
Definition qid (e : bool) (v : Z) : Z := if e then 8 * v else 8 * v + 1.
Lemma qfun_idem e x : qfun e x x = x. Proof. destruct e, x; auto. Qed.
Lemma qfun_ac e a b c d : qfun e (qfun e a b) (qfun e c d) = qfun e (qfun e a c) (qfun e b d). Proof. destruct e, a, b, c, d; auto. Qed.
Lemma qfun_bsem e x y : bsem (qop e) x y = qfun e x y. Proof. destruct e; auto. Qed.
Definition qJ vn v tv k : Prop := vset vn k (pvars tv) /\ pv k v /\ Rep k v tv.
Lemma qJ_fr vn v tv k k' : fr k k' -> qJ vn v tv k -> qJ vn v tv k'.
Proof. intros F (A & B & D). split; [eapply vset_fr; eauto|]. split; [eapply fr_pv; eauto|eapply Rep_fr; eauto]. Qed.
Lemma sem_exte t : exte (sem t).
Proof. intros x y E. induction t as [|l a IHa b IHb]; cbn; auto. rewrite E, IHa, IHb. auto. Qed.
Lemma sem_indep vn k n t l : core vn k -> Rep k n t -> l < lv vn k n -> indep (sem t) l.
Proof. intros C R H x p. eapply sem_ext; eauto. intros j Hj. unfold upd. destruct (Z.eqb_spec j l); auto; lia. Qed.
Lemma okQ_hit vn k e i v : okQ vn k i -> e_a i <> -1 -> e_c i = qid e v -> exists tv, Rep k v tv /\ un_entry vn k (fun f x => quant (qfun e) (pvars tv) f x) (e_a i) (e_res i).
Proof. intros H N E. destruct (H N v) as [A B]. destruct e; auto. Qed.
Lemma okQ_new vn k e i v tv : e_c i = qid e v -> Rep k v tv -> un_entry vn k (fun f x => quant (qfun e) (pvars tv) f x) (e_a i) (e_res i) -> okQ vn k i.
Proof.
  intros E R U _ v'. destruct e; unfold qid in E; cbn [qfun] in U; split; intros E'; try lia; (replace v' with v by lia); eauto.
Qed.

Lemma quantRec_ok vn e v tv : forall d r k t, opinv vn k -> qJ vn v tv k -> pv k r -> Rep k r t -> Z.of_nat (List.length (refstack k)) + 2 * (vn - lv vn k r) <= cap k ->
  vn - lv vn k r < Z.of_nat d -> kwp (quantRec d r (qop e) (qid e v)) (post vn k (quant (qfun e) (pvars tv) (sem t)) (lv vn k r)) k.
Proof.
  induction d as [|d IH]; intros r k t O Jk P R Cap Hd.
  { pose proof (lv_range _ _ _ (o_core _ _ O) (Rep_valid _ _ _ R)). lia. }
  cbn [quantRec]. pose proof (o_core _ _ O) as C.
  destruct (Z.ltb_spec r 2) as [Hc|Hc].
  { apply kwp_ret. split; auto. split; [eapply frame_refl; eauto|]. split; [|lia]. exists t. split; auto. intros x. rewrite quant_const; auto; [apply qfun_idem|].
    intros l _ y p. inversion R as [| |? ? ? L]; subst; auto. destruct L; lia. }
  pose proof (valid_range _ _ _ C (Rep_valid _ _ _ R)) as Vr. apply kwp_bind, kwp_rd; auto. apply kwp_bind, kwp_gets.
  pose proof R as R0. destruct (Rep_inv _ _ _ _ C R Hc) as (ta & tb & -> & Ra & Rb & L & Rg & La & Lb & Er). pose proof (pv_ge2 _ _ P Hc) as Pr.
  pose proof Jk as ((Hset & Hlast) & Pv & Rv). destruct (Z.ltb_spec (quantlast k) (levels k r)) as [Hq|Hq].
  { apply kwp_ret. split; auto. split; [eapply frame_refl; eauto|]. split; [|lia]. eexists. split; [exact R0|]. intros x. rewrite quant_const; auto; [apply qfun_idem|].
    intros l Hl. eapply sem_indep; eauto. specialize (Hlast _ Hl). lia. }
  apply kwp_bind, kwp_gets. apply kwp_bind, kwp_gets. set (i := cacheIndex k _).
  destruct ((e_a (quantcache k i) =? r) && (e_c (quantcache k i) =? qid e v)) eqn:Ec.
  { apply andb_true_iff in Ec. destruct Ec as [E1 E2]. apply Z.eqb_eq in E1, E2. apply kwp_ret.
    destruct (okQ_hit _ _ e _ v (ca_quant _ _ (o_caches _ _ O) i) ltac:(lia) E2) as (tv' & Rv' & ta' & tr & Ra' & Rr & Sr & Lr).
    rewrite E1 in Ra', Lr. rewrite (Rep_fun _ _ _ Rv _ Rv'), (Rep_fun _ _ _ R _ Ra'). split; auto. split; [eapply frame_refl; eauto|]. split; auto. exists tr; auto. }
  clear Ec. set (lvl := levels k r) in *. set (vs := pvars tv) in *.
  assert (SQ : forall x, quant (qfun e) vs (sem (Nd lvl ta tb)) x = if in_dec Z.eq_dec lvl vs then qfun e (quant (qfun e) vs (sem ta) x) (quant (qfun e) vs (sem tb) x)
     else if x lvl then quant (qfun e) vs (sem tb) x else quant (qfun e) vs (sem ta) x).
  { intros x. destruct (in_dec Z.eq_dec lvl vs).
    - apply (quant_ite_in (qfun e) (qfun_idem e) (qfun_ac e)); auto; try apply sem_exte; try (eapply sem_indep; eauto). unfold vs. eapply pvars_nodup; eauto.
    - apply quant_ite_out; auto; apply sem_exte. }
  apply (unary_seq vn (fun x => quantRec d x (qop e) (qid e v)) (fun f x => quant (qfun e) vs f x) (qJ vn v tv) lvl) with (ta := ta) (tb := tb); auto; try lia.
  - apply qJ_fr.
  - intros r' k' t' O' J' P' R' L' C'. apply IH; auto. lia.
  - intros n1 n2 k2 t1 t2 O2 F2 St2 R1 R2 S1 S2 L1 L2. apply kwp_bind, kwp_get.
    eapply kwp_bind' with (P := fun res k3 => opinv vn k3 /\ fr k k3 /\ refstack k3 = n2 :: n1 :: refstack k /\
      (exists t, Rep k3 res t /\ forall x, sem t x = quant (qfun e) vs (sem (Nd lvl ta tb)) x) /\ lvl <= lv vn k3 res).
    { destruct (fr_quantfields _ _ F2) as (EF1 & EF2 & _). unfold invarset. cbn [push with_refstack quantvarset quantvarsetId]. rewrite EF1, EF2.
      destruct (Z.eqb_spec (quantvarset k lvl) (quantvarsetId k)) as [Es|Es].
      - assert (Hin : In lvl vs) by (apply Hset; auto). pose proof (Rep_valid _ _ _ R1) as V1. pose proof (Rep_valid _ _ _ R2) as V2.
        pose proof (opinv_push _ _ _ O2 V2) as O3. pose proof (fr_trans _ _ _ F2 (fr_push _ _ n2 (o_core _ _ O2))) as F3.
        assert (P2 : pv (push n2 k2) n2) by (apply pv_top; auto).
        assert (P1 : pv (push n2 k2) n1). { apply pv_push. destruct V1 as [?|[?|V1]]; unfold pv; auto. right; right. apply p_root; auto. left. rewrite St2. left; auto. }
        pose proof (c_cap _ _ C) as Cc. pose proof (fr_cap _ _ F2) as Cc2.
        assert (E1 : lv vn (push n2 k2) n1 = lv vn k2 n1) by reflexivity. assert (E2 : lv vn (push n2 k2) n2 = lv vn k2 n2) by reflexivity.
        eapply kwp_conseq; [eapply applyRec_ok; [exact O3|exact P1|exact P2|apply Rep_push; exact R1|apply Rep_push; exact R2| |]|].
        + cbn [push with_refstack refstack cap]. rewrite St2, Cc2. cbn [List.length]. rewrite E1, E2. lia.
        + unfold maxdepth. cbn [push with_refstack cap]. rewrite Cc2, Cc. rewrite E1, E2. lia.
        + intros res k3 (O4 & F4 & (t3 & R3 & S3) & M3). split; auto. split; [eapply fr_trans; [exact F3|apply frame_fr; exact F4]|].
          split; [rewrite (frame_stack _ _ F4); cbn; rewrite St2; auto|]. split; [|rewrite E1, E2 in M3; lia]. exists t3. split; auto.
          intros x. rewrite S3, qfun_bsem, SQ, S1, S2. destruct (in_dec Z.eq_dec lvl vs); auto; contradiction.
      - assert (Hin : ~ In lvl vs) by (intros Hi; apply Hset in Hi; auto).
        eapply kwp_conseq; [eapply build_ok; [exact O2|exact F2|exact St2|exact R1|exact R2|lia|lia|lia]|].
        intros res k3 (O3 & F3 & St3 & (t3 & R3 & S3) & M3). split; auto. split; auto. split; auto. split; auto. exists t3. split; auto.
        intros x. rewrite S3, SQ, S1, S2. destruct (in_dec Z.eq_dec lvl vs); auto; contradiction. }
    intros res k3 (O3 & F3 & St3 & (t3 & R3 & S3) & M3). apply kwp_bind. unfold popref. apply kwp_modify. rewrite St3. cbn [skipn].
    fold (pops k k3). destruct (pop_ok _ _ _ O3 F3) as (O4 & F4). apply (Rep_pops k) in R3. change (lvl <= lv vn (pops k k3) res) in M3.
    set (k4 := pops k k3) in *. clearbody k4. apply kwp_bind, kwp_modify, kwp_ret.
    split; [|split; [apply frame_quant; auto|split; [exists t3; split; auto; apply Rep_quant; auto|rewrite Er; exact M3]]].
    apply opinv_quant; auto. eapply okQ_new with (e := e) (v := v) (tv := tv); [reflexivity|eapply Rep_fr; [apply frame_fr; eauto|exact Pv|exact Rv]|].
    cbn [e_a e_res]. exists (Nd lvl ta tb), t3. split; [eapply Rep_fr; [apply frame_fr; eauto|exact P|exact R0]|]. split; auto. split; auto.
    rewrite (frame_lv _ _ _ _ F4 P). lia.
Qed.
