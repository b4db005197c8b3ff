(** * Handles: node indices that stay valid because they are referenced *)
From Coq Require Import List Bool ZArith Lia.
From Verif Require Import Spec Factory Bdd BddTable BddNode BddSem BddQuant BddKernel.
Import ListNotations.
Local Open Scope Z_scope.

Definition cnt (L : list Z) (n : Z) : Z := Z.of_nat (count_occ Z.eq_dec L n).
(** every index of [L] is a node with one reference for each occurrence, or saturated *)
Definition hinv (k : kernel) (L : list Z) : Prop :=
  forall n, In n L -> valid k n /\ (2 <= n -> refcou k n = maxref \/ cnt L n <= refcou k n).
Lemma cnt_cons x L n : cnt (x :: L) n = (if Z.eq_dec x n then 1 else 0) + cnt L n.
Proof. unfold cnt. cbn. destruct (Z.eq_dec x n); lia. Qed.
Lemma cnt_in L n : In n L <-> 0 < cnt L n.
Proof. unfold cnt. rewrite (count_occ_In Z.eq_dec). lia. Qed.
Lemma hinv_le k L L' : (forall n, cnt L' n <= cnt L n) -> hinv k L -> hinv k L'.
Proof.
  intros H Hi n Hn. apply cnt_in in Hn. destruct (Hi n) as [V R]; [apply cnt_in; specialize (H n); lia|]. split; auto.
  intros G. destruct (R G); auto. right. specialize (H n). lia.
Qed.
Lemma hinv_tl k x L : hinv k (x :: L) -> hinv k L.
Proof. apply hinv_le. intros n. rewrite cnt_cons. destruct (Z.eq_dec x n); lia. Qed.
Lemma hinv_swap k x y L : hinv k (x :: y :: L) -> hinv k (y :: x :: L).
Proof. apply hinv_le. intros n. rewrite !cnt_cons. lia. Qed.
Lemma hinv_mid k x y L : hinv k (x :: y :: L) -> hinv k (x :: L).
Proof. intros H. apply hinv_swap in H. eapply hinv_tl; eauto. Qed.
Lemma hinv_pv k L n : hinv k L -> In n L -> pv k n.
Proof.
  intros H I. destruct (H n I) as [[->|[->|V]] R]; unfold pv; auto. right; right. apply p_root; auto. right.
  apply cnt_in in I. destruct R as [->|R]; [destruct V; lia|unfold maxref; lia|lia].
Qed.
Lemma hinv_const k L n : n = 0 \/ n = 1 -> hinv k L -> hinv k (n :: L).
Proof.
  intros Hn H m [<-|I]; [unfold valid; split; [tauto|intros; lia]|]. destruct (H m I) as [V R]. split; auto. intros G. rewrite cnt_cons. destruct (Z.eq_dec n m); [lia|]. destruct (R G); auto.
Qed.

(** the kernel [k'] extends [k]: the indices of [L] keep their meaning *)
Record kext (L : list Z) (k k' : kernel) : Prop := {
  x_vl : exists l, vlist k' = vlist k ++ l;
  x_num : varnum k' = varnum k; x_l2v : level2var k' = level2var k; x_v2l : var2level k' = var2level k;
  x_rep : forall n t, In n L -> Rep k n t -> Rep k' n t }.
Lemma kext_refl L k : kext L k k.
Proof. constructor; auto. exists []. rewrite app_nil_r; auto. Qed.
Lemma kext_trans L k1 k2 k3 : kext L k1 k2 -> kext L k2 k3 -> kext L k1 k3.
Proof.
  intros [(l & A1) A2 A3 A4 A5] [(m & B1) B2 B3 B4 B5]. constructor; try congruence; auto. exists (l ++ m). rewrite B1, A1, app_assoc; auto.
Qed.
Lemma kext_incl L L' k k' : incl L' L -> kext L k k' -> kext L' k k'.
Proof. intros I [A B C D E]. constructor; auto. Qed.

(** ** Preservation of the invariant *)
Lemma kinv_ext k k' : kinv k -> opinv (varnum k) k' -> qinv (varnum k) k' ->
  vlist k' = vlist k -> varnodes k' = varnodes k -> varnum k' = varnum k -> level2var k' = level2var k -> var2level k' = var2level k ->
  (forall n, refcou k' n = refcou k n) -> (forall i, 0 <= i < varnum k -> varnode k' i) -> kinv k'.
Proof.
  intros [A1 A2 A3 A4 A5 A6 A7] O Q E1 E2 E3 E4 E5 E6 V. constructor; rewrite ?E1, ?E2, ?E3, ?E4, ?E5; auto. intros n. rewrite E6. auto.
Qed.
Lemma varnode_ext k k' i : nodesize k' = nodesize k -> lows k' = lows k -> highs k' = highs k -> levels k' = levels k -> refcou k' = refcou k -> varnodes k' = varnodes k -> var2level k' = var2level k ->
  varnode k i -> varnode k' i.
Proof. intros A B C D E F G. unfold varnode, live. rewrite A, B, C, D, E, F, G. auto. Qed.
Lemma kinv_stack k : kinv k -> kinv (with_refstack [] k).
Proof.
  intros K. pose proof (ki_op _ K) as O. eapply kinv_ext; eauto; try reflexivity.
  - change (with_refstack [] k) with (pops (with_refstack [] k) k). apply opinv_pops; auto. intros x [].
  - apply K.
  - intros i Hi. apply (varnode_ext k); auto. apply K; auto.
Qed.
Lemma kinv_qmod k k' : kinv k -> qmod k k' -> qinv (varnum k) k' -> kinv k'.
Proof.
  intros K Q I. pose proof (qmod_opinv _ _ _ Q (ki_op _ K)) as O. destruct Q as (q & i & l & ->). eapply kinv_ext; eauto; try reflexivity.
  intros j Hj. apply (varnode_ext k); auto. apply K; auto.
Qed.
Lemma kinv_frame k k' : kinv k -> frame k k' -> opinv (varnum k) k' -> kinv k'.
Proof.
  intros K F O. pose proof (f_static _ _ F) as E. unfold static in E. injection E as E1 E2 E3 E4 E5 E6 E7 E8 E9 E10 E11 E12 E13 E14.
  eapply kinv_ext; eauto; try apply F.
  - destruct (ki_q _ K) as [Q1 Q2]. split; [rewrite E9; auto|]. intros l. rewrite E8, E9. auto.
  - intros i Hi. eapply frame_varnode; eauto. apply K; auto.
Qed.
Lemma frame_hinv k k' L : frame k k' -> hinv k L -> hinv k' L.
Proof.
  intros F H n I. destruct (H n I) as [V R]. split; [|rewrite (f_ref _ _ F); auto].
  pose proof (hinv_pv _ _ _ H I) as [->|[->|P]]; unfold valid; auto. right; right. apply F; auto.
Qed.
Lemma frame_kext k k' L : frame k k' -> hinv k L -> kext L k k'.
Proof.
  intros F H. pose proof (f_static _ _ F) as E. unfold static in E. injection E as E1 E2 E3 E4 E5 E6 E7 E8 E9 E10 E11 E12 E13 E14.
  constructor; auto; [exists []; rewrite app_nil_r; auto|]. intros n t I R. eapply Rep_fr; eauto; [apply frame_fr; auto|eapply hinv_pv; eauto].
Qed.
Lemma stack_hinv k L : hinv k L -> hinv (with_refstack [] k) L.
Proof. intros H n I. exact (H n I). Qed.
Lemma Rep_stack k n t : Rep k n t -> Rep (with_refstack [] k) n t.
Proof. apply Rep_ext; reflexivity. Qed.
Lemma stack_kext k L : kext L k (with_refstack [] k).
Proof. constructor; auto; [exists []; rewrite app_nil_r; auto|]. intros. apply Rep_stack; auto. Qed.
Lemma qmod_hinv k k' L : qmod k k' -> hinv k L -> hinv k' L.
Proof. intros (q & i & l & ->) H n I. exact (H n I). Qed.
Lemma qmod_kext k k' L : qmod k k' -> kext L k k'.
Proof. intros Q. pose proof (fun n t => qmod_Rep k k' n t Q) as R. destruct Q as (q & i & l & ->). constructor; auto. exists []; rewrite app_nil_r; auto. Qed.

(** ** The operations on handles *)
Definition opres (L : list Z) (k : kernel) (f : (Z -> bool) -> bool) (res : Z) (k' : kernel) : Prop :=
  kinv k' /\ hinv k' L /\ kext L k k' /\ vlist k' = vlist k /\ exists t, Rep k' res t /\ forall x, sem t x = f x.
Lemma post_opres L k f m res k' : kinv k -> hinv k L -> post (varnum k) k f m res k' -> opres L k f res k'.
Proof.
  intros K H (O & F & R & _). split; [eapply kinv_frame; eauto|]. split; [eapply frame_hinv; eauto|]. split; [eapply frame_kext; eauto|split; [|auto]]. pose proof (f_static _ _ F) as E. unfold static in E. congruence.
Qed.
Lemma opres_pre L k0 k f res k' : kext L k0 k -> vlist k = vlist k0 -> opres L k f res k' -> opres L k0 f res k'.
Proof. intros X V (A & B & C & E & D). split; auto. split; auto. split; [eapply kext_trans; eauto|]. split; auto. congruence. Qed.
Lemma lv_cap k n t : kinv k -> Rep k n t -> 0 <= lv (varnum k) k n <= varnum k /\ cap k = 2 * varnum k + 4 /\ 0 <= varnum k.
Proof.
  intros K R. pose proof (o_core _ _ (ki_op _ K)) as C. split; [eapply lv_range; eauto; eapply Rep_valid; eauto|]. split; [eapply c_cap; eauto|eapply c_vn; eauto].
Qed.
Lemma bnot_ok L k n t : kinv k -> hinv k L -> In n L -> Rep k n t -> kwp (bnot n) (opres L k (fun x => negb (sem t x))) k.
Proof.
  intros K H I R. unfold bnot, initRef. apply kwp_bind, kwp_modify. apply kwp_bind, kwp_get.
  pose proof (kinv_stack _ K) as K'. pose proof (stack_hinv _ _ H) as H'. pose proof (Rep_stack _ _ _ R) as R'. destruct (lv_cap _ _ _ K' R') as (A & B & C).
  eapply kwp_conseq; [apply (notRec_ok (varnum k)) with (t := t); auto|].
  - apply K'.
  - eapply hinv_pv; eauto.
  - cbn [refstack with_refstack List.length] in *. rewrite B. change (varnum (with_refstack [] k)) with (varnum k) in *. lia.
  - unfold maxdepth. rewrite B. change (varnum (with_refstack [] k)) with (varnum k) in *. lia.
  - intros r k' P. eapply opres_pre; [apply stack_kext|reflexivity|]. eapply post_opres; eauto.
Qed.
Lemma apply_ok L k l r o tl tr : kinv k -> hinv k L -> In l L -> In r L -> Rep k l tl -> Rep k r tr ->
  kwp (apply l r o) (opres L k (fun x => bsem o (sem tl x) (sem tr x))) k.
Proof.
  intros K H Il Ir Rl Rr. unfold apply, initRef. apply kwp_bind, kwp_modify. apply kwp_bind, kwp_get.
  pose proof (kinv_stack _ K) as K'. pose proof (stack_hinv _ _ H) as H'. pose proof (Rep_stack _ _ _ Rl) as Rl'. pose proof (Rep_stack _ _ _ Rr) as Rr'.
  destruct (lv_cap _ _ _ K' Rl') as (A & B & C). destruct (lv_cap _ _ _ K' Rr') as (A' & _ & _). change (varnum (with_refstack [] k)) with (varnum k) in *.
  eapply kwp_conseq; [apply (applyRec_ok (varnum k)) with (tl := tl) (tr := tr); auto|].
  - apply K'.
  - eapply hinv_pv; eauto.
  - eapply hinv_pv; eauto.
  - cbn [refstack with_refstack List.length]. rewrite B. lia.
  - unfold maxdepth. rewrite B. lia.
  - intros x k' P. eapply opres_pre; [apply stack_kext|reflexivity|]. eapply post_opres; eauto.
Qed.
Lemma opres_const L k f n t : kinv k -> hinv k L -> Rep k n t -> (forall x, sem t x = f x) -> opres L k f n k.
Proof. intros. split; auto. split; auto. split; [apply kext_refl|split; eauto]. Qed.
Lemma restrict_ok L k n v t tv : kinv k -> hinv k L -> In n L -> In v L -> Rep k n t -> Rep k v tv ->
  kwp (restrict n v) (opres L k (fun x => sem t (override (plits tv) x))) k.
Proof.
  intros K H In' Iv R Rv. unfold restrict. destruct (Z.ltb_spec v 2) as [Hv|Hv].
  { apply kwp_ret. eapply opres_const; eauto. intros x. inversion Rv as [| |? ? ? X]; subst; auto. destruct X; lia. }
  eapply kwp_bind'; [apply svartable_ok; eauto; apply K|]. intros [] k1 (Q & Qi & Rs). pose proof (kinv_qmod _ _ K Q Qi) as K1.
  unfold initRef. apply kwp_bind, kwp_modify. apply kwp_bind, kwp_get.
  pose proof (kinv_stack _ K1) as K'. pose proof (stack_hinv _ _ (qmod_hinv _ _ _ Q H)) as H'. pose proof (Rep_stack _ _ _ (qmod_Rep _ _ _ _ Q R)) as R'.
  pose proof (Rep_stack _ _ _ (qmod_Rep _ _ _ _ Q Rv)) as Rv'.
  assert (E : varnum k1 = varnum k) by (destruct Q as (? & ? & ? & ->); auto).
  destruct (lv_cap _ _ _ K' R') as (A & B & C). change (varnum (with_refstack [] k1)) with (varnum k1) in *. rewrite E in *.
  eapply kwp_conseq; [apply (restrictRec_ok (varnum k) v tv) with (t := t); auto|].
  - rewrite <- E. apply K'.
  - split; [exact Rs|]. split; [eapply hinv_pv; eauto|auto].
  - eapply hinv_pv; eauto.
  - cbn [refstack with_refstack List.length]. rewrite B. lia.
  - unfold maxdepth. rewrite B. lia.
  - intros x k' P. eapply opres_pre; [eapply kext_trans; [apply qmod_kext; eauto|apply stack_kext]|destruct Q as (? & ? & ? & ->); reflexivity|]. eapply post_opres; eauto.
    change (varnum (with_refstack [] k1)) with (varnum k1). rewrite E. exact P.
Qed.
Lemma quant_ok e L k n v t tv : kinv k -> hinv k L -> In n L -> In v L -> Rep k n t -> Rep k v tv ->
  kwp (if v <? 2 then kret n else varset2vartable v ~; initRef ~; k <~ get; quantRec (maxdepth k) n (qop e) (qid e v)) (opres L k (quant (qfun e) (pvars tv) (sem t))) k.
Proof.
  intros K H In' Iv R Rv. destruct (Z.ltb_spec v 2) as [Hv|Hv].
  { apply kwp_ret. eapply opres_const; eauto. intros x. inversion Rv as [| |? ? ? X]; subst; auto. destruct X; lia. }
  eapply kwp_bind'; [apply vartable_ok; eauto; apply K|]. intros [] k1 (Q & Qi & Rs). pose proof (kinv_qmod _ _ K Q Qi) as K1.
  unfold initRef. apply kwp_bind, kwp_modify. apply kwp_bind, kwp_get.
  pose proof (kinv_stack _ K1) as K'. pose proof (stack_hinv _ _ (qmod_hinv _ _ _ Q H)) as H'. pose proof (Rep_stack _ _ _ (qmod_Rep _ _ _ _ Q R)) as R'.
  pose proof (Rep_stack _ _ _ (qmod_Rep _ _ _ _ Q Rv)) as Rv'.
  assert (E : varnum k1 = varnum k) by (destruct Q as (? & ? & ? & ->); auto).
  destruct (lv_cap _ _ _ K' R') as (A & B & C). change (varnum (with_refstack [] k1)) with (varnum k1) in *. rewrite E in *.
  eapply kwp_conseq; [apply (quantRec_ok (varnum k) e v tv) with (t := t); auto|].
  - rewrite <- E. apply K'.
  - split; [exact Rs|]. split; [eapply hinv_pv; eauto|auto].
  - eapply hinv_pv; eauto.
  - cbn [refstack with_refstack List.length]. rewrite B. lia.
  - unfold maxdepth. rewrite B. lia.
  - intros x k' P. eapply opres_pre; [eapply kext_trans; [apply qmod_kext; eauto|apply stack_kext]|destruct Q as (? & ? & ? & ->); reflexivity|]. eapply post_opres; eauto.
    change (varnum (with_refstack [] k1)) with (varnum k1). rewrite E. exact P.
Qed.

(** ** References *)
(** a kernel that differs in reference counts only *)
Definition sameR (k k' : kernel) : Prop := exists r, k' = with_refcou r k.
Lemma sameR_Rep k k' n t : sameR k k' -> Rep k n t <-> Rep k' n t.
Proof. intros (r & ->). split; apply Rep_ext; reflexivity. Qed.
Lemma sameR_kext L k k' : sameR k k' -> kext L k k'.
Proof.
  intros S. pose proof (fun n t => proj1 (sameR_Rep k k' n t S)) as R. destruct S as (r & ->). constructor; auto. exists []; rewrite app_nil_r; auto.
Qed.
Lemma kinv_ref k n v : kinv k -> live k n -> 0 <= v <= maxref -> (refcou k n = maxref -> v = maxref) -> kinv (with_refcou (upd (refcou k) n v) k).
Proof.
  intros [A1 A2 A3 A4 A5 A6 A7] L Hv Hm. constructor; auto.
  - destruct A1 as [B1 B2 B3 B4]. constructor; [apply chain_ref; auto; lia| | |auto].
    + revert B2. apply tab_ext; reflexivity.
    + revert B3. apply caches_ext; reflexivity.
  - intros i Hi. specialize (A5 i Hi). unfold varnode in *. cbv zeta in *. cbn -[Z.mul]. destruct A5 as ((P1 & P2 & P3) & (Q1 & Q2 & Q3)).
    split; (split; [assumption|split; [|assumption]]); unfold upd; match goal with |- (if ?c then _ else _) = _ => destruct c eqn:E end; auto; apply Z.eqb_eq in E; rewrite E in *; auto.
  - intros m. cbn. unfold upd. destruct (m =? n); auto; lia.
Qed.
Lemma addRef_ok L k n t b : kinv k -> hinv k L -> Rep k n t ->
  kwp (addRef n b) (fun r k' => kinv k' /\ sameR k k' /\ hinv k' L /\ if b then r = Some n /\ hinv k' (n :: L) else r = None) k.
Proof.
  intros K H R. unfold addRef. destruct b; cbn [negb].
  2:{ apply kwp_ret. split; auto. split; [exists (refcou k); destruct k; auto|]. auto. }
  destruct (Z.ltb_spec n 2) as [Hn|Hn].
  { apply kwp_ret. split; auto. split; [exists (refcou k); destruct k; auto|]. split; auto. split; auto. apply hinv_const; auto. inversion R as [| |? ? ? X]; subst; auto. destruct X; lia. }
  apply kwp_bind, kwp_gets. pose proof (o_core _ _ (ki_op _ K)) as C. pose proof (Rep_valid _ _ _ R) as V. pose proof (valid_range _ _ _ C V) as Vr.
  destruct (Z.leb_spec (nodesize k) n); [lia|]. apply kwp_bind, kwp_rd; auto. pose proof (valid_ge2 _ _ V Hn) as Ln.
  destruct (Z.eqb_spec (lows k n) (-1)) as [E|_]; [destruct Ln; contradiction|]. apply kwp_bind, kwp_rd; auto. pose proof (ki_ref _ K n) as Rm. pose proof (c_ref0 _ _ C n).
  destruct (Z.ltb_spec (refcou k n) maxref).
  - unfold setRefcou. apply kwp_bind, kwp_wr; [lia|]. apply kwp_ret.
    assert (K' : kinv (with_refcou (upd (refcou k) n (refcou k n + 1)) k)) by (apply kinv_ref; auto; lia).
    assert (H' : hinv (with_refcou (upd (refcou k) n (refcou k n + 1)) k) (n :: L)).
    { intros m Hm. split; [destruct Hm as [<-|Hm]; [exact V|apply (H m Hm)]|]. intros G. cbn. rewrite cnt_cons. unfold upd. destruct (Z.eq_dec n m) as [<-|Ne].
      - rewrite Z.eqb_refl. destruct (in_dec Z.eq_dec n L) as [I|I]; [destruct (H n I) as [_ [Q|Q]]; auto; try lia|].
        assert (cnt L n = 0) by (rewrite cnt_in in I; unfold cnt in *; lia). lia.
      - destruct Hm as [?|Hm]; [congruence|]. destruct (Z.eqb_spec m n); [congruence|]. destruct (H m Hm) as [_ Q]. destruct (Q G); auto. }
    split; auto. split; [eexists; reflexivity|]. split; auto. eapply hinv_tl; eauto.
  - apply kwp_bind, kwp_ret. apply kwp_ret. split; auto. split; [exists (refcou k); destruct k; auto|]. split; auto. split; auto.
    intros m Hm. split; [destruct Hm as [<-|Hm]; [exact V|apply (H m Hm)]|]. intros G. rewrite cnt_cons. destruct (Z.eq_dec n m) as [<-|Ne]; [left; lia|].
    destruct Hm as [?|Hm]; [congruence|]. destruct (H m Hm) as [_ Q]. destruct (Q G); auto.
Qed.
Lemma delRef_ok L k n : kinv k -> hinv k (n :: L) -> kwp (delRef n) (fun _ k' => kinv k' /\ sameR k k' /\ hinv k' L) k.
Proof.
  intros K H. pose proof (hinv_tl _ _ _ H) as HL. unfold delRef. destruct (Z.ltb_spec n 2) as [Hn|Hn].
  { apply kwp_ret. split; auto. split; [exists (refcou k); destruct k; auto|]. auto. }
  apply kwp_bind, kwp_gets. pose proof (o_core _ _ (ki_op _ K)) as C. destruct (H n (or_introl eq_refl)) as [V R]. pose proof (valid_range _ _ _ C V) as Vr.
  destruct (Z.leb_spec (nodesize k) n); [lia|]. apply kwp_bind, kwp_rd; auto. pose proof (valid_ge2 _ _ V Hn) as Ln.
  destruct (Z.eqb_spec (lows k n) (-1)) as [E|_]; [destruct Ln; contradiction|]. apply kwp_bind, kwp_rd; auto. pose proof (ki_ref _ K n) as Rm.
  rewrite cnt_cons in R. destruct (Z.eq_dec n n) as [_|]; [|congruence]. assert (0 <= cnt L n) by (unfold cnt; lia). specialize (R Hn).
  destruct (Z.ltb_spec 0 (refcou k n)) as [Hp|Hp]; [|unfold maxref in R; lia]. cbn [negb]. rewrite andb_true_r.
  destruct (Z.eqb_spec (refcou k n) maxref) as [E|E]; cbn [negb].
  { apply kwp_ret. split; auto. split; [exists (refcou k); destruct k; auto|]. auto. }
  unfold setRefcou. apply kwp_wr; [lia|]. split; [apply kinv_ref; auto; [unfold maxref in *; lia|intros; contradiction]|]. split; [eexists; reflexivity|].
  intros m Hm. destruct (HL m Hm) as [Vm Q]. split; auto. intros G. cbn. unfold upd. destruct (Z.eqb_spec m n) as [->|Ne]; auto. right. destruct R as [R|R]; [contradiction|lia].
Qed.

(** ** Variables *)
Lemma indexOf_some v : forall l i j, indexOf v l i = Some j -> i <= j /\ nth_error l (Z.to_nat (j - i)) = Some v.
Proof.
  induction l as [|x l IH]; cbn; intros i j E; [discriminate|]. destruct (feqb x v) eqn:Ef.
  - injection E as <-. replace (i - i) with 0 by lia. cbn. split; [lia|]. f_equal. destruct x as [sx ix], v as [sv iv]. unfold feqb in Ef. cbn in Ef. apply andb_true_iff in Ef as [E1 E2].
    apply N.eqb_eq in E2. subst. destruct sx, sv; cbn in E1; try discriminate; auto.
  - apply IH in E as [E1 E2]. split; [lia|]. replace (Z.to_nat (j - i)) with (S (Z.to_nat (j - (i + 1)))) by lia. auto.
Qed.
Lemma indexOf_none v : forall l i, indexOf v l i = None -> ~ In v l.
Proof.
  induction l as [|x l IH]; cbn; intros i E; auto. destruct (feqb x v) eqn:Ef; [discriminate|]. intros [->|I]; [|eapply IH; eauto].
  destruct v as [sv iv]. unfold feqb in Ef. cbn in Ef. rewrite N.eqb_refl in Ef. destruct sv; discriminate.
Qed.
Definition room (k : kernel) (v : formula) : Prop := In v (vlist k) \/ Z.of_nat (List.length (vlist k)) < varnum k.
Lemma getIndex_ok L k v : kinv k -> hinv k L -> room k v ->
  kwp (getOrAddVarIndex v) (fun i k' => kinv k' /\ hinv k' L /\ kext L k k' /\ 0 <= i < varnum k' /\ nth_error (vlist k') (Z.to_nat i) = Some v /\ (In v (vlist k) -> k' = k) /\ incl (vlist k') (v :: vlist k)) k.
Proof.
  intros K H Rm. unfold kwp, getOrAddVarIndex. destruct (indexOf v (vlist k) 0) as [i|] eqn:E.
  - apply indexOf_some in E as [E1 E2]. rewrite Z.sub_0_r in E2. split; auto. split; auto. split; [apply kext_refl|]. split; [|split; [auto|split; [auto|intros y; right; auto]]].
    pose proof (proj2 (ki_vlist _ K)). assert (Z.to_nat i < List.length (vlist k))%nat by (apply nth_error_Some; congruence). lia.
  - apply indexOf_none in E. destruct Rm as [?|Rm]; [contradiction|]. destruct (Z.leb_spec (varnum k) (Z.of_nat (List.length (vlist k)))); [lia|].
    split; [|split; [exact H|split; [|split; [cbn; lia|]]]].
    + destruct K as [A1 A2 A3 A4 A5 A6 A7]. constructor; auto.
      * destruct A1 as [B1 B2 B3 B4]. constructor; auto; [pose proof (c_stack _ _ B1) as Sk; revert B1; apply core_ext; auto|revert B2; apply tab_ext; reflexivity|revert B3; apply caches_ext; reflexivity].
      * cbn. destruct A7 as [N Le]. split; [|rewrite app_length; cbn; lia]. clear - N E. induction (vlist k) as [|x l IH]; cbn; [constructor; auto; constructor|].
        inversion N; subst. constructor; [rewrite in_app_iff; cbn; intros [?|[?|[]]]; [auto|subst; apply E; left; auto]|apply IH; auto; intros I; apply E; right; auto].
    + constructor; auto; [eexists; reflexivity|]. intros n t I R. revert R. apply Rep_ext; reflexivity.
    + cbn. rewrite Nat2Z.id, nth_error_app2, Nat.sub_diag by lia. split; auto. split; [intros; contradiction|]. intros y Hy. apply in_app_iff in Hy as [Hy|[<-|[]]]; [right|left]; auto.
Qed.
Lemma varnode_hinv k L i (pos : bool) : kinv k -> hinv k L -> 0 <= i < varnum k ->
  let n := varnodes k (if pos then 2 * i else 2 * i + 1) in hinv k (n :: L) /\ Rep k n (Nd (var2level k i) (Lf (negb pos)) (Lf pos)).
Proof.
  intros K H Hi n. assert (X : live k n /\ refcou k n = maxref /\ levels k n = var2level k i /\ lows k n = (if pos then 0 else 1) /\ highs k n = (if pos then 1 else 0)).
  { destruct (ki_vars _ K i Hi) as [A B]. subst n. destruct pos; auto. }
  destruct X as (L1 & Rf & Lv & Lo & Hi'). split.
  - intros m [<-|I]; [split; [right; right; auto|auto]|]. destruct (H m I) as [V R]. split; auto. intros G. rewrite cnt_cons. destruct (Z.eq_dec n m) as [E|Ne]; [left; rewrite <- E; auto|].
    destruct (R G); auto.
  - rewrite <- Lv. constructor; auto; [rewrite Lo|rewrite Hi']; destruct pos; constructor.
Qed.
