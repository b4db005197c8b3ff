(** * The paths of a BDD; its formulas *)
From Coq Require Import String List Bool ZArith NArith Lia.
From Verif Require Import Spec Factory FactoryProofs FactoryProofs2 FactoryProofs3 FactoryApi FactoryProps Assign NormalForm NfBase NfAssign NfEnc NfNnf NfCnf
  Bdd BddApi BddQuery BddTable BddNode BddSem BddQuant BddKernel BddHandles BddCompile BddCanon BddOps BddHist.
Import ListNotations.
Local Open Scope Z_scope.

(** ** Paths of a tree *)
Fixpoint tpaths (v : bool) (t : bt) : list (list (Z * bool)) :=
  match t with
  | Lf w => if Bool.eqb w v then [[]] else []
  | Nd l a b => map (cons (l, false)) (tpaths v a) ++ map (cons (l, true)) (tpaths v b)
  end.
Definition onpath (x : Z -> bool) (ph : list (Z * bool)) : Prop := forall l b, In (l, b) ph -> x l = b.
Lemma tpaths_sem v : forall t x, sem t x = v <-> exists ph, In ph (tpaths v t) /\ onpath x ph.
Proof.
  induction t as [w|l a IHa b IHb]; cbn; intros x.
  - destruct (Bool.eqb w v) eqn:E.
    + apply eqb_prop in E. subst. split; auto. intros _. exists []. split; [left; auto|]. intros l b [].
    + split; [intros ->; rewrite Bool.eqb_reflx in E; discriminate|]. intros (ph & [] & _).
  - split.
    + intros H. destruct (x l) eqn:Ex.
      * apply IHb in H as (ph & I & O). exists ((l, true) :: ph). split; [apply in_or_app; right; apply in_map; auto|]. intros m c [E|Hm]; [inversion E; subst; auto|auto].
      * apply IHa in H as (ph & I & O). exists ((l, false) :: ph). split; [apply in_or_app; left; apply in_map; auto|]. intros m c [E|Hm]; [inversion E; subst; auto|auto].
    + intros (ph & I & O). apply in_app_or in I as [I|I]; apply in_map_iff in I as (ph' & <- & I).
      * rewrite (O l false) by (left; auto). apply IHa. exists ph'. split; auto. intros m c Hm. apply O. right; auto.
      * rewrite (O l true) by (left; auto). apply IHb. exists ph'. split; auto. intros m c Hm. apply O. right; auto.
Qed.
Definition code (ph : list (Z * bool)) (l : Z) : Z := match assoc l ph with Some true => 1 | Some false => 0 | None => 2 end.
Definition toplev (vn : Z) (t : bt) : Z := match t with Lf _ => vn | Nd l _ _ => l end.
Lemma Rep_toplev vn k n t : Rep k n t -> lv vn k n = toplev vn t.
Proof. intros R. inversion R as [| |n' a b L Ra Rb]; subst; cbn; auto. unfold lv. destruct L as [L _]. destruct (Z.ltb_spec n 2); auto; lia. Qed.
Lemma tpaths_range v : forall t m ph l b, robt t m -> In ph (tpaths v t) -> In (l, b) ph -> m <= l.
Proof.
  induction t as [w|l0 a IHa b0 IHb]; cbn; intros m ph l b R I Hl.
  - destruct (Bool.eqb w v); [destruct I as [<-|[]]; destruct Hl|destruct I].
  - destruct R as (H1 & H2 & H3 & _). apply in_app_or in I as [I|I]; apply in_map_iff in I as (ph' & <- & I); (destruct Hl as [E|Hl]; [inversion E; subst; lia|]).
    + pose proof (IHa _ _ _ _ H2 I Hl). lia.
    + pose proof (IHb _ _ _ _ H3 I Hl). lia.
Qed.
Lemma assoc_in l ph b : assoc l ph = Some b -> In (l, b) ph.
Proof. induction ph as [|[l' p] r IH]; cbn; [discriminate|]. destruct (Z.eqb_spec l l'); [intros E; inversion E; subst; auto|auto]. Qed.
Lemma assoc_none l ph : (forall b, ~ In (l, b) ph) -> assoc l ph = None.
Proof. intros H. destruct (assoc l ph) as [b|] eqn:E; auto. apply assoc_in in E. elim (H b); auto. Qed.
Lemma tpaths_assoc v : forall t m ph l b, robt t m -> In ph (tpaths v t) -> In (l, b) ph -> assoc l ph = Some b.
Proof.
  induction t as [w|l0 a IHa b0 IHb]; cbn; intros m ph l b R I Hl.
  - destruct (Bool.eqb w v); [destruct I as [<-|[]]; destruct Hl|destruct I].
  - destruct R as (H1 & H2 & H3 & _). apply in_app_or in I as [I|I]; apply in_map_iff in I as (ph' & <- & I); cbn; (destruct Hl as [E|Hl]; [inversion E; subst; rewrite Z.eqb_refl; auto|]).
    + pose proof (tpaths_range _ _ _ _ _ _ H2 I Hl). destruct (Z.eqb_spec l l0); [lia|]. eapply IHa; eauto.
    + pose proof (tpaths_range _ _ _ _ _ _ H3 I Hl). destruct (Z.eqb_spec l l0); [lia|]. eapply IHb; eauto.
Qed.
Lemma onpath_code v t m ph x : robt t m -> In ph (tpaths v t) -> (onpath x ph <-> forall l, code ph l <> 2 -> x l = (code ph l =? 1)).
Proof.
  intros R I. unfold onpath, code. split.
  - intros O l H. destruct (assoc l ph) as [b|] eqn:E; [|congruence]. apply assoc_in in E. rewrite (O l b E). destruct b; auto.
  - intros O l b H. pose proof (tpaths_assoc _ _ _ _ _ _ R I H) as E. specialize (O l). rewrite E in O. destruct b; apply O; discriminate.
Qed.

(** ** Profiles *)
Section Profiles.
Variable k : kernel.
Hypothesis K : kinv k.
Let vn := varnum k.
Let C : core vn k := o_core _ _ (ki_op _ K).
Lemma level_eq n : valid k n -> levels k n = lv vn k n.
Proof. intros V. pose proof (o_lev _ _ (ki_op _ K)) as [L0 L1]. unfold lv. destruct V as [-> | [-> |[L _]]]; auto. destruct (Z.ltb_spec n 2); auto; lia. Qed.
Lemma l2v_inj l m : 0 <= l < vn -> 0 <= m < vn -> level2var k l = level2var k m -> l = m.
Proof. intros Hl Hm E. rewrite <- (proj2 (ki_perm' _ K l Hl)), <- (proj2 (ki_perm' _ K m Hm)). congruence. Qed.
Lemma profSkip_ok cnt : forall v p, v < vn -> -1 <= v - Z.of_nat cnt ->
  kwp (profSkip cnt v p) (fun p' k' => k' = k /\ forall l, 0 <= l < vn -> p' (level2var k l) = if (v - Z.of_nat cnt <? l) && (l <=? v) then 2 else p (level2var k l)) k.
Proof.
  induction cnt as [|c IH]; intros v p Hv Hc; cbn [profSkip].
  - apply kwp_ret. split; auto. intros l Hl. replace ((v - Z.of_nat 0 <? l) && (l <=? v)) with false; auto. symmetry. apply andb_false_iff. destruct (Z.ltb_spec (v - Z.of_nat 0) l); auto. right. apply Z.leb_gt. lia.
  - rewrite Nat2Z.inj_succ in Hc. apply kwp_bind, kwp_gets. apply kwp_bind. destruct (ki_perm' _ K v) as [P1 P2]; [unfold vn in *; lia|]. unfold kwp at 1, profSet.
    replace ((0 <=? level2var k v) && (level2var k v <? varnum k)) with true by (symmetry; apply andb_true_iff; split; [apply Z.leb_le|apply Z.ltb_lt]; lia).
    eapply kwp_conseq; [apply IH; lia|]. intros p' k' (-> & H). split; auto. intros l Hl. rewrite H by auto. rewrite Nat2Z.inj_succ.
    destruct (Z.eq_dec l v) as [->|N].
    + replace ((v - 1 - Z.of_nat c <? v) && (v <=? v - 1)) with false by (symmetry; apply andb_false_iff; right; apply Z.leb_gt; lia).
      replace ((v - Z.succ (Z.of_nat c) <? v) && (v <=? v)) with true by (symmetry; apply andb_true_iff; split; [apply Z.ltb_lt|apply Z.leb_le]; lia). unfold Bdd.upd. rewrite Z.eqb_refl. auto.
    + replace ((v - Z.succ (Z.of_nat c) <? l) && (l <=? v)) with ((v - 1 - Z.of_nat c <? l) && (l <=? v - 1)).
      2:{ f_equal; [f_equal; lia|]. destruct (Z.leb_spec l (v - 1)), (Z.leb_spec l v); auto; lia. }
      destruct ((v - 1 - Z.of_nat c <? l) && (l <=? v - 1)); auto. unfold Bdd.upd. destruct (Z.eqb_spec (level2var k l) (level2var k v)) as [E|]; auto. apply l2v_inj in E; [lia|auto|lia].
Qed.
Lemma profBetween_ok hi lo p : -1 <= lo < hi -> hi <= vn ->
  kwp (profBetween hi lo p) (fun p' k' => k' = k /\ forall l, 0 <= l < vn -> p' (level2var k l) = if (lo <? l) && (l <? hi) then 2 else p (level2var k l)) k.
Proof.
  intros H1 H2. unfold profBetween. eapply kwp_conseq; [apply profSkip_ok; [lia|rewrite Z2Nat.id by lia; lia]|]. intros p' k' (-> & H). split; auto. intros l Hl. rewrite H by auto. rewrite Z2Nat.id by lia.
  replace (hi - 1 - (hi - lo - 1)) with lo by lia. replace (l <=? hi - 1) with (l <? hi); auto. destruct (Z.ltb_spec l hi), (Z.leb_spec l (hi - 1)); auto; lia.
Qed.
Definition isProf (lo : Z) (p : Z -> Z) (ph : list (Z * bool)) (q : Z -> Z) : Prop :=
  (forall l, lo <= l < vn -> q (level2var k l) = code ph l) /\ forall l, 0 <= l < lo -> q (level2var k l) = p (level2var k l).
Definition tgtOf (v : bool) : Z := if v then 1 else 0.
Definition pathPost (v : bool) (t : bt) (p : Z -> Z) (acc : list (Z -> Z)) (x : (Z -> Z) * list (Z -> Z)) (k' : kernel) : Prop :=
  k' = k /\ (forall l, 0 <= l < toplev vn t -> fst x (level2var k l) = p (level2var k l)) /\ exists ps, snd x = acc ++ ps /\ Forall2 (isProf (toplev vn t) p) (tpaths v t) ps.
Lemma isProf_step l0 lc (b : bool) p p1 ph q : 0 <= l0 < lc -> lc <= vn ->
  (forall l, 0 <= l < vn -> p1 (level2var k l) = if (l0 <? l) && (l <? lc) then 2 else if l =? l0 then (if b then 1 else 0) else p (level2var k l)) ->
  (forall l c, In (l, c) ph -> lc <= l) ->
  isProf lc p1 ph q -> isProf l0 p ((l0, b) :: ph) q.
Proof.
  intros H0 H1 Hp Hph [Q1 Q2]. split.
  - intros l Hl. unfold code. cbn. destruct (Z.eqb_spec l l0) as [->|N].
    + rewrite Q2 by lia. rewrite Hp by lia. replace ((l0 <? l0) && (l0 <? lc)) with false by (symmetry; rewrite Z.ltb_irrefl; auto). rewrite Z.eqb_refl. destruct b; auto.
    + destruct (Z.lt_ge_cases l lc) as [L|L]; [|apply Q1; lia]. rewrite Q2 by lia. rewrite Hp by lia.
      replace ((l0 <? l) && (l <? lc)) with true by (symmetry; apply andb_true_iff; split; apply Z.ltb_lt; lia). rewrite assoc_none; auto. intros c Hc. apply Hph in Hc. lia.
  - intros l Hl. rewrite Q2 by lia. rewrite Hp by lia. replace ((l0 <? l) && (l <? lc)) with false by (symmetry; apply andb_false_iff; left; apply Z.ltb_ge; lia).
    destruct (Z.eqb_spec l l0); [lia|]. auto.
Qed.
Definition branchPost (v : bool) (t : bt) (l0 : Z) (b : bool) (p : Z -> Z) (acc : list (Z -> Z)) (x : (Z -> Z) * list (Z -> Z)) (k' : kernel) : Prop :=
  k' = k /\ (forall l, 0 <= l < l0 -> fst x (level2var k l) = p (level2var k l)) /\ exists ps, snd x = acc ++ ps /\ Forall2 (isProf l0 p) (map (cons (l0, b)) (tpaths v t)) ps.
Lemma branch_ok v d c t l0 (b : bool) p acc : Rep k c t -> 0 <= l0 < toplev vn t ->
  (forall p acc, kwp (allPathsRec d (tgtOf v) c p acc) (pathPost v t p acc) k) ->
  kwp (if negb (c =? 1 - tgtOf v) then
         i <~ gets (fun k => level2var k l0); p <~ profSet i (if b then 1 else 0) p; ll <~ level c; p <~ profBetween ll l0 p; allPathsRec d (tgtOf v) c p acc
       else kret (p, acc)) (branchPost v t l0 b p acc) k.
Proof.
  intros R Hl IH. pose proof (Rep_valid _ _ _ R) as V. pose proof (valid_range _ _ _ C V) as Vr. destruct (Z.eqb_spec c (1 - tgtOf v)) as [E|N]; cbn [negb].
  - apply kwp_ret. split; auto. split; auto. exists []. rewrite app_nil_r. split; auto.
    assert (Et : t = Lf (negb v)) by (inversion R as [| |n' a' b' [L _] Ra Rb]; subst; [destruct v; auto; discriminate|destruct v; auto; discriminate|destruct v; cbn in L; lia]).
    subst t. destruct v; constructor.
  - assert (Hv : toplev vn t <= vn) by (rewrite <- (Rep_toplev vn _ _ _ R); eapply lv_range; eauto).
    apply kwp_bind, kwp_gets. apply kwp_bind. destruct (ki_perm' _ K l0) as [P1 P2]; [unfold vn in *; lia|]. unfold kwp at 1, profSet.
    replace ((0 <=? level2var k l0) && (level2var k l0 <? varnum k)) with true by (symmetry; apply andb_true_iff; split; [apply Z.leb_le|apply Z.ltb_lt]; lia).
    apply kwp_bind. apply kwp_rd; [exact Vr|]. cbn. rewrite (level_eq c V), (Rep_toplev vn _ _ _ R).
    eapply kwp_bind'; [apply profBetween_ok; lia|]. intros p1 k1 (-> & Hp1). eapply kwp_conseq; [apply IH|]. intros x k' (-> & Hx & ps & Es & HF). split; auto. split.
    + intros l Hl'. rewrite Hx by lia. rewrite Hp1 by lia. replace ((l0 <? l) && (l <? toplev vn t)) with false by (symmetry; apply andb_false_iff; left; apply Z.ltb_ge; lia).
      unfold Bdd.upd. destruct (Z.eqb_spec (level2var k l) (level2var k l0)) as [E|]; auto. apply l2v_inj in E; lia.
    + exists ps. split; auto. assert (Hph : forall ph, In ph (tpaths v t) -> forall l c, In (l, c) ph -> toplev vn t <= l).
      { intros ph Hi l c0 Hc. eapply tpaths_range; [|exact Hi|exact Hc]. rewrite <- (Rep_toplev vn _ _ _ R). eapply Rep_robt; eauto. }
      clear Es. induction HF as [|ph q phs qs Hq HF IHF]; cbn; constructor.
      * eapply isProf_step; [|exact Hv| |apply Hph; left; auto|exact Hq]; [lia|]. intros l Hl2. rewrite Hp1 by auto. destruct ((l0 <? l) && (l <? toplev vn t)); auto.
        unfold Bdd.upd. destruct (Z.eqb_spec (level2var k l) (level2var k l0)) as [E|E], (Z.eqb_spec l l0) as [E2|E2]; subst; auto; try congruence. apply l2v_inj in E; try lia.
      * apply IHF. intros ph' Hi. apply Hph. right; auto.
Qed.
Lemma allPathsRec_ok v : forall t d r p acc, Rep k r t -> vn - toplev vn t < Z.of_nat d -> kwp (allPathsRec d (tgtOf v) r p acc) (pathPost v t p acc) k.
Proof.
  induction t as [w|l0 a IHa b IHb]; intros d r p acc R Hd.
  - destruct d as [|d]; [cbn in Hd; lia|]. cbn [allPathsRec]. assert (Er : r = if w then 1 else 0) by (inversion R; subst; auto). subst r.
    unfold pathPost. cbn [toplev tpaths]. destruct w, v; cbn; (split; [auto|]; split; [auto|]).
    + exists [p]. split; auto. constructor; [|constructor]. split; auto. intros l Hl. lia.
    + exists []. rewrite app_nil_r. auto.
    + exists []. rewrite app_nil_r. auto.
    + exists [p]. split; auto. constructor; [|constructor]. split; auto. intros l Hl. lia.
  - pose proof R as R0. inversion R0 as [| |n' a' b' L Ra Rb E1 E2]. subst n' a' b'. clear R0. destruct (c_node _ _ C r L) as (N1 & N2 & N3 & N4 & N5 & N6). cbn [toplev] in Hd.
    destruct d as [|d]; [lia|]. cbn [allPathsRec].
    assert (Hr : 0 <= r < nodesize k) by (eapply valid_range; eauto; right; right; auto).
    rewrite (Rep_toplev vn _ _ _ Ra) in N5. rewrite (Rep_toplev vn _ _ _ Rb) in N6.
    assert (T : (r =? tgtOf v) = false /\ (r =? 1 - tgtOf v) = false) by (destruct L as [L _]; destruct v; cbn; split; apply Z.eqb_neq; lia). destruct T as [-> ->].
    apply kwp_bind, kwp_rd; [exact Hr|]. apply kwp_bind, kwp_rd; [exact Hr|]. rewrite E2 in *.
    eapply kwp_bind'; [apply (branch_ok v d (lows k r) a l0 false); [exact Ra|lia|]; intros p2 acc2; apply IHa; [exact Ra|lia]|].
    intros x k1 (-> & Hx & ps & Es & HF). apply kwp_bind, kwp_rd; [exact Hr|].
    assert (G : kwp (if negb (highs k r =? 1 - tgtOf v) then
         i <~ gets (fun k => level2var k l0); p <~ profSet i 1 (fst x); lh <~ level (highs k r); p <~ profBetween lh l0 p; allPathsRec d (tgtOf v) (highs k r) p (snd x)
       else kret x) (branchPost v b l0 true (fst x) (snd x)) k).
    { destruct x as [x1 x2]. apply (branch_ok v d (highs k r) b l0 true); [exact Rb|lia|]. intros p2 acc2. apply IHb; [exact Rb|lia]. }
    eapply kwp_conseq; [exact G|]. intros y k2 (-> & Hy & ps2 & Es2 & HF2). split; auto. cbn [toplev]. split; [intros l Hl; rewrite Hy, Hx by lia; auto|].
    exists (ps ++ ps2). rewrite Es2, Es, app_assoc. split; auto. cbn [tpaths]. apply Forall2_app; auto. eapply Forall2_impl; [|exact HF2]. intros ph q [Q1 Q2]. split; auto. intros l Hl. rewrite Q2, Hx by lia. auto.
Qed.
End Profiles.

Lemma Forall2_impl_in {A B} (P Q : A -> B -> Prop) l l' : (forall x y, In x l -> P x y -> Q x y) -> Forall2 P l l' -> Forall2 Q l l'.
Proof. intros H F. induction F; constructor; [apply H; auto; left; auto|]. apply IHF. intros a b Ha. apply H. right; auto. Qed.
Lemma allPaths_ok v k r t : kinv k -> Rep k r t ->
  kwp (allPaths (tgtOf v) r) (fun ps k' => k' = with_refstack [] k /\ Forall2 (fun ph q => forall i, 0 <= i < varnum k -> q i = code ph (var2level k i)) (tpaths v t) ps) k.
Proof.
  intros K R. pose proof (o_core _ _ (ki_op _ K)) as C. pose proof (Rep_valid _ _ _ R) as V. pose proof (lv_range _ _ _ C V) as Lr. rewrite (Rep_toplev _ _ _ _ R) in Lr.
  unfold allPaths. apply kwp_bind, kwp_rd; [exact (valid_range _ _ _ C V)|]. rewrite (level_eq k K r V), (Rep_toplev _ _ _ _ R).
  eapply kwp_bind'; [apply (profBetween_ok k K); lia|]. intros p k1 (-> & Hp). apply kwp_bind, kwp_modify. apply kwp_bind, kwp_get.
  set (k1 := with_refstack [] k). assert (K1 : kinv k1) by (apply kinv_stack; auto). assert (R1 : Rep k1 r t) by (revert R; apply Rep_ext; reflexivity).
  eapply kwp_bind'; [apply (allPathsRec_ok k1 K1 v t); [exact R1|]|].
  { unfold maxdepth, k1. cbn. rewrite (c_cap _ _ C). rewrite Z2Nat.id; pose proof (c_vn _ _ C); lia. }
  intros x k2 (-> & _ & ps & Es & HF). apply kwp_ret. split; auto. cbn in Es. rewrite Es. clear Es. eapply Forall2_impl_in; [|exact HF]. intros ph q Iph [Q1 Q2] i Hi.
  destruct (ki_perm _ K i Hi) as [P1 P2]. rewrite <- P2 at 1. destruct (Z.lt_ge_cases (var2level k i) (toplev (varnum k) t)) as [Hl|Hl].
  - change (level2var k) with (level2var k1). rewrite Q2 by (change (varnum k1) with (varnum k); lia). change (level2var k1) with (level2var k). change (varnum k1) with (varnum k) in *.
    rewrite Hp by lia. replace ((-1 <? var2level k i) && (var2level k i <? toplev (varnum k) t)) with true by (symmetry; apply andb_true_iff; split; apply Z.ltb_lt; lia).
    unfold code. rewrite assoc_none; auto. intros c Hc. pose proof (Rep_robt _ _ C _ _ R) as B. rewrite (Rep_toplev _ _ _ _ R) in B. pose proof (tpaths_range _ _ _ _ _ _ B Iph Hc). lia.
  - apply Q1. cbn. lia.
Qed.

(** ** Terms *)
Section Terms.
Variable k : kernel.
Variable nm : formula -> string.
Definition named (s : state) : Prop := forall v, In v (vlist k) -> litDen s v (nm v, true).
Lemma named_ext s V s' V' : wext s V s' V' -> named s -> named s'.
Proof. intros X H v Hv. eapply litDen1_ext; [apply X|auto]. Qed.
Fixpoint pathNames (cnf : bool) (q : Z -> Z) (cnt : nat) (i : Z) : list lit :=
  match cnt with
  | O => []
  | S c =>
    if q i =? 2 then pathNames cnf q c (i + 1)
    else match getVariableForIndex k i with
      | None => []
      | Some v => (nm v, Bool.eqb (q i =? 0) cnf) :: pathNames cnf q c (i + 1)
      end
  end.
Lemma getVar_in i v : getVariableForIndex k i = Some v -> In v (vlist k).
Proof. unfold getVariableForIndex. destruct (i <? 0); [discriminate|]. apply nth_error_In. Qed.
Lemma wp_negateVar {B} (v : formula) x (cont : nat -> formula -> M B) s V R : winv s V -> litDen s v (x, true) ->
  (forall l s', winv s' V -> wext s V s' V -> litDen s' l (x, false) -> wp (fun n => cont n l) s' V R) -> wp (fun n => bind (up (negateVar v)) (cont n)) s V R.
Proof.
  intros I D H. destruct (negateVar v s) as [l s'] eqn:E. unfold negateVar in E. pose proof (v_wf _ _ I) as W. pose proof W as [Wn Wt].
  assert (Ev : VarName v s = Some x) by (unfold VarName; apply node_lit in D; auto; rewrite D; auto). rewrite Ev in E.
  destruct (winv_lit s V x false l s' I) as (I' & X' & D'); auto; [apply (v_fresh s V I); apply (lit_name s v (x, true) W D)|].
  eapply wp_up; [unfold negateVar; rewrite Ev; exact E|exact X'|]. apply H; auto.
Qed.
Lemma pathLiterals_ok cnf q : forall cnt i s V, winv s V -> named s -> (forall j, i <= j < i + Z.of_nat cnt -> q j <> 2 -> exists v, getVariableForIndex k j = Some v) ->
  wp (fun _ => pathLiterals k cnf q cnt i) s V (fun ls s' V' => V' = V /\ Forall2 (litDen s') ls (pathNames cnf q cnt i)).
Proof.
  induction cnt as [|c IH]; intros i s V I N Hq; cbn [pathLiterals pathNames]; [apply wp_ret; auto|]. destruct (Z.eqb_spec (q i) 2) as [E|E]; [apply IH; auto; intros j Hj; apply Hq; lia|].
  destruct (Hq i) as [v Ev]; [lia|auto|]. rewrite Ev. pose proof (N v (getVar_in _ _ Ev)) as D.
  assert (Rest : forall l s', winv s' V -> wext s V s' V -> litDen s' l (nm v, Bool.eqb (q i =? 0) cnf) ->
    wp (fun _ => bind (pathLiterals k cnf q c (i + 1)) (fun r => ret (l :: r))) s' V (fun ls s2 V2 => V2 = V /\ Forall2 (litDen s2) ls ((nm v, Bool.eqb (q i =? 0) cnf) :: pathNames cnf q c (i + 1)))).
  { intros l s' I' X' D'. eapply wp_bind; [apply IH; [exact I'|eapply named_ext; eauto|intros j Hj; apply Hq; lia]|]. intros ls s2 V2 I2 X2 (-> & HF). apply wp_ret; auto. split; auto. constructor; auto. eapply litDen1_ext; [apply X2|auto]. }
  destruct (Bool.eqb (q i =? 0) cnf) eqn:Eb.
  - apply (wp_bret v (fun _ l => bind (pathLiterals k cnf q c (i + 1)) (fun r => ret (l :: r)))). apply Rest; auto using wext_refl.
  - apply (wp_negateVar v (nm v) (fun _ l => bind (pathLiterals k cnf q c (i + 1)) (fun r => ret (l :: r)))); auto.
Qed.
Lemma winv_minterm s V ops ns r s' : winv s V -> Forall2 (litDen s) ops ns -> Minterm ops s = (r, s') ->
  winv s' V /\ wext s V s' V /\ exists u, Den s' r u /\ equiv u (TAnd (map TLit ns)) /\
    u = match ns with [] => TTrue | [l] => TLit l | _ => TAnd (map TLit ns) end.
Proof.
  intros I Hl H.
  assert (Hd : Forall2 (Den s) ops (map TLit ns)). { clear -Hl. induction Hl; simpl; constructor; auto. apply litDen_Den; auto. }
  assert (Hs : Forall (fun g => srt g = SLit) ops). { clear -Hl. induction Hl; constructor; auto. apply (node_sort _ _ _ H). }
  destruct (Minterm_spec s ops _ r s' (v_wf _ _ I) Hd Hs H) as (G & N & u & D & Eq & Hu).
  destruct (winv_good s V s' I G) as [I' X']; auto.
  - eapply Minterm_cnfk; [eauto|apply I].
  - split; auto. split; auto. exists u. split; auto. split; auto. rewrite Hu. destruct ns as [|? [|? ?]]; reflexivity.
Qed.
Definition dualOf (cnf : bool) : fsort := if cnf then SAnd else SOr.
Lemma dualOf_dual cnf : dual (dualOf cnf). Proof. destruct cnf; [left|right]; auto. Qed.
Definition termTree (cnf : bool) (q : Z -> Z) : tree := mk (dualOf (negb cnf)) (map TLit (pathNames cnf q (Z.to_nat (varnum k)) 0)).
Lemma forallb_lits ns : forallb is_lit (map TLit ns) = true.
Proof. induction ns; auto. Qed.
Lemma pathTerm_ok cnf q s V : winv s V -> named s -> (forall j, 0 <= j < varnum k -> q j <> 2 -> exists v, getVariableForIndex k j = Some v) ->
  wp (fun _ => pathTerm k cnf q) s V (fun f s' V' => exists u, Den s' f u /\ equiv u (termTree cnf q) /\ flatK (dualOf cnf) u = true).
Proof.
  intros I N Hq. unfold pathTerm. eapply wp_bind; [apply (pathLiterals_ok cnf q (Z.to_nat (varnum k)) 0); auto|].
  { intros j Hj. apply Hq. destruct (Z.le_gt_cases 0 (varnum k)); [rewrite Z2Nat.id in Hj; lia|]. assert (Z.to_nat (varnum k) = 0%nat) by lia; lia. }
  intros ls s1 V1 I1 X1 (-> & HF). unfold termTree. set (ns := pathNames cnf q (Z.to_nat (varnum k)) 0) in *. clearbody ns. apply wp_up_last. destruct cnf; cbn [dualOf negb mk flatK].
  - destruct (Clause ls s1) as [r s2] eqn:E. destruct (winv_clause _ _ _ _ _ _ I1 HF E) as (I2 & X2 & u & D & Eq & Hu). eapply wp_up; [exact E|exact X2|]. apply wp_ret; auto. exists u. split; auto. split; auto.
    rewrite Hu. destruct ns as [|l1 [|l2 ns]]; auto. cbn. apply forallb_lits.
  - destruct (Minterm ls s1) as [r s2] eqn:E. destruct (winv_minterm _ _ _ _ _ _ I1 HF E) as (I2 & X2 & u & D & Eq & Hu). eapply wp_up; [exact E|exact X2|]. apply wp_ret; auto. exists u. split; auto. split; auto.
    rewrite Hu. destruct ns as [|l1 [|l2 ns]]; auto. cbn. apply forallb_lits.
Qed.
End Terms.
