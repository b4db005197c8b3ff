(** * makeNode and the frame of an operation on the BDD kernel *)
From Coq Require Import List Bool ZArith Lia.
From Verif Require Import Spec Factory Bdd BddTable.
Import ListNotations.
Local Open Scope Z_scope.

(** ** makeNode *)
Definition same_node (k k' : kernel) (n : Z) : Prop := levels k' n = levels k n /\ lows k' n = lows k n /\ highs k' n = highs k n.
(** what an operation keeps: protected nodes, reference counts, and everything in [static] *)
Record frame (k k' : kernel) : Prop := {
  f_static : static k' = static k; f_ref : forall n, refcou k' n = refcou k n;
  f_const : forall n, n < 2 -> same_node k k' n;
  f_prot : forall n, prot k n -> live k' n /\ same_node k k' n }.
(** without a garbage collection nodes and caches stay, otherwise the caches are cleared *)
Definition kept (k k' : kernel) : Prop :=
  ((forall n, live k n -> live k' n /\ same_node k k' n) /\ applycache k' = applycache k /\ quantcache k' = quantcache k /\ misccache k' = misccache k)
  \/ cleared k'.
Definition node_is (k : kernel) (n lvl l h : Z) : Prop :=
  (l = h /\ n = l) \/ (l <> h /\ live k n /\ levels k n = lvl /\ lows k n = l /\ highs k n = h).

Lemma frame_refl vn k : core vn k -> frame k k.
Proof. intros C. constructor; auto; unfold same_node; auto. intros n Hn. split; auto. eapply prot_live; eauto. Qed.
Lemma frame_stack k k' : frame k k' -> refstack k' = refstack k.
Proof. intros [E _ _ _]. unfold static in E. congruence. Qed.
Lemma frame_prot k k' : frame k k' -> forall n, prot k n -> prot k' n.
Proof.
  intros F n H. induction H as [n H1 H2|n Hp IH H2|n Hp IH H2].
  - apply p_root; [apply F; apply p_root; auto|]. destruct H2 as [H2|H2]; [left; rewrite (frame_stack _ _ F); auto|right; rewrite (f_ref _ _ F); auto].
  - destruct (f_prot _ _ F _ Hp) as (_ & _ & E & _). rewrite <- E. apply p_low; auto. rewrite E; auto.
  - destruct (f_prot _ _ F _ Hp) as (_ & _ & _ & E). rewrite <- E. apply p_high; auto. rewrite E; auto.
Qed.
Lemma frame_pv k k' : frame k k' -> forall n, pv k n -> pv k' n.
Proof. intros F n [?|[?|?]]; unfold pv; auto. right; right. eapply frame_prot; eauto. Qed.
Lemma frame_trans k1 k2 k3 : frame k1 k2 -> frame k2 k3 -> frame k1 k3.
Proof.
  intros F G. constructor.
  - rewrite (f_static _ _ G). apply F.
  - intros n. rewrite (f_ref _ _ G). apply F.
  - intros n Hn. destruct (f_const _ _ F n Hn) as (A & B & D), (f_const _ _ G n Hn) as (A' & B' & D'). unfold same_node. split; [|split]; congruence.
  - intros n Hn. destruct (f_prot _ _ F n Hn) as (_ & A & B & D), (f_prot _ _ G n (frame_prot _ _ F n Hn)) as (L & A' & B' & D'). split; auto. unfold same_node. split; [|split]; congruence.
Qed.
Lemma kept_refl k : kept k k.
Proof. left. split; auto. unfold same_node; auto. Qed.

Lemma in_range_length lo hi l : NoDup l -> (forall n, In n l -> lo <= n < hi) -> Z.of_nat (List.length l) <= Z.max 0 (hi - lo).
Proof.
  intros ND H. assert (HL : (List.length l <= List.length (map (fun i => (lo + Z.of_nat i)%Z) (seq 0 (Z.to_nat (hi - lo)))))%nat).
  { apply NoDup_incl_length; auto. intros n Hn. apply H in Hn. apply in_map_iff. exists (Z.to_nat (n - lo)). split; [lia|]. apply in_seq. lia. }
  rewrite map_length, seq_length in HL. lia.
Qed.

Lemma findNode_ok lvl l h k : forall ch d start, chain (nexts k) start ch -> (forall n, In n ch -> 0 <= n < nodesize k) -> (List.length ch < d)%nat ->
  kwp (findNode d start lvl l h) (fun r k' => k' = k /\ match r with
    | Some x => In x ch /\ levels k x = lvl /\ lows k x = l /\ highs k x = h
    | None => forall x, In x ch -> ~ (levels k x = lvl /\ lows k x = l /\ highs k x = h) end) k.
Proof.
  induction ch as [|x ch IH]; intros d start Ch Hr Hd; inversion Ch as [E0|n0 l0 H1 H3 E1 E2]; subst; (destruct d as [|d]; [simpl in Hd; lia|]); cbn [findNode].
  - cbn. split; auto.
  - rewrite (proj2 (Z.eqb_neq _ _) H1). assert (Hx : 0 <= x < nodesize k) by (apply Hr; left; auto).
    apply kwp_bind, kwp_rd; auto. apply kwp_bind, kwp_rd; auto. apply kwp_bind, kwp_rd; auto.
    destruct (levels k x =? lvl) eqn:E1; [destruct (lows k x =? l) eqn:E2; [destruct (highs k x =? h) eqn:E3|]|]; cbn [andb].
    + apply kwp_ret. apply Z.eqb_eq in E1, E2, E3. split; auto. split; auto. left; auto.
    + apply kwp_bind, kwp_rd; auto. apply Z.eqb_neq in E3.
      eapply kwp_conseq; [apply IH; [exact H3|intros; apply Hr; right; auto|simpl in Hd; lia]|].
      intros [y|] k' (-> & Hy); split; auto; [destruct Hy; split; auto; right; auto|]. intros z [<-|Hz]; auto. intros (_ & _ & ?). auto.
    + apply kwp_bind, kwp_rd; auto. apply Z.eqb_neq in E2.
      eapply kwp_conseq; [apply IH; [exact H3|intros; apply Hr; right; auto|simpl in Hd; lia]|].
      intros [y|] k' (-> & Hy); split; auto; [destruct Hy; split; auto; right; auto|]. intros z [<-|Hz]; auto. intros (_ & ? & _). auto.
    + apply kwp_bind, kwp_rd; auto. apply Z.eqb_neq in E1.
      eapply kwp_conseq; [apply IH; [exact H3|intros; apply Hr; right; auto|simpl in Hd; lia]|].
      intros [y|] k' (-> & Hy); split; auto; [destruct Hy; split; auto; right; auto|]. intros z [<-|Hz]; auto. intros (? & _). auto.
Qed.

(** taking a node from the free list *)
Lemma alloc_ok vn k lvl l h : core vn k -> tab 2 k -> freepos k <> 0 -> 0 <= lvl < vn -> valid k l -> valid k h -> l <> h ->
  lvl < lv vn k l -> lvl < lv vn k h -> (forall n, live k n -> ~ (levels k n = lvl /\ lows k n = l /\ highs k n = h)) ->
  kwp (res <~ gets freepos; nx <~ next res;
      modify (with_freepos nx) ~; modify (fun k => with_freenum (freenum k - 1) k) ~;
      setLevel res lvl ~; setLow res l ~; setHigh res h ~;
      x <~ hash (nodehash lvl l h (nodesize k)); setNext res x ~; setHash (nodehash lvl l h (nodesize k)) res ~; kret res)
    (fun res k' => core vn k' /\ tab 2 k' /\ frame k k' /\ kept k k' /\ node_is k' res lvl l h) k.
Proof.
  intros C T Hf Rl Vl Vh Ne Ol Oh Nw. pose proof (c_size _ _ C) as Sz. set (hs := nodehash lvl l h (nodesize k)).
  pose proof (nodehash_range lvl l h (nodesize k) ltac:(lia)) as Rh. fold hs in Rh.
  destruct (t_free _ _ T) as (fl & Cf & NDf & In_f & Hfn).
  remember (freepos k) as res eqn:Eres. destruct Cf as [|res fl' _ Cf']; [congruence|]. clear Hf.
  inversion NDf as [|? ? Nin NDf']; subst x l0. clear NDf.
  assert (Rr : 2 <= res < nodesize k /\ lows k res = -1) by (apply In_f; left; auto). destruct Rr as (Rr & Dr).
  assert (Nl : ~ live k res) by (intros [_ X]; contradiction).
  assert (Nlo : l <> res) by (intros ->; destruct Vl as [?|[?|?]]; try lia; contradiction).
  assert (Nhi : h <> res) by (intros ->; destruct Vh as [?|[?|?]]; try lia; contradiction).
  apply kwp_bind, kwp_gets. rewrite <- Eres.
  apply kwp_bind, kwp_rd; [lia|]. apply kwp_bind, kwp_modify. apply kwp_bind, kwp_modify. cbn beta.
  apply kwp_bind, kwp_wr; [cbn; lia|]. apply kwp_bind, kwp_wr; [cbn; lia|]. apply kwp_bind, kwp_wr; [cbn; lia|].
  apply kwp_bind, kwp_rd; [cbn; lia|]. apply kwp_bind, kwp_wr; [cbn; lia|]. apply kwp_bind, kwp_wr; [cbn; lia|]. apply kwp_ret.
  match goal with |- core vn ?x /\ _ => set (kf := x) end.
  assert (EQ : lows kf = upd (lows k) res l /\ marks kf = marks k /\ levels kf = upd (levels k) res lvl /\ highs kf = upd (highs k) res h /\
    nodesize kf = nodesize k /\ refcou kf = refcou k /\ nexts kf = upd (nexts k) res (hashes k hs) /\ hashes kf = upd (hashes k) hs res /\
    freepos kf = nexts k res /\ freenum kf = freenum k - 1 /\ (applycache kf = applycache k /\ quantcache kf = quantcache k /\ misccache kf = misccache k)).
  { subst kf. cbn. auto 15. }
  assert (ES : static kf = static k) by (subst kf; reflexivity).
  clearbody kf. destruct EQ as (El & Em & Elv & Eh & En & Er & Ex & Ehs & Efp & Efn & Ec).
  assert (Ll : l <> -1) by (destruct Vl as [?|[?|[? _]]]; lia).
  assert (Lv : forall n, live kf n <-> live k n \/ n = res).
  { intros n. unfold live. rewrite El, En. unfold upd. destruct (Z.eqb_spec n res) as [->|Hn]; [|tauto]. split; auto. }
  assert (Sm : forall n, n <> res -> same_node k kf n). { intros n Hn. unfold same_node. rewrite El, Elv, Eh, !upd_other by auto. auto. }
  assert (Lr : forall n, live k n -> n <> res) by (intros n Hn ->; contradiction).
  assert (Vr : forall n, valid k n -> n <> res) by (intros n [?|[?|?]]; auto; lia).
  assert (Va : forall n, valid k n -> valid kf n). { intros n [?|[?|?]]; [left|right; left|right; right; apply Lv]; auto. }
  assert (EV : forall n, n <> res -> lv vn kf n = lv vn k n).
  { intros n V. unfold lv. destruct (Z.ltb_spec n 2); auto. apply Sm; auto. }
  assert (ES' := ES). injection ES' as S1 S2 S3 S4 S5 S6 S7 S8 S9 S10 S11 S12 S13.
  split; [|split; [|split; [|split]]].
  - destruct C as [A1 A2 A3 A4 A5 A6 A7 A8 A9 A10 A11 A12]. constructor; rewrite ?S4, ?S12, ?S11, ?Em, ?Er; auto.
    + lia.
    + destruct (Sm 0 ltac:(lia)) as (_ & -> & ->), (Sm 1 ltac:(lia)) as (_ & -> & ->). auto.
    + intros n Hn. apply Lv in Hn. destruct Hn as [Hn| ->].
      * destruct (Sm n (Lr n Hn)) as (-> & -> & ->). destruct (A5 n Hn) as (B1 & B2 & B3 & B4 & B5 & B6). rewrite !EV by auto. auto 10.
      * rewrite El, Elv, Eh, !upd_same, !EV by auto. auto 10.
    + intros n Hn Hl. apply A7; auto. intros Hx. apply Hl, Lv. auto.
    + intros a b Ha Hb. apply Lv in Ha, Hb. destruct Ha as [Ha| ->], Hb as [Hb| ->].
      * destruct (Sm a (Lr a Ha)) as (-> & -> & ->), (Sm b (Lr b Hb)) as (-> & -> & ->). auto.
      * destruct (Sm a (Lr a Ha)) as (-> & -> & ->). rewrite El, Elv, Eh, !upd_same. intros. elim (Nw a Ha). auto.
      * destruct (Sm b (Lr b Hb)) as (-> & -> & ->). rewrite El, Elv, Eh, !upd_same. intros. elim (Nw b Hb). auto.
      * auto.
    + rewrite S5. eapply Forall_impl; [|exact A12]. auto.
  - assert (HK : forall n, n <> res -> hk kf n = hk k n). { intros n Hn. unfold hk. destruct (Sm n Hn) as (-> & -> & ->). rewrite En. auto. }
    assert (HR : hk kf res = hs). { unfold hk. rewrite El, Elv, Eh, En, !upd_same. reflexivity. }
    constructor.
    + rewrite En, Ex, Ehs. intros h0 R0. destruct (t_chain _ _ T h0 R0) as (ch & Ch & ND & In_c).
      assert (Nc : ~ In res ch). { intros Hx. apply In_c in Hx. tauto. }
      destruct (Z.eq_dec h0 hs) as [->|Hne].
      * exists (res :: ch). rewrite upd_same. split; [constructor; [lia|]; rewrite upd_same; apply chain_upd; auto|]. split; [constructor; auto|].
        intros n. split.
        -- intros [<-|Hn]; [rewrite El, upd_same, HR; auto|]. apply In_c in Hn. destruct Hn as (B1 & B2 & B3).
           assert (n <> res) by (intros ->; contradiction). rewrite El, upd_other, HK; auto.
        -- intros (B1 & B2 & B3). destruct (Z.eq_dec res n) as [|Hn]; [left; auto|right]. apply In_c. rewrite El, upd_other in B2 by auto. rewrite HK in B3 by auto. auto.
      * exists ch. rewrite upd_other by auto. split; [apply chain_upd; auto|]. split; auto. intros n. rewrite In_c. destruct (Z.eq_dec n res) as [->|Hn].
        -- split; [intros (_ & ? & _); contradiction|]. intros (_ & _ & X). rewrite HR in X. congruence.
        -- rewrite El, upd_other, HK by auto. tauto.
    + exists fl'. rewrite Efp, Ex, En. split; [apply chain_upd; auto|]. split; auto. split.
      * intros n. split.
        -- intros Hn. assert (n <> res) by (intros ->; contradiction). rewrite El, upd_other by auto. apply In_f. right; auto.
        -- intros (B1 & B2). assert (n <> res). { intros ->. rewrite El, upd_same in B2. auto. }
           rewrite El, upd_other in B2 by auto. destruct (proj2 (In_f n) (conj B1 B2)); auto. congruence.
      * rewrite Efn, Hfn. cbn [List.length]. lia.
  - constructor; auto.
    + intros n. rewrite Er. auto.
    + intros n Hn. apply Sm. lia.
    + intros n Hn. pose proof (prot_live _ _ _ C Hn) as Hl. split; [apply Lv; auto|apply Sm; auto].
  - left. split; [|auto]. intros n Hn. split; [apply Lv; auto|apply Sm; auto].
  - right. split; auto. split; [apply Lv; auto|]. rewrite El, Elv, Eh, !upd_same. auto.
Qed.

Lemma collected_frame vn k k' : core vn k -> collected k k' -> frame k k'.
Proof.
  intros C [A1 A2 A3 A4 A5 A6 A7 A8 A9]. constructor; auto.
  - intros n. rewrite A2. auto.
  - intros n Hn. unfold same_node. rewrite A4, A5. auto.
  - intros n Hn. pose proof (A8 n Hn) as Hl. split; auto. destruct (A7 n Hl) as (_ & E). unfold same_node. rewrite A4, A5. auto.
Qed.
Lemma grown_frame vn k k' : core vn k -> grown k k' -> frame k k'.
Proof.
  intros C [A1 A2 A3 A4 A5 A6 A7]. constructor; auto. intros n Hn. pose proof (prot_live _ _ _ C Hn). split; [apply A5; auto|apply A6; auto].
Qed.
Lemma frame_lv vn k k' n : frame k k' -> pv k n -> lv vn k' n = lv vn k n.
Proof.
  intros F H. unfold lv. destruct (Z.ltb_spec n 2); auto. destruct H as [?|[?|H]]; try lia. apply (f_prot _ _ F n H).
Qed.
Lemma kept_cleared k k' : cleared k -> kept k k' -> cleared k'.
Proof. intros H [(_ & A & B & D)|?]; auto. unfold cleared in *. rewrite A, B, D. auto. Qed.

Lemma makeNode_ok vn k lvl l h : core vn k -> tab 2 k -> 0 <= lvl < vn -> pv k l -> pv k h -> lvl < lv vn k l -> lvl < lv vn k h ->
  kwp (makeNode lvl l h) (fun res k' => core vn k' /\ tab 2 k' /\ frame k k' /\ kept k k' /\ node_is k' res lvl l h) k.
Proof.
  intros C T Rl Pl Ph Ol Oh. unfold makeNode. destruct (Z.eqb_spec l h) as [->|Ne].
  { apply kwp_ret. split; auto. split; auto. split; [eapply frame_refl; eauto|]. split; [apply kept_refl|]. left; auto. }
  pose proof (c_size _ _ C) as Sz. apply kwp_bind, kwp_gets. cbv zeta.
  pose proof (nodehash_range lvl l h (nodesize k) ltac:(lia)) as Rh. apply kwp_bind, kwp_rd; auto.
  destruct (t_chain _ _ T _ Rh) as (ch & Ch & ND & In_c).
  assert (Hlen : Z.of_nat (List.length ch) <= Z.max 0 (nodesize k - 2)) by (apply in_range_length; auto; intros n Hn; apply In_c in Hn; lia).
  eapply kwp_bind'; [apply findNode_ok; [exact Ch|intros n Hn; apply In_c in Hn; lia|lia]|].
  intros [res|] k' (-> & Hr).
  { apply kwp_ret. split; auto. split; auto. split; [eapply frame_refl; eauto|]. split; [apply kept_refl|]. right. split; auto.
    destruct Hr as (Hin & E). apply In_c in Hin. split; [|exact E]. destruct Hin as (A & B & _). split; auto. }
  assert (Nw : forall n, live k n -> ~ (levels k n = lvl /\ lows k n = l /\ highs k n = h)).
  { intros n (A & B) (E1 & E2 & E3). apply (Hr n); auto. apply In_c. split; auto. split; auto. unfold hk. rewrite E1, E2, E3. auto. }
  clear Hr. apply kwp_bind, kwp_gets.
  apply kwp_bind' with (P := fun hs k' => hs = nodehash lvl l h (nodesize k') /\ freepos k' <> 0 /\ core vn k' /\ tab 2 k' /\ frame k k' /\
     (forall n, live k' n -> live k n /\ same_node k k' n) /\ (k' = k \/ cleared k')).
  - destruct (Z.eqb_spec (freepos k) 0) as [Hf|Hf].
    2: { apply kwp_ret. split; auto. split; auto. split; auto. split; auto. split; [eapply frame_refl; eauto|]. split; auto. intros n Hn. split; auto. unfold same_node; auto. }
    eapply kwp_bind'; [apply gbc_ok; eauto|]. intros _ k1 (C1 & T1 & G).
    pose proof (collected_frame _ _ _ C G) as F1.
    assert (L1 : forall n, live k1 n -> live k n /\ same_node k k1 n).
    { intros n Hn. destruct (g_live _ _ G n Hn) as (A & B). split; auto. unfold same_node. rewrite (g_level _ _ G), (g_high _ _ G). auto. }
    apply kwp_bind, kwp_gets. apply kwp_bind, kwp_gets.
    apply kwp_bind' with (P := fun hs k' => hs = nodehash lvl l h (nodesize k') /\ core vn k' /\ tab 2 k' /\ frame k k' /\
     (forall n, live k' n -> live k n /\ same_node k k' n) /\ cleared k').
    + destruct (Z.quot (freenum k1 * 100) (nodesize k1) <=? 20).
      * eapply kwp_bind'; [apply nodeResize_ok; eauto|]. intros _ k2 (C2 & T2 & G2). apply kwp_bind, kwp_gets. apply kwp_ret.
        split; auto. split; auto. split; auto. split; [eapply frame_trans; [exact F1|eapply grown_frame; eauto]|]. split.
        -- intros n Hn. apply (w_live _ _ G2) in Hn. destruct (L1 n Hn) as (A & B1 & B2 & B3). split; auto.
           destruct (w_same _ _ G2 n Hn) as (D1 & D2 & D3). unfold same_node. split; [|split]; congruence.
        -- pose proof (g_clear _ _ G) as Cl. destruct (w_cache _ _ G2) as (D1 & D2 & D3). unfold cleared in *. rewrite D1, D2, D3. auto.
      * apply kwp_ret. split; [rewrite (g_size _ _ G); auto|]. split; auto. split; auto. split; auto. split; auto. apply (g_clear _ _ G).
    + intros hs k2 (-> & C2 & T2 & F2 & L2 & Cl). apply kwp_bind, kwp_gets. destruct (Z.eqb_spec (freepos k2) 0); [exact I|]. apply kwp_ret. auto 10.
  - intros hs k1 (-> & Hf & C1 & T1 & F1 & L1 & Cl).
    eapply kwp_conseq; [apply alloc_ok with (vn := vn); auto|].
    + eapply pv_valid; eauto. eapply frame_pv; eauto.
    + eapply pv_valid; eauto. eapply frame_pv; eauto.
    + rewrite (frame_lv _ _ _ _ F1 Pl). auto.
    + rewrite (frame_lv _ _ _ _ F1 Ph). auto.
    + intros n Hn (E1 & E2 & E3). destruct (L1 n Hn) as (A & B1 & B2 & B3). apply (Nw n A). split; [|split]; congruence.
    + intros res k2 (C2 & T2 & F2 & K2 & Nd). split; auto. split; auto. split; [eapply frame_trans; eauto|]. split; auto.
      destruct Cl as [->|Cl]; auto. right. eapply kept_cleared; eauto.
Qed.
