(** * Correctness of the encoders for normalized pseudo-Boolean constraints *)

From Coq Require Import String List Bool Arith ZArith Lia Permutation.
From Verif Require Import Spec EncSpec EncAmo EncLemmas EncAmoProofs EncCc EncTotProofs EncModProofs
  EncCn EncCnProofs EncApi EncApiProofs EncPbc.
Import ListNotations.

(** ** Sequential composition *)

Lemma agreeZ_sat : forall z n a b cs, agree n a b -> envZ z a -> envZ z b -> cscopedZ z n cs -> sat a cs -> sat b cs.
Proof.
  intros z n a b cs Hab Za Zb Hs Ha c Hc; destruct (Ha c Hc) as [l [Hl Hv]]; exists l; split; [exact Hl|].
  destruct (Hs c Hc l Hl) as [L|[L1 L2]].
  - now rewrite (agree_lval n a b l Hab L).
  - subst l; unfold lval in *; cbn in *; rewrite (Za L1) in Hv; discriminate.
Qed.

Lemma cscopedZ_le : forall z n m cs, cle n m -> cscopedZ z n cs -> cscopedZ z m cs.
Proof.
  intros z n m cs H Hs c Hc l Hl; destruct (Hs c Hc l Hl) as [L|L]; [left; now apply lscope_le with n | now right].
Qed.

Lemma encodesZ_and : forall z (P Q : env -> Prop) n cs1 n1 cs2 n2,
  encodesZ z P n (cs1, n1) -> encodesZ z Q n1 (cs2, n2) ->
  (forall a b, agree n a b -> Q a -> Q b) ->
  encodesZ z (fun a => P a /\ Q a) n (cs1 ++ cs2, n2).
Proof.
  intros z P Q n cs1 n1 cs2 n2 [A1 [A2 [A3 A4]]] [B1 [B2 [B3 B4]]] I; cbn [fst snd] in *.
  split; [exact (cle_trans _ _ _ A1 B1)|]; cbn [fst snd]; split; [|split].
  - apply cscopedZ_app; split; [exact (cscopedZ_le z n1 n2 cs1 B1 A2) | exact B2].
  - intros a Za Ha; apply sat_app in Ha as [Ha Hb]; split; [now apply A3 | now apply B3].
  - intros a Za [Pa Qa]; destruct (A4 a Za Pa) as [b [b1 [b2 b3]]].
    destruct (B4 b b2 (I a b b1 Qa)) as [c [c1 [c2 c3]]].
    exists c; split; [exact (agree_trans n n1 a b c A1 b1 c1)|]; split; [exact c2|].
    apply sat_app; split; [|exact c3].
    exact (agreeZ_sat z n1 b c cs1 c1 b2 c2 A2 b3).
Qed.

Lemma agree_weight : forall n a b ls cs, agree n a b -> scoped n ls -> weight b ls cs = weight a ls cs.
Proof.
  intros n a b ls; induction ls as [|l ls IH]; intros [|c cs] H Hs; simpl; try reflexivity.
  apply scoped_cons in Hs as [Hl Hs]; now rewrite (agree_lval n a b l H Hl), IH.
Qed.

(** ** Weights *)

Lemma weight_nonneg : forall a ls cs, (forall c, In c cs -> 0 <= c)%Z -> (0 <= weight a ls cs)%Z.
Proof.
  intros a ls; induction ls as [|l ls IH]; intros [|c cs] H; simpl; try lia.
  pose proof (H c (or_introl eq_refl)); pose proof (IH cs (fun x Hx => H x (or_intror Hx))).
  destruct (lval a l); lia.
Qed.

Lemma weight_le_sum : forall a ls cs, (forall c, In c cs -> 0 <= c)%Z -> (weight a ls cs <= sumZ cs)%Z.
Proof.
  intros a ls; induction ls as [|l ls IH]; intros [|c cs] H; simpl; try lia.
  - pose proof (H c (or_introl eq_refl)).
    assert (0 <= sumZ cs)%Z; [|lia].
    clear - H; induction cs as [|x cs IH]; simpl; [lia|].
    pose proof (H x ltac:(right; now left)).
    assert (0 <= sumZ cs)%Z by (apply IH; intros y Hy; apply H; destruct Hy; [now left | right; now right]); lia.
  - pose proof (H c (or_introl eq_refl)); pose proof (IH cs (fun x Hx => H x (or_intror Hx))).
    destruct (lval a l); lia.
Qed.

(** The weight of a list of pairs. *)
Fixpoint pweight (a : env) (ps : list (elit * Z)) : Z :=
  match ps with [] => 0%Z | (l, c) :: r => ((if lval a l then c else 0) + pweight a r)%Z end.

Lemma weight_pweight : forall a ls cs, weight a ls cs = pweight a (combine ls cs).
Proof. intros a ls; induction ls as [|l ls IH]; intros [|c cs]; simpl; try reflexivity; now rewrite IH. Qed.

Lemma pweight_weight : forall a ps, pweight a ps = weight a (map fst ps) (map snd ps).
Proof. intros a ps; induction ps as [|[l c] ps IH]; simpl; [reflexivity | now rewrite IH]. Qed.

Lemma pweight_filter : forall a f ps,
  pweight a ps = (pweight a (filter f ps) + pweight a (filter (fun q => negb (f q)) ps))%Z.
Proof.
  intros a f ps; induction ps as [|[l c] ps IH]; simpl; [reflexivity|].
  destruct (f (l, c)); simpl; rewrite IH; lia.
Qed.

Lemma pweight_nonneg : forall a ps, (forall q, In q ps -> 0 <= snd q)%Z -> (0 <= pweight a ps)%Z.
Proof.
  intros a ps; induction ps as [|[l c] ps IH]; intros H; simpl; [lia|].
  pose proof (H (l, c) (or_introl eq_refl)) as E; cbn in E.
  pose proof (IH (fun x Hx => H x (or_intror Hx))); destruct (lval a l); lia.
Qed.

Lemma pweight_in : forall a ps l c, (forall q, In q ps -> 0 <= snd q)%Z -> In (l, c) ps -> lval a l = true ->
  (c <= pweight a ps)%Z.
Proof.
  intros a ps; induction ps as [|[m d] ps IH]; intros l c H Hi Hv; [destruct Hi|]; destruct Hi as [E|Hin]; simpl.
  - injection E as -> ->; rewrite Hv.
    pose proof (pweight_nonneg a ps (fun x Hx => H x (or_intror Hx))); lia.
  - pose proof (H (m, d) (or_introl eq_refl)) as E; cbn in E.
    pose proof (IH l c (fun x Hx => H x (or_intror Hx)) Hin Hv); destruct (lval a m); lia.
Qed.

Lemma pweight_zero : forall a ps, (forall q, In q ps -> lval a (fst q) = false) -> pweight a ps = 0%Z.
Proof.
  intros a ps; induction ps as [|[l c] ps IH]; intros H; simpl; [reflexivity|].
  pose proof (H (l, c) (or_introl eq_refl)) as E; cbn in E; rewrite E, IH; [reflexivity|].
  intros q Hq; apply H; now right.
Qed.

Lemma pweight_perm : forall a ps qs, Permutation ps qs -> pweight a ps = pweight a qs.
Proof.
  intros a ps qs H; induction H as [|[l c] ps qs H IH|[l c] [m d] ps|ps qs rs H1 IH1 H2 IH2]; simpl; lia.
Qed.

Lemma combine_fst_in : forall {A B} (l : list A) (m : list B) q, In q (combine l m) -> In (fst q) l.
Proof. intros A B l m [x y] H; exact (in_combine_l l m x y H). Qed.

Lemma combine_snd_in : forall {A B} (l : list A) (m : list B) q, In q (combine l m) -> In (snd q) m.
Proof. intros A B l m [x y] H; exact (in_combine_r l m x y H). Qed.

(** ** Sequential weight counter *)

(** The weight of the first [i] literals. *)
Definition prefixW (a : env) (ls : list elit) (cs : list Z) (i : nat) : Z := weight a (firstn i ls) (firstn i cs).

Lemma prefixW_S : forall a ls cs i, i < length ls -> length ls = length cs ->
  prefixW a ls cs (S i) = (prefixW a ls cs i + (if lval a (at_ ls i) then nth i cs 0%Z else 0))%Z.
Proof.
  intros a ls; induction ls as [|l ls IH]; intros [|c cs] i Hi Hl; try (simpl in *; lia).
  destruct i as [|i]; [unfold prefixW; rewrite at_0; cbn [firstn nth]; destruct ls, cs; cbn [weight]; destruct (lval a l); lia|].
  specialize (IH cs i ltac:(simpl in Hi; lia) ltac:(simpl in Hl; lia)).
  unfold prefixW in *; change (firstn (S (S i)) (l :: ls)) with (l :: firstn (S i) ls).
  change (firstn (S (S i)) (c :: cs)) with (c :: firstn (S i) cs).
  cbn [weight]; rewrite IH; rewrite at_S; cbn [firstn weight nth]; lia.
Qed.

Lemma prefixW_all : forall a ls cs, length ls = length cs -> prefixW a ls cs (length ls) = weight a ls cs.
Proof. intros a ls cs H; unfold prefixW; now rewrite firstn_all, H, firstn_all. Qed.

Lemma swc_ok : forall ls cs rhs n, length ls = length cs -> scoped n ls -> (1 <= rhs)%Z ->
  (forall c, In c cs -> 1 <= c <= rhs)%Z ->
  encodes (fun a => (weight a ls cs <= rhs)%Z) n (encodePBCSWC ls cs rhs n).
Proof.
  intros ls cs rhs n Hl Hs Hr Hc; unfold encodePBCSWC.
  set (k := length ls) in *; remember (Z.to_nat rhs) as r eqn:Er.
  set (xs := auxs APB (k * r) n); set (v := fun i j => at_ xs ((i - 1) * r + (j - 1))).
  assert (Hidx : forall i j, 1 <= i <= k -> 1 <= j <= r -> (i - 1) * r + (j - 1) < k * r).
  { intros i j Hi Hj; assert (i * r <= k * r) by (apply Nat.mul_le_mono_r; lia).
    assert (E : i * r = (i - 1) * r + r) by (destruct i as [|i']; [lia|]; rewrite Nat.sub_succ, Nat.sub_0_r, Nat.mul_succ_l; lia).
    lia. }
  assert (Sv : forall i j, 1 <= i <= k -> 1 <= j <= r -> lscope (bump APB (k * r) n) (v i j)).
  { intros i j Hi Hj; unfold v; apply scoped_at; [apply auxs_scoped|]; unfold xs; rewrite auxs_length; now apply Hidx. }
  set (w := fun i => Z.to_nat (nth (i - 1) cs 0%Z)).
  assert (Hw : forall i, 1 <= i <= k -> 1 <= w i <= r /\ Z.of_nat (w i) = nth (i - 1) cs 0%Z).
  { intros i Hi; unfold w; pose proof (Hc (nth (i - 1) cs 0%Z) (@nth_In Z (i - 1) cs 0%Z ltac:(lia))); lia. }
  set (l := fun i => at_ ls (i - 1)).
  assert (Sl : forall i, 1 <= i <= k -> lscope (bump APB (k * r) n) (l i)).
  { intros i Hi; apply lscope_le with n; [apply cle_bump|]; apply scoped_at; [exact Hs | unfold k in Hi; lia]. }
  (* the clauses, one by one *)
  assert (Sat : forall a, sat a (flat_map (fun i =>
     flat_map (fun j =>
       (if 2 <=? i then [[neg (v (i - 1) j); v i j]] else []) ++
       (if j <=? w i then [[neg (l i); v i j]] else []) ++
       (if (2 <=? i) && (j + w i <=? r) then [[neg (v (i - 1) j); neg (l i); v i (j + w i)]] else []))
       (seq 1 r) ++
     (if 2 <=? i then [[neg (v (i - 1) (r + 1 - w i)); neg (l i)]] else [])) (seq 1 k)) <->
    forall i, 1 <= i <= k ->
      (forall j, 1 <= j <= r ->
        (2 <= i -> lval a (v (i - 1) j) = true -> lval a (v i j) = true) /\
        (j <= w i -> lval a (l i) = true -> lval a (v i j) = true) /\
        (2 <= i -> j + w i <= r -> lval a (v (i - 1) j) = true -> lval a (l i) = true -> lval a (v i (j + w i)) = true)) /\
      (2 <= i -> lval a (v (i - 1) (r + 1 - w i)) = true -> lval a (l i) = false)).
  { intros a; rewrite sat_flat_map; split; intros H i Hi.
    - specialize (H i ltac:(apply in_seq; lia)); apply sat_app in H as [H1 H2]; split.
      + intros j Hj; rewrite sat_flat_map in H1; specialize (H1 j ltac:(apply in_seq; lia)).
        apply sat_app in H1 as [A H1]; apply sat_app in H1 as [B C]; split; [|split].
        * intros Hi2; destruct (Nat.leb_spec 2 i); [|lia]; now rewrite sat1, csat2 in A.
        * intros Hj2; destruct (Nat.leb_spec j (w i)); [|lia]; now rewrite sat1, csat2 in B.
        * intros Hi2 Hj2; destruct (Nat.leb_spec 2 i); [|lia]; destruct (Nat.leb_spec (j + w i) r); [|lia].
          cbn [andb] in C; now rewrite sat1, csat3 in C.
      + intros Hi2; destruct (Nat.leb_spec 2 i); [|lia]; rewrite sat1, csat2 in H2.
        intros E; apply lval_neg_true; auto.
    - apply in_seq in Hi; destruct (H i ltac:(lia)) as [H1 H2]; apply sat_app; split.
      + apply sat_flat_map; intros j Hj; apply in_seq in Hj; destruct (H1 j ltac:(lia)) as [A [B C]].
        apply sat_app; split; [|apply sat_app; split].
        * destruct (Nat.leb_spec 2 i); [|apply sat_nil]; rewrite sat1, csat2; auto.
        * destruct (Nat.leb_spec j (w i)); [|apply sat_nil]; rewrite sat1, csat2; auto.
        * destruct (Nat.leb_spec 2 i); [|apply sat_nil]; destruct (Nat.leb_spec (j + w i) r); [|apply sat_nil].
          cbn [andb]; rewrite sat1, csat3; auto.
      + destruct (Nat.leb_spec 2 i); [|apply sat_nil]; rewrite sat1, csat2, lval_neg_true; auto. }
  split; [apply cle_bump|]; cbn [fst snd]; split; [|split].
  - apply cscoped_flat_map; intros i Hi; apply in_seq in Hi; fold (w i); fold (l i).
    apply cscoped_app; split.
    + apply cscoped_flat_map; intros j Hj; apply in_seq in Hj.
      apply cscoped_app; split; [|apply cscoped_app; split].
      * destruct (Nat.leb_spec 2 i); [|apply cscoped_nil]; intros c [<-|[]] x [<-|[<-|[]]]; try apply lscope_neg; apply Sv; lia.
      * destruct (Nat.leb_spec j (w i)); [|apply cscoped_nil]; intros c [<-|[]] x [<-|[<-|[]]]; [apply lscope_neg, Sl | apply Sv]; lia.
      * destruct (Nat.leb_spec 2 i); [|apply cscoped_nil]; destruct (Nat.leb_spec (j + w i) r); [|apply cscoped_nil].
        intros c [<-|[]] x [<-|[<-|[<-|[]]]]; [apply lscope_neg, Sv | apply lscope_neg, Sl | apply Sv]; lia.
    + destruct (Nat.leb_spec 2 i); [|apply cscoped_nil]; destruct (Hw i ltac:(lia)).
      intros c [<-|[]] x [<-|[<-|[]]]; [apply lscope_neg, Sv | apply lscope_neg, Sl]; lia.
  - intros a Ha0; pose proof (proj1 (Sat a) Ha0) as Ha; clear Ha0.
    assert (G : forall i, i <= k -> (prefixW a ls cs i <= rhs)%Z /\
                (1 <= i -> forall j, 1 <= j <= r -> (Z.of_nat j <= prefixW a ls cs i)%Z -> lval a (v i j) = true)).
    { induction i as [|i IH]; intros Hi.
      - split; [unfold prefixW; cbn [firstn weight]; lia | lia].
      - destruct (IH ltac:(lia)) as [I1 I2]; destruct (Hw (S i) ltac:(lia)) as [W1 W2].
        destruct (Ha (S i) ltac:(lia)) as [H1 H2]; replace (S i - 1) with i in * by lia.
        rewrite prefixW_S by (fold k; lia || exact Hl).
        assert (Hli : l (S i) = at_ ls i) by (unfold l; f_equal; lia).
        assert (P0 : (0 <= prefixW a ls cs i)%Z).
        { unfold prefixW; apply weight_nonneg; intros c Hcc.
          assert (In c cs) by (rewrite <- (firstn_skipn i cs); apply in_app_iff; now left).
          specialize (Hc c H); lia. }
        assert (P00 : i = 0 -> prefixW a ls cs i = 0%Z) by (intros ->; reflexivity).
        rewrite <- Hli; destruct (lval a (l (S i))) eqn:El.
        + assert (B : (prefixW a ls cs i + nth i cs 0%Z <= rhs)%Z).
          { destruct (Z.le_gt_cases (prefixW a ls cs i + nth i cs 0%Z) rhs) as [|G]; [assumption|].
            destruct i as [|i]; [rewrite P00 in G by reflexivity; lia|].
            specialize (H2 ltac:(lia)); enough (true = false) by discriminate; apply H2.
            apply I2; lia. }
          split; [exact B|]; intros _ j Hj Hjw.
          destruct (H1 j Hj) as [A1 [A2 A3]].
          destruct (Nat.le_gt_cases j (w (S i))) as [G|G]; [now apply A2|].
          destruct i as [|i]; [rewrite P00 in Hjw by reflexivity; lia|].
          destruct (H1 (j - w (S (S i))) ltac:(lia)) as [_ [_ A4]].
          replace (j - w (S (S i)) + w (S (S i))) with j in A4 by lia.
          apply A4; [lia | lia | apply I2; lia | reflexivity].
        + split; [lia|]; intros _ j Hj Hjw.
          destruct i as [|i]; [rewrite P00 in Hjw by reflexivity; lia|].
          destruct (H1 j Hj) as [A1 _]; apply A1; [lia|]; apply I2; lia. }
    destruct (G k ltac:(lia)) as [G1 _]; unfold k in G1; now rewrite prefixW_all in G1 by exact Hl.
  - intros a Ha.
    set (F := fun q => (Z.of_nat (q mod r + 1) <=? prefixW a ls cs (q / r + 1))%Z).
    set (b := upd APB (fresh APB n) F a); exists b.
    assert (Ag : agree n a b) by apply upd_agree.
    split; [exact Ag|].
    assert (Hv : forall i j, 1 <= i <= k -> 1 <= j <= r ->
              lval b (v i j) = (Z.of_nat j <=? prefixW a ls cs i)%Z).
    { intros i j Hi Hj; unfold v, xs, b; rewrite upd_at by now apply Hidx.
      unfold F; replace (((i - 1) * r + (j - 1)) mod r) with (j - 1).
      - replace (((i - 1) * r + (j - 1)) / r) with (i - 1).
        + replace (j - 1 + 1) with j by lia; now replace (i - 1 + 1) with i by lia.
        + symmetry; rewrite Nat.add_comm, Nat.div_add by lia; rewrite Nat.div_small by lia; lia.
      - symmetry; rewrite Nat.add_comm, Nat.mod_add by lia; apply Nat.mod_small; lia. }
    assert (Hlv : forall i, 1 <= i <= k -> lval b (l i) = lval a (l i)).
    { intros i Hi; apply (agree_lval n); [exact Ag|]; apply scoped_at; [exact Hs | unfold k in Hi; lia]. }
    assert (Hcn : forall c, In c cs -> (0 <= c)%Z) by (intros c Hcc; specialize (Hc c Hcc); lia).
    assert (Mono : forall i j, i <= j <= k -> (0 <= prefixW a ls cs i <= prefixW a ls cs j)%Z).
    { intros i j [Hij Hjk]; induction Hij as [|j Hij IH].
      - split; [|lia]; unfold prefixW; apply weight_nonneg; intros c Hcc.
        apply Hcn; rewrite <- (firstn_skipn i cs); apply in_app_iff; now left.
      - rewrite (prefixW_S a ls cs j) by (fold k; lia || exact Hl).
        specialize (IH ltac:(lia)); pose proof (Hcn (nth j cs 0%Z) (@nth_In Z j cs 0%Z ltac:(lia))).
        destruct (lval a (at_ ls j)); lia. }
    refine (proj2 (Sat b) _); intros i Hi; destruct (Hw i Hi) as [W1 W2].
    assert (Step : prefixW a ls cs i = (prefixW a ls cs (i - 1) + (if lval a (l i) then nth (i - 1) cs 0%Z else 0))%Z).
    { replace i with (S (i - 1)) at 1 by lia; apply prefixW_S; [fold k; lia | exact Hl]. }
    assert (Top : (prefixW a ls cs i <= rhs)%Z).
    { destruct (Mono i k ltac:(lia)) as [_ M]; unfold k in M; rewrite prefixW_all in M by exact Hl; lia. }
    split.
    + intros j Hj; split; [|split].
      * intros H2; rewrite !Hv by lia; rewrite !Z.leb_le; destruct (Mono (i - 1) i ltac:(lia)); lia.
      * intros H2; rewrite Hv, Hlv by lia; rewrite Z.leb_le; intros E; rewrite E in Step.
        destruct (Mono (i - 1) (i - 1) ltac:(lia)); lia.
      * intros H2 H3; rewrite !Hv, Hlv by lia; rewrite !Z.leb_le; intros E1 E2; rewrite E2 in Step; lia.
    + intros H2; rewrite Hv, Hlv by lia; rewrite Z.leb_le; intros E.
      destruct (lval a (l i)); [|reflexivity]; lia.
Qed.
