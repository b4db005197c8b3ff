(** * Correctness of the binary merge encoding *)

From Coq Require Import String List Bool Arith ZArith Lia Permutation.
From Verif Require Import Spec EncSpec EncAmo EncLemmas EncAmoProofs EncCc EncTotProofs
  EncCn EncCnProofs EncApi EncApiProofs EncPbc EncPbcProofs EncAdderProofs.
Import ListNotations.

(** ** Adding unary numbers *)

Lemma split_sum : forall VA VB k, 1 <= k <= VA + VB ->
  (exists i, 1 <= i <= VA /\ k = i) \/ (exists j, 1 <= j <= VB /\ k = j) \/
  (exists i j, 1 <= i <= VA /\ 1 <= j <= VB /\ k = i + j).
Proof.
  intros VA VB k Hk.
  destruct (Nat.le_gt_cases k VA) as [H|H]; [left; exists k; lia|].
  destruct VA as [|VA]; [right; left; exists k; lia|].
  right; right; exists (S VA), (k - S VA); lia.
Qed.

Lemma unaryAdder_ok : forall u v n cs w n', 1 <= length u -> 1 <= length v -> scoped n u -> scoped n v ->
  unaryAdder u v n = (cs, w, n') ->
  cle n n' /\ cscoped n' cs /\ scoped n' w /\ length w = length u + length v /\
  (forall a VA VB, VA <= length u -> VB <= length v -> sat a cs ->
     trO a u 0 VA -> trO a v 0 VB -> trO a w 0 (VA + VB)) /\
  (forall a VA VB, exO a u 0 VA -> exO a v 0 VB -> exists b, agree n a b /\ sat b cs /\ exO b w 0 (VA + VB)).
Proof.
  intros u v n cs w n' Hu Hv Su Sv E; unfold unaryAdder in E.
  destruct (Nat.eqb_spec (length u) 0); [lia|]; destruct (Nat.eqb_spec (length v) 0); [lia|].
  cbv zeta in E; apply pair3 in E as [<- [<- <-]].
  set (k := length u + length v); set (o := auxs APB k n); set (n' := bump APB k n).
  assert (Lo : length o = k) by apply auxs_length.
  assert (So : scoped n' o) by apply auxs_scoped.
  assert (L : cle n n') by apply cle_bump.
  pose proof (scoped_le _ _ _ L Su) as Su'; pose proof (scoped_le _ _ _ L Sv) as Sv'.
  split; [exact L|]; split; [|split; [exact So|split; [exact Lo|split]]].
  - apply cscoped_app; split; [|apply cscoped_app; split].
    + apply cscoped_flat_map; intros x Hx; apply in_seq in Hx; apply cscoped_map; intros y Hy; apply in_seq in Hy.
      intros l [<-|[<-|[<-|[]]]]; try apply lscope_neg; apply scoped_at; (assumption || (unfold k in Lo; lia)).
    + apply cscoped_map; intros y Hy; apply in_seq in Hy.
      intros l [<-|[<-|[]]]; try apply lscope_neg; apply scoped_at; (assumption || (unfold k in Lo; lia)).
    + apply cscoped_map; intros y Hy; apply in_seq in Hy.
      intros l [<-|[<-|[]]]; try apply lscope_neg; apply scoped_at; (assumption || (unfold k in Lo; lia)).
  - intros a VA VB HA HB Ha TA TB j Hj HjV; cbn [plus] in HjV.
    apply sat_app in Ha as [H1 H2]; apply sat_app in H2 as [H2 H3].
    rewrite sat_flat_map in H1; rewrite sat_map in H2, H3.
    destruct (split_sum VA VB j ltac:(lia)) as [[x [Hx ->]]|[[y [Hy ->]]|[x [y [Hx [Hy ->]]]]]].
    + specialize (H3 (x - 1) ltac:(apply in_seq; lia)); rewrite csat2 in H3; apply H3, TA; lia.
    + specialize (H2 (y - 1) ltac:(apply in_seq; lia)); rewrite csat2 in H2; apply H2, TB; lia.
    + specialize (H1 (x - 1) ltac:(apply in_seq; lia)); rewrite sat_map in H1.
      specialize (H1 (y - 1) ltac:(apply in_seq; lia)); rewrite csat3 in H1.
      replace (x - 1 + (y - 1) + 1) with (x + y - 1) in H1 by lia; apply H1; [apply TA | apply TB]; lia.
  - intros a VA VB EA EB; set (b := upd APB (fresh APB n) (fun i => i + 1 <=? VA + VB) a); exists b.
    assert (Ag : agree n a b) by apply upd_agree.
    assert (Ho : forall i, i < k -> lval b (at_ o i) = (i + 1 <=? VA + VB)) by (intros i Hi; exact (upd_at _ k n (fun i => i + 1 <=? VA + VB) a i Hi)).
    split; [exact Ag|].
    apply (exO_agree n a b _ _ _ Ag Su) in EA; apply (exO_agree n a b _ _ _ Ag Sv) in EB.
    assert (XA : forall i, i < length u -> lval b (at_ u i) = true -> i + 1 <= VA).
    { intros i Hi Hl; destruct (EA (i + 1) ltac:(lia)) as [F _]; replace (i + 1 - 1) with i in F by lia; now apply F. }
    assert (XB : forall i, i < length v -> lval b (at_ v i) = true -> i + 1 <= VB).
    { intros i Hi Hl; destruct (EB (i + 1) ltac:(lia)) as [F _]; replace (i + 1 - 1) with i in F by lia; now apply F. }
    split.
    + apply sat_app; split; [|apply sat_app; split].
      * apply sat_flat_map; intros x Hx; apply in_seq in Hx; apply sat_map; intros y Hy; apply in_seq in Hy.
        rewrite csat3; intros G1 G2; apply XA in G1; [|lia]; apply XB in G2; [|lia].
        rewrite Ho by (unfold k; lia); apply Nat.leb_le; lia.
      * apply sat_map; intros y Hy; apply in_seq in Hy; rewrite csat2; intros G; apply XB in G; [|lia].
        rewrite Ho by (unfold k; lia); apply Nat.leb_le; lia.
      * apply sat_map; intros y Hy; apply in_seq in Hy; rewrite csat2; intros G; apply XA in G; [|lia].
        rewrite Ho by (unfold k; lia); apply Nat.leb_le; lia.
    + intros j Hj; rewrite Ho by lia; rewrite Nat.leb_le; lia.
Qed.

Lemma mergeFwd_ok : forall m u v n cs w n', 1 <= m -> 1 <= length u -> 1 <= length v -> scoped n u -> scoped n v ->
  mergeFwd m u v n = (cs, w, n') ->
  cle n n' /\ cscoped n' cs /\ scoped n' w /\ length w = Nat.min m (length u + length v) /\
  (forall a VA VB, VA <= length u -> VB <= length v -> sat a cs ->
     trO a u 0 VA -> trO a v 0 VB -> trO a w 0 (VA + VB)) /\
  (forall a VA VB, exO a u 0 VA -> exO a v 0 VB -> exists b, agree n a b /\ sat b cs /\ exO b w 0 (VA + VB)).
Proof.
  intros m u v n cs w n' Hm Hu Hv Su Sv E; unfold mergeFwd in E.
  destruct (Nat.eqb_spec m 0); [lia|].
  destruct (Nat.eqb_spec (length u) 0); [lia|]; destruct (Nat.eqb_spec (length v) 0); [lia|].
  cbv zeta in E; apply pair3 in E as [<- [<- <-]].
  remember (Nat.min m (length u + length v)) as k eqn:Ek; set (o := auxs ACC k n); set (n' := bump ACC k n).
  assert (Lo : length o = k) by apply auxs_length.
  assert (So : scoped n' o) by apply auxs_scoped.
  assert (L : cle n n') by apply cle_bump.
  pose proof (scoped_le _ _ _ L Su) as Su'; pose proof (scoped_le _ _ _ L Sv) as Sv'.
  split; [exact L|]; split; [|split; [exact So|split; [exact Lo|split]]].
  - apply cscoped_app; split; [|apply cscoped_app; split].
    + apply cscoped_map; intros y Hy; apply in_seq in Hy.
      intros l [<-|[<-|[]]]; try apply lscope_neg; apply scoped_at; (assumption || lia).
    + apply cscoped_map; intros y Hy; apply in_seq in Hy.
      intros l [<-|[<-|[]]]; try apply lscope_neg; apply scoped_at; (assumption || lia).
    + apply cscoped_flat_map; intros x Hx; apply in_seq in Hx; apply cscoped_flat_map; intros y Hy; apply in_seq in Hy.
      destruct (Nat.ltb_spec (x + y + 1) k); [|apply cscoped_nil]; intros c [<-|[]].
      intros l [<-|[<-|[<-|[]]]]; try apply lscope_neg; apply scoped_at; (assumption || lia).
  - intros a VA VB HA HB Ha TA TB j Hj HjV; cbn [plus] in HjV.
    apply sat_app in Ha as [H2 H3]; apply sat_app in H3 as [H3 H1].
    rewrite sat_flat_map in H1; rewrite sat_map in H2, H3.
    destruct (split_sum VA VB j ltac:(lia)) as [[x [Hx ->]]|[[y [Hy ->]]|[x [y [Hx [Hy ->]]]]]].
    + specialize (H2 (x - 1) ltac:(apply in_seq; lia)); rewrite csat2 in H2; apply H2, TA; lia.
    + specialize (H3 (y - 1) ltac:(apply in_seq; lia)); rewrite csat2 in H3; apply H3, TB; lia.
    + specialize (H1 (x - 1) ltac:(apply in_seq; lia)); rewrite sat_flat_map in H1.
      specialize (H1 (y - 1) ltac:(apply in_seq; lia)).
      destruct (Nat.ltb_spec (x - 1 + (y - 1) + 1) k); [|lia]; rewrite sat1, csat3 in H1.
      replace (x - 1 + (y - 1) + 1) with (x + y - 1) in H1 by lia; apply H1; [apply TA | apply TB]; lia.
  - intros a VA VB EA EB; set (b := upd ACC (fresh ACC n) (fun i => i + 1 <=? VA + VB) a); exists b.
    assert (Ag : agree n a b) by apply upd_agree.
    assert (Ho : forall i, i < k -> lval b (at_ o i) = (i + 1 <=? VA + VB)) by (intros i Hi; exact (upd_at _ k n (fun i => i + 1 <=? VA + VB) a i Hi)).
    split; [exact Ag|].
    apply (exO_agree n a b _ _ _ Ag Su) in EA; apply (exO_agree n a b _ _ _ Ag Sv) in EB.
    assert (XA : forall i, i < length u -> lval b (at_ u i) = true -> i + 1 <= VA).
    { intros i Hi Hl; destruct (EA (i + 1) ltac:(lia)) as [F _]; replace (i + 1 - 1) with i in F by lia; now apply F. }
    assert (XB : forall i, i < length v -> lval b (at_ v i) = true -> i + 1 <= VB).
    { intros i Hi Hl; destruct (EB (i + 1) ltac:(lia)) as [F _]; replace (i + 1 - 1) with i in F by lia; now apply F. }
    split.
    + apply sat_app; split; [|apply sat_app; split].
      * apply sat_map; intros y Hy; apply in_seq in Hy; rewrite csat2; intros G; apply XA in G; [|lia].
        rewrite Ho by lia; apply Nat.leb_le; lia.
      * apply sat_map; intros y Hy; apply in_seq in Hy; rewrite csat2; intros G; apply XB in G; [|lia].
        rewrite Ho by lia; apply Nat.leb_le; lia.
      * apply sat_flat_map; intros x Hx; apply in_seq in Hx; apply sat_flat_map; intros y Hy; apply in_seq in Hy.
        destruct (Nat.ltb_spec (x + y + 1) k); [|apply sat_nil].
        rewrite sat1, csat3; intros G1 G2; apply XA in G1; [|lia]; apply XB in G2; [|lia].
        rewrite Ho by lia; apply Nat.leb_le; lia.
    + intros j Hj; rewrite Ho by lia; rewrite Nat.leb_le; lia.
Qed.

(** What a forward sorter does. *)
Definition fsorts (z : bool) (len : nat) (x : list elit) (n : ctr) (cs : list clause) (out : list elit) (n' : ctr) : Prop :=
  cle n n' /\ cscopedZ z n' cs /\ scoped n' out /\ length out = len /\
  (forall a, envZ z a -> sat a cs -> trO a out 0 (count a x)) /\
  (forall a, envZ z a -> exists b, agree n a b /\ envZ z b /\ sat b cs /\ exO b out 0 (count a x)).

Lemma envZ_unzero_exists : forall (z : bool) n n' cs out K a b, cscoped n' cs -> scoped n' out ->
  agree n a b -> sat b cs -> exO b out 0 K ->
  exists c, agree n a c /\ envZ z c /\ sat c cs /\ exO c out 0 K.
Proof.
  intros z n n' cs out K a b Sc So Ag Sb Eb; exists (unzero b).
  split; [exact (agree_trans n n a b (unzero b) (cle_refl n) Ag (unzero_agree n b))|].
  split; [apply unzero_envZ|].
  split; [exact (agree_sat n' b (unzero b) cs (unzero_agree _ b) Sc Sb)|].
  exact (exO_agree n' b (unzero b) out 0 K (unzero_agree n' b) So Eb).
Qed.

Lemma unaryTotalizer_ok : forall fuel x n cs out n', length x < fuel -> scoped n x ->
  unaryTotalizer fuel x n = (cs, out, n') ->
  cle n n' /\ cscoped n' cs /\ scoped n' out /\ length out = length x /\
  (forall a, sat a cs -> trO a out 0 (count a x)) /\
  (forall a, exists b, agree n a b /\ sat b cs /\ exO b out 0 (count a x)).
Proof.
  induction fuel as [|fuel IH]; intros x n cs out n' Hf Sx E; [lia|]; cbn [unaryTotalizer] in E.
  destruct (Nat.eqb_spec (length x) 0) as [H0|H0].
  { apply pair3 in E as [<- [<- <-]]; split; [apply cle_refl|]; split; [apply cscoped_nil|].
    split; [apply scoped_nil|]; split; [now rewrite H0|]; split; [intros; apply trO_nil|].
    intros a; exists a; split; [apply agree_refl|]; split; [apply sat_nil | apply exO_nil]. }
  destruct (Nat.eqb_spec (length x) 1) as [H1|H1].
  { destruct x as [|l [|l2 r]]; try discriminate H1.
    apply pair3 in E as [<- [<- <-]]; split; [apply cle_refl|]; split; [apply cscoped_nil|].
    split; [exact Sx|]; split; [reflexivity|]; rewrite at_0.
    assert (X : forall a, exO a [l] 0 (count a [l])).
    { intros a k Hk; cbn [length] in Hk; replace (k - 1) with 0 by lia; rewrite at_0; cbn [count].
      destruct (lval a l); split; intros; try lia; try reflexivity; discriminate. }
    split; [intros a _; apply exO_iff, X|].
    intros a; exists a; split; [apply agree_refl|]; split; [apply sat_nil | apply X]. }
  cbv zeta in E; set (h := length x / 2) in *; set (n0 := bump APB (length x) n) in *.
  assert (Hh : 1 <= h < length x) by (unfold h; pose proof (div2_spec (length x)); lia).
  destruct (unaryTotalizer fuel (firstn h x) n0) as [[c1 u1] n1] eqn:E1.
  destruct (unaryTotalizer fuel (skipn h x) n1) as [[c2 u2] n2] eqn:E2.
  destruct (unaryAdder u1 u2 n2) as [[c3 w] n3] eqn:E3.
  apply pair3 in E as [<- [<- <-]].
  assert (L0 : cle n n0) by apply cle_bump.
  assert (F1 : length (firstn h x) = h) by (rewrite firstn_length; lia).
  assert (F2 : length (skipn h x) = length x - h) by apply skipn_length.
  assert (S1 : scoped n0 (firstn h x)) by (apply scoped_le with n; [exact L0 | now apply scoped_firstn]).
  destruct (IH (firstn h x) n0 c1 u1 n1 ltac:(lia) S1 E1) as [A1 [A2 [A3 [A4 [A5 A6]]]]].
  assert (L1 : cle n n1) by (apply cle_trans with n0; assumption).
  assert (S2 : scoped n1 (skipn h x)) by (apply scoped_le with n; [exact L1 | now apply scoped_skipn]).
  destruct (IH (skipn h x) n1 c2 u2 n2 ltac:(lia) S2 E2) as [B1 [B2 [B3 [B4 [B5 B6]]]]].
  assert (S3 : scoped n2 u1) by now apply scoped_le with n1.
  destruct (unaryAdder_ok u1 u2 n2 c3 w n3 ltac:(lia) ltac:(lia) S3 B3 E3) as [C1 [C2 [C3 [C4 [C5 C6]]]]].
  assert (L12 : cle n1 n3) by (apply cle_trans with n2; assumption).
  assert (Cnt : forall a, count a x = count a (firstn h x) + count a (skipn h x)).
  { intros a; rewrite <- (firstn_skipn h x) at 1; pose proof (count_app_z a (firstn h x) (skipn h x)); lia. }
  split; [now apply cle_trans with n1|]; split; [|split; [exact C3|split; [lia|split]]].
  - apply cscoped_app; split; [now apply cscoped_le with n1|]; apply cscoped_app; split; [now apply cscoped_le with n2 | exact C2].
  - intros a Ha; apply sat_app in Ha as [H2 Ha]; apply sat_app in Ha as [H3 H4]; rewrite Cnt.
    apply C5; [| | exact H4 | now apply A5 | now apply B5].
    + pose proof (count_le a (firstn h x)); lia.
    + pose proof (count_le a (skipn h x)); lia.
  - intros a; destruct (A6 a) as [a1 [X1 [X2 X3]]]; destruct (B6 a1) as [a2 [Y1 [Y2 Y3]]].
    assert (Y4 : exO a2 u1 0 (count a (firstn h x))) by exact (exO_agree n1 a1 a2 _ _ _ Y1 A3 X3).
    destruct (C6 a2 _ _ Y4 Y3) as [a3 [Z1 [Z2 Z3]]]; exists a3.
    assert (Ag1 : agree n a a1) by (apply agree_le with n0; assumption).
    split; [|split].
    + apply agree_trans with n1 a1; [exact L1 | exact Ag1|].
      apply agree_trans with n2 a2; assumption.
    + apply sat_app; split; [|apply sat_app; split; [|exact Z2]].
      * apply (agree_sat n1 a1); [|exact A2|exact X2]; apply agree_trans with n2 a2; assumption.
      * apply (agree_sat n2 a2); assumption.
    + rewrite Cnt, <- (agree_count n a a1 (skipn h x) Ag1 (scoped_skipn _ _ _ Sx)); exact Z3.
Qed.

Lemma sort_fwdZ : forall m x n cs out n', scoped n x -> 1 <= m ->
  sort m x InOut n = (cs, out, n') -> fsorts true (Nat.min m (length x)) x n cs out n'.
Proof.
  intros m x n cs out n' Sx Hm E.
  destruct (sort_fwd0_ok m x n cs out n' Sx Hm E) as [A1 [A2 [A3 [A4 [A5 A6]]]]].
  split; [exact A1|]; split; [now apply cscoped0_Z|]; split; [exact A3|]; split; [exact A4|]; split.
  - intros a Ez; apply A5; now apply Ez.
  - intros a Ez; destruct (A6 a (Ez eq_refl)) as [b [B1 [B2 [B3 B4]]]]; exists b.
    split; [exact B1|]; split; [now intros _|]; now split.
Qed.

(** ** The levels *)

Definition gacTrue (a : env) (gac : option elit) : Prop :=
  match gac with Some g => lval a g = true | None => False end.

Lemma guarded_sat : forall a gac l, csat a (guarded gac l) <-> gacTrue a gac \/ lval a l = true.
Proof.
  intros a [g|] l; cbn [guarded gacTrue].
  - rewrite csat_cons, csat1; tauto.
  - rewrite csat1; tauto.
Qed.

Definition gscoped (n : ctr) (gac : option elit) : Prop := match gac with Some g => lscope n g | None => True end.

Lemma guarded_scoped : forall n gac l, gscoped n gac -> lscope n l -> scoped n (guarded gac l).
Proof. intros n [g|] l Hg Hl x; cbn [guarded]; [intros [<-|[<-|[]]] | intros [<-|[]]]; assumption. Qed.

Lemma gacTrue_agree : forall n a b gac, agree n a b -> gscoped n gac -> gacTrue a gac <-> gacTrue b gac.
Proof. intros n a b [g|] Ag Hg; cbn [gacTrue gscoped] in *; [now rewrite (agree_lval n a b g Ag Hg) | tauto]. Qed.

Lemma agree_bval : forall n a b bs, agree n a b -> (forall x, In x bs -> scoped n x) -> bval b bs = bval a bs.
Proof.
  intros n a b bs Ag; induction bs as [|x bs IH]; intros H; [reflexivity|]; cbn [bval].
  rewrite (agree_count n a b x Ag (H x (or_introl eq_refl))), IH; [reflexivity|].
  intros y Hy; apply H; now right.
Qed.

Lemma bval_nonneg : forall a bs, (0 <= bval a bs)%Z.
Proof. intros a bs; induction bs as [|b bs IH]; cbn [bval]; lia. Qed.

Lemma ceilShift_exact : forall m p i, i <= p ->
  ceilShift (m * 2 ^ Z.of_nat p) i = (m * 2 ^ Z.of_nat (p - i))%Z.
Proof.
  intros m p i Hi; unfold ceilShift.
  assert (E : (2 ^ Z.of_nat p = 2 ^ Z.of_nat (p - i) * 2 ^ Z.of_nat i)%Z)
    by (rewrite <- Z.pow_add_r by lia; f_equal; lia).
  rewrite E, Z.mul_assoc.
  assert (P : (0 < 2 ^ Z.of_nat i)%Z) by (apply Z.pow_pos_nonneg; lia).
  symmetry; apply Z.div_unique_pos with (2 ^ Z.of_nat i - 1)%Z; lia.
Qed.

Lemma mergeLevels_ok : forall z wd gac m p, (1 <= m)%Z -> (z = true \/ wd = true) ->
  forall buckets i carries n cs n', i + length buckets = p + 1 ->
  (forall b, In b buckets -> scoped n b) -> scoped n carries -> gscoped n gac ->
  mergeLevels wd gac (m * 2 ^ Z.of_nat p) i buckets carries n = (cs, n') ->
  cle n n' /\ cscopedZ z n' cs /\
  (forall a V, envZ z a -> sat a cs -> ~ gacTrue a gac -> trO a carries 0 V -> V <= length carries ->
     (Z.of_nat V * 2 ^ Z.of_nat i < m * 2 ^ Z.of_nat p)%Z ->
     ((Z.of_nat V + bval a buckets) * 2 ^ Z.of_nat i < m * 2 ^ Z.of_nat p)%Z) /\
  (forall a V, envZ z a -> exO a carries 0 V ->
     (gacTrue a gac \/
      V <= length carries /\ ((Z.of_nat V + bval a buckets) * 2 ^ Z.of_nat i < m * 2 ^ Z.of_nat p)%Z) ->
     exists b, agree n a b /\ envZ z b /\ sat b cs).
Proof.
  intros z wd gac m p Hm Hz; induction buckets as [|b rest IH]; intros i carries n cs n' Hlen Sb Sc Sg E;
    cbn [mergeLevels] in E.
  { injection E as <- <-; split; [apply cle_refl|]; split; [intros c []|]; split.
    - intros a V _ _ _ _ _ H; cbn [bval]; now rewrite Z.add_0_r.
    - intros a V Za _ _; exists a; split; [apply agree_refl|]; split; [exact Za | apply sat_nil]. }
  cbn [length] in Hlen.
  rewrite ceilShift_exact in E by lia.
  remember (m * 2 ^ Z.of_nat (p - i))%Z as K eqn:EK.
  assert (P2 : (1 <= 2 ^ Z.of_nat (p - i))%Z) by (pose proof (Z.pow_pos_nonneg 2 (Z.of_nat (p - i)) ltac:(lia) ltac:(lia)); lia).
  assert (HK : (1 <= K)%Z) by (subst K; nia).
  assert (EKi : (m * 2 ^ Z.of_nat p = K * 2 ^ Z.of_nat i)%Z).
  { subst K; rewrite <- Z.mul_assoc, <- Z.pow_add_r by lia; do 2 f_equal; lia. }
  assert (Peven : i < p -> exists K', (K = 2 * K')%Z).
  { intros Hi; exists (m * 2 ^ Z.of_nat (p - i - 1))%Z; subst K.
    replace (Z.of_nat (p - i)) with (Z.succ (Z.of_nat (p - i - 1))) by lia; rewrite Z.pow_succ_r by lia; lia. }
  assert (Pi : (0 < 2 ^ Z.of_nat i)%Z) by (apply Z.pow_pos_nonneg; lia).
  assert (Cut : forall x, (x * 2 ^ Z.of_nat i < m * 2 ^ Z.of_nat p <-> x < K)%Z).
  { intros x; rewrite EKi; symmetry; apply Z.mul_lt_mono_pos_r; exact Pi. }
  assert (CutS : forall x, (x * 2 ^ Z.of_nat (S i) < m * 2 ^ Z.of_nat p <-> 2 * x < K)%Z).
  { intros x; rewrite <- Cut, Nat2Z.inj_succ, Z.pow_succ_r by lia.
    now replace (x * (2 * 2 ^ Z.of_nat i))%Z with (2 * x * 2 ^ Z.of_nat i)%Z by lia. }
  remember (Z.to_nat K) as k eqn:Ek.
  destruct (if wd then unaryTotalizer (length b + 1) b n else sort k b InOut n) as [[c1 card] n1] eqn:E1.
  assert (Sbb : scoped n b) by (apply Sb; now left).
  assert (F : fsorts z (if wd then length b else Nat.min k (length b)) b n c1 card n1).
  { destruct wd.
    - destruct (unaryTotalizer_ok (length b + 1) b n c1 card n1 ltac:(lia) Sbb E1) as [A1 [A2 [A3 [A4 [A5 A6]]]]].
      split; [exact A1|]; split; [now apply cscoped_Z|]; split; [exact A3|]; split; [exact A4|].
      split; [intros a _; apply A5|]; intros a _; destruct (A6 a) as [a' [X1 [X2 X3]]].
      exact (envZ_unzero_exists z n n1 c1 card _ a a' A2 A3 X1 X2 X3).
    - destruct Hz as [->|Hz]; [|discriminate]; apply sort_fwdZ; [exact Sbb | lia | exact E1]. }
  clear E1; destruct F as [A1 [A2 [A3 [A4 [A5 A6]]]]].
  assert (Lc : k <= length b -> k <= length card) by (rewrite A4; destruct wd; lia).
  assert (Lc' : length card = length b \/ (length card = k /\ k <= length b)) by (rewrite A4; destruct wd; lia).
  set (c2 := if k <=? length b then [guarded gac (neg (at_ card (k - 1)))] else []) in *.
  destruct (if length carries =? 0 then ([], card, n1)
      else if length card =? 0 then ([], carries, n1)
      else
        let '(c4, mg, n2) := if wd then unaryAdder card carries n1 else mergeFwd k card carries n1 in
        (c4 ++ (if (k =? length mg) || (wd && (k <=? length mg))
                then [guarded gac (neg (at_ mg (k - 1)))] else []), mg, n2)) as [[c3 merged] n2] eqn:E3.
  assert (Sc1 : scoped n1 carries) by now apply scoped_le with n.
  assert (Sg1 : gscoped n1 gac) by (destruct gac; [now apply lscope_le with n | exact I]).
  (* what the merge step does *)
  assert (M : cle n1 n2 /\ cscoped n2 c3 /\ scoped n2 merged /\
    (forall a V, sat a c3 -> ~ gacTrue a gac -> trO a card 0 (count a b) -> trO a carries 0 V -> V <= length carries ->
       (Z.of_nat V < K)%Z -> count a b < k ->
       (Z.of_nat (count a b + V) < K)%Z /\ trO a merged 0 (count a b + V) /\ count a b + V <= length merged) /\
    (forall a V c, c <= length b -> exO a card 0 c -> exO a carries 0 V ->
       (gacTrue a gac \/ V <= length carries /\ (Z.of_nat (c + V) < K)%Z) ->
       exists a' W, agree n1 a a' /\ sat a' c3 /\ exO a' merged 0 W /\
         (gacTrue a gac \/ W = c + V /\ W <= length merged))).
  { assert (CB : forall a, count a b <= length b) by (intros a; apply count_le).
    destruct (Nat.eqb_spec (length carries) 0) as [Z0|Z0].
    { apply pair3 in E3 as [<- [<- <-]]; split; [apply cle_refl|]; split; [apply cscoped_nil|]; split; [exact A3|]; split.
      - intros a V _ _ T1 T2 HV HVK HB; replace V with 0 in * by lia; rewrite Nat.add_0_r.
        split; [lia|]; split; [exact T1|]; specialize (CB a); lia.
      - intros a V c Hc X1 X2 X3; exists a, c; split; [apply agree_refl|]; split; [apply sat_nil|].
        split; [exact X1|]; destruct X3 as [X3|[X3 X4]]; [now left | right; lia]. }
    destruct (Nat.eqb_spec (length card) 0) as [Z1|Z1].
    { apply pair3 in E3 as [<- [<- <-]]; split; [apply cle_refl|]; split; [apply cscoped_nil|]; split; [exact Sc1|]; split.
      - intros a V _ _ T1 T2 HV HVK HB; specialize (CB a); replace (count a b) with 0 by lia; cbn [plus].
        split; [lia|]; split; [exact T2|]; lia.
      - intros a V c Hc X1 X2 X3; exists a, V; split; [apply agree_refl|]; split; [apply sat_nil|].
        split; [exact X2|]; destruct X3 as [X3|[X3 X4]]; [now left | right; lia]. }
    destruct (if wd then unaryAdder card carries n1 else mergeFwd k card carries n1) as [[c4 mg] n2'] eqn:E4.
    apply pair3 in E3 as [<- [<- <-]].
    assert (F : cle n1 n2' /\ cscoped n2' c4 /\ scoped n2' mg /\
      length mg = (if wd then length card + length carries else Nat.min k (length card + length carries)) /\
      (forall a VA VB, VA <= length card -> VB <= length carries -> sat a c4 ->
         trO a card 0 VA -> trO a carries 0 VB -> trO a mg 0 (VA + VB)) /\
      (forall a VA VB, exO a card 0 VA -> exO a carries 0 VB ->
         exists b, agree n1 a b /\ sat b c4 /\ exO b mg 0 (VA + VB))).
    { destruct wd.
      - exact (unaryAdder_ok card carries n1 c4 mg n2' ltac:(lia) ltac:(lia) A3 Sc1 E4).
      - exact (mergeFwd_ok k card carries n1 c4 mg n2' ltac:(lia) ltac:(lia) ltac:(lia) A3 Sc1 E4). }
    clear E4; destruct F as [B1 [B2 [B3 [B4 [B5 B6]]]]].
    assert (Cond : (k =? length mg) || (wd && (k <=? length mg)) = (k <=? length card + length carries)).
    { rewrite B4; destruct wd; cbn [andb].
      - destruct (Nat.eqb_spec k (length card + length carries)), (Nat.leb_spec k (length card + length carries));
          try reflexivity; lia.
      - rewrite orb_false_r.
        destruct (Nat.leb_spec k (length card + length carries)); [apply Nat.eqb_eq | apply Nat.eqb_neq]; lia. }
    rewrite Cond; clear Cond.
    assert (Lm : k <= length card + length carries -> k <= length mg) by (rewrite B4; destruct wd; lia).
    assert (Sg2 : gscoped n2' gac) by (destruct gac; [now apply lscope_le with n1 | exact I]).
    split; [exact B1|]; split; [|split; [exact B3|split]].
    - apply cscoped_app; split; [exact B2|].
      destruct (Nat.leb_spec k (length card + length carries)) as [Hk|Hk]; [|apply cscoped_nil].
      intros c [<-|[]]; apply guarded_scoped; [exact Sg2 | apply lscope_neg, scoped_at; [exact B3 | lia]].
    - intros a V Ha Ng T1 T2 HV HVK HB; apply sat_app in Ha as [H1 H2].
      assert (T3 : trO a mg 0 (count a b + V)) by (apply B5; try assumption; specialize (CB a); lia).
      assert (Lt : count a b + V < k).
      { destruct (Nat.leb_spec k (length card + length carries)) as [Hk|Hk]; [|specialize (CB a); lia].
        rewrite sat1, guarded_sat in H2; destruct H2 as [H2|H2]; [contradiction|].
        apply lval_neg_true in H2.
        destruct (Nat.lt_ge_cases (count a b + V) k) as [Hl|Hl]; [exact Hl|].
        rewrite (T3 k) in H2 by lia; discriminate. }
      split; [lia|]; split; [exact T3|]; rewrite B4; specialize (CB a); destruct wd; lia.
    - intros a V c Hc X1 X2 X3; destruct (B6 a c V X1 X2) as [a' [Y1 [Y2 Y3]]]; exists a', (c + V).
      split; [exact Y1|]; split; [|split; [exact Y3|]].
      + apply sat_app; split; [exact Y2|].
        destruct (Nat.leb_spec k (length card + length carries)) as [Hk|Hk]; [|apply sat_nil].
        rewrite sat1, guarded_sat, <- (gacTrue_agree n1 a a' gac Y1 Sg1).
        destruct X3 as [X3|[X3 X4]]; [now left | right]; apply lval_neg_true.
        destruct (lval a' (at_ mg (k - 1))) eqn:El; [|reflexivity].
        apply (Y3 k) in El; lia.
      + destruct X3 as [X3|[X3 X4]]; [now left | right]; split; [reflexivity|]; rewrite B4; destruct wd; lia. }
  clear E3; destruct M as [M1 [M2 [M3 [M4 M5]]]].
  destruct (mergeLevels wd gac (m * 2 ^ Z.of_nat p) (S i) rest (evens merged) n2) as [c5 n3] eqn:E5.
  injection E as <- <-.
  assert (L2 : cle n n2) by now apply cle_trans with n1.
  destruct (IH (S i) (evens merged) n2 c5 n3 ltac:(lia)) as [D1 [D2 [D3 D4]]].
  { intros x Hx; apply scoped_le with n; [exact L2 | apply Sb; now right]. }
  { now apply odds_scoped. }
  { destruct gac; [now apply lscope_le with n | exact I]. }
  { exact E5. }
  clear E5.
  assert (L3 : cle n1 n3) by now apply cle_trans with n2.
  split; [now apply cle_trans with n1|].
  split; [|split].
  - assert (S2 : cscoped n1 c2).
    { unfold c2; destruct (Nat.leb_spec k (length b)) as [Hk|Hk]; [|apply cscoped_nil].
      intros c [<-|[]]; apply guarded_scoped; [exact Sg1 | apply lscope_neg, scoped_at; [exact A3 | lia]]. }
    apply cscopedZ_app; split; [now apply cscopedZ_le with n1|].
    apply cscopedZ_app; split; [apply cscoped_Z; now apply cscoped_le with n1|].
    apply cscopedZ_app; split; [apply cscoped_Z; now apply cscoped_le with n2 | exact D2].
  - intros a V Za Ha Ng T HV HVK; rewrite Cut in HVK |- *; cbn [bval].
    apply sat_app in Ha as [H1 Ha]; apply sat_app in Ha as [H2 Ha]; apply sat_app in Ha as [H3 H4].
    specialize (A5 a Za H1).
    assert (HB : count a b < k).
    { unfold c2 in H2; destruct (Nat.leb_spec k (length b)) as [Hk|Hk]; [|pose proof (count_le a b); lia].
      rewrite sat1, guarded_sat in H2; destruct H2 as [H2|H2]; [contradiction|].
      apply lval_neg_true in H2.
      destruct (Nat.lt_ge_cases (count a b) k) as [Hl|Hl]; [exact Hl|].
      rewrite (A5 k) in H2 by lia; discriminate. }
    destruct (M4 a V H3 Ng A5 T HV HVK HB) as [Q1 [Q2 Q3]].
    set (W := count a b + V) in *; pose proof (div2_spec W) as DW.
    destruct (Nat.eq_dec i p) as [Hip|Hip].
    { assert (R : rest = []) by (destruct rest; [reflexivity | cbn [length] in Hlen; lia]); subst rest; cbn [bval]; lia. }
    destruct (Peven ltac:(lia)) as [K' HK'].
    assert (Q4 : (Z.of_nat (W / 2) * 2 ^ Z.of_nat (S i) < m * 2 ^ Z.of_nat p)%Z) by (apply CutS; lia).
    specialize (D3 a (W / 2) Za H4 Ng (proj2 (odds_tr _ _ _ Q2))).
    rewrite evens_length in D3; specialize (D3 ltac:(pose proof (div2_spec (length merged)); lia) Q4).
    apply CutS in D3; lia.
  - intros a V Za X HV.
    destruct (A6 a Za) as [a1 [X1 [X2 [X3 X4]]]].
    assert (Ec : count a1 b = count a b) by exact (agree_count n a a1 b X1 Sbb).
    assert (HV1 : gacTrue a1 gac \/ V <= length carries /\ (Z.of_nat V + bval a (b :: rest) < K)%Z).
    { rewrite <- (gacTrue_agree n a a1 gac X1 Sg); destruct HV as [HV|[HV1 HV2]]; [now left | right].
      split; [exact HV1 | now apply Cut]. }
    cbn [bval] in HV1; pose proof (bval_nonneg a rest) as NB.
    assert (HV2 : gacTrue a1 gac \/ V <= length carries /\ (Z.of_nat (count a b + V) < K)%Z)
      by (destruct HV1 as [|[? ?]]; [now left | right; lia]).
    destruct (M5 a1 V (count a b) (count_le a b) X4 (exO_agree n a a1 _ _ _ X1 Sc X) HV2)
      as [a2 [W [Y1 [Y2 [Y3 Y4]]]]].
    destruct (envZ_unzero_exists z n1 n2 c3 merged W a1 a2 M2 M3 Y1 Y2 Y3) as [a3 [U1 [U2 [U3 U4]]]].
    assert (Ag3 : agree n a a3) by exact (agree_trans n n1 a a1 a3 A1 X1 U1).
    assert (Er : bval a3 rest = bval a rest).
    { apply (agree_bval n); [exact Ag3|]; intros x Hx; apply Sb; now right. }
    destruct (D4 a3 (W / 2) U2 (proj2 (odds_ex _ _ _ U4))) as [a4 [T1 [T2 T3]]].
    { rewrite <- (gacTrue_agree n1 a1 a3 gac U1 Sg1), evens_length.
      destruct Y4 as [Y4|[Y4 Y5]]; [now left|]; destruct HV1 as [HV1|[HV1 HV3]]; [now left | right].
      pose proof (div2_spec W); pose proof (div2_spec (length merged)); split; [lia|].
      apply CutS; rewrite Er; lia. }
    exists a4; split; [exact (agree_trans n n2 a a3 a4 L2 Ag3 T1)|]; split; [exact T2|].
    assert (Ag14 : agree n1 a1 a4) by exact (agree_trans n1 n2 a1 a3 a4 M1 U1 T1).
    apply sat_app; split; [|apply sat_app; split; [|apply sat_app; split; [|exact T3]]].
    + exact (agreeZ_sat z n1 a1 a4 c1 Ag14 X2 T2 A2 X3).
    + unfold c2; destruct (Nat.leb_spec k (length b)) as [Hk|Hk]; [|apply sat_nil].
      rewrite sat1, guarded_sat, <- (gacTrue_agree n1 a1 a4 gac Ag14 Sg1).
      destruct HV2 as [HV2|[HV2 HV3]]; [now left | right]; apply lval_neg_true.
      rewrite (agree_lval n1 a1 a4 _ Ag14) by (apply scoped_at; [exact A3 | lia]).
      destruct (lval a1 (at_ card (k - 1))) eqn:El; [|reflexivity].
      apply (X4 k) in El; lia.
    + exact (agree_sat n2 a3 a4 c3 T1 M2 U3).
Qed.
