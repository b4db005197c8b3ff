(** * The node table of the BDD kernel: invariant, garbage collection, makeNode *)
From Coq Require Import List Bool ZArith Lia.
From Verif Require Import Spec Factory Bdd.
Import ListNotations.
Local Open Scope Z_scope.

(** ** Weakest preconditions: the operation does not panic, unless the table is full *)
Definition kwp {A} (m : K A) (Q : A -> kernel -> Prop) (k : kernel) : Prop :=
  match m k with Ok a k' => Q a k' | Full => True | Bad => False end.
Lemma kwp_ret {A} (a : A) (Q : A -> kernel -> Prop) k : Q a k -> kwp (kret a) Q k.
Proof. auto. Qed.
Lemma kwp_conseq {A} (m : K A) (P Q : A -> kernel -> Prop) k : kwp m P k -> (forall a k', P a k' -> Q a k') -> kwp m Q k.
Proof. unfold kwp. destruct (m k); auto. Qed.
Lemma kwp_bind {A B} (m : K A) (f : A -> K B) (Q : B -> kernel -> Prop) k : kwp m (fun a k' => kwp (f a) Q k') k -> kwp (kbind m f) Q k.
Proof. unfold kwp, kbind. destruct (m k); auto. Qed.
Lemma kwp_bind' {A B} (m : K A) (f : A -> K B) (P : A -> kernel -> Prop) (Q : B -> kernel -> Prop) k : kwp m P k -> (forall a k', P a k' -> kwp (f a) Q k') -> kwp (kbind m f) Q k.
Proof. intros H1 H2. apply kwp_bind. eapply kwp_conseq; eauto. Qed.
Lemma kwp_get (Q : kernel -> kernel -> Prop) k : Q k k -> kwp get Q k.
Proof. auto. Qed.
Lemma kwp_gets {A} (f : kernel -> A) (Q : A -> kernel -> Prop) k : Q (f k) k -> kwp (gets f) Q k.
Proof. auto. Qed.
Lemma kwp_modify f (Q : unit -> kernel -> Prop) k : Q tt (f k) -> kwp (modify f) Q k.
Proof. auto. Qed.
Lemma inRange_true k n : inRange k n = true <-> 0 <= n < nodesize k.
Proof. unfold inRange. rewrite andb_true_iff, Z.leb_le, Z.ltb_lt. tauto. Qed.
Lemma kwp_rd {A} (f : kernel -> Z -> A) n (Q : A -> kernel -> Prop) k : 0 <= n < nodesize k -> Q (f k n) k -> kwp (rd f n) Q k.
Proof. intros H HQ. unfold kwp, rd. apply inRange_true in H. rewrite H. auto. Qed.
Lemma kwp_wr {A} (f : kernel -> Z -> A) w n v (Q : unit -> kernel -> Prop) k : 0 <= n < nodesize k -> Q tt (w (upd (f k) n v) k) -> kwp (wr f w n v) Q k.
Proof. intros H HQ. unfold kwp, wr. apply inRange_true in H. rewrite H. auto. Qed.
Lemma kwp_push n (Q : Z -> kernel -> Prop) k : Z.of_nat (List.length (refstack k)) < cap k -> Q n (with_refstack (n :: refstack k) k) -> kwp (pushRef n) Q k.
Proof. intros H HQ. unfold kwp, pushRef. apply Z.ltb_lt in H. rewrite H. auto. Qed.

Lemma kwp_for_up (I : Z -> kernel -> Prop) body cnt : forall n k (Q : unit -> kernel -> Prop),
  I n k -> (forall j k', n <= j < n + Z.of_nat cnt -> I j k' -> kwp (body j) (fun _ => I (j + 1)) k') ->
  (forall k', I (n + Z.of_nat cnt) k' -> Q tt k') -> kwp (for_up cnt n body) Q k.
Proof.
  induction cnt as [|c IH]; intros n k Q HI Hb HQ; cbn [for_up].
  - apply kwp_ret. apply HQ. replace (n + Z.of_nat 0) with n by lia. auto.
  - apply kwp_bind' with (P := fun _ => I (n + 1)); [apply Hb; auto; lia|]. intros _ k' H'.
    apply IH; auto.
    + intros j k2 Hj. apply Hb. lia.
    + intros k2 H2. apply HQ. replace (n + Z.of_nat (S c)) with (n + 1 + Z.of_nat c) by lia. auto.
Qed.
Lemma kwp_for_down (I : Z -> kernel -> Prop) body cnt : forall n k (Q : unit -> kernel -> Prop),
  I n k -> (forall j k', n - Z.of_nat cnt < j <= n -> I j k' -> kwp (body j) (fun _ => I (j - 1)) k') ->
  (forall k', I (n - Z.of_nat cnt) k' -> Q tt k') -> kwp (for_down cnt n body) Q k.
Proof.
  induction cnt as [|c IH]; intros n k Q HI Hb HQ; cbn [for_down].
  - apply kwp_ret. apply HQ. replace (n - Z.of_nat 0) with n by lia. auto.
  - apply kwp_bind' with (P := fun _ => I (n - 1)); [apply Hb; auto; lia|]. intros _ k' H'.
    apply IH; auto.
    + intros j k2 Hj. apply Hb. lia.
    + intros k2 H2. apply HQ. replace (n - Z.of_nat (S c)) with (n - 1 - Z.of_nat c) by lia. auto.
Qed.
Lemma kwp_for_each {A} (I : list A -> kernel -> Prop) body : forall l k (Q : unit -> kernel -> Prop),
  I l k -> (forall x r k', I (x :: r) k' -> kwp (body x) (fun _ => I r) k') ->
  (forall k', I [] k' -> Q tt k') -> kwp (for_each l body) Q k.
Proof.
  induction l as [|x r IH]; intros k Q HI Hb HQ; cbn [for_each]; [apply kwp_ret; auto|].
  apply kwp_bind' with (P := fun _ => I r); [apply Hb; auto|]. intros _ k' H'. apply IH; auto.
Qed.

Lemma upd_same {A} (m : Z -> A) i v : upd m i v i = v.
Proof. unfold upd. rewrite Z.eqb_refl. auto. Qed.
Lemma upd_other {A} (m : Z -> A) i j v : j <> i -> upd m i v j = m j.
Proof. intros H. unfold upd. apply Z.eqb_neq in H. rewrite H. auto. Qed.

(** ** The invariant of the node table *)
Definition live (k : kernel) (n : Z) : Prop := 2 <= n < nodesize k /\ lows k n <> -1.
Definition valid (k : kernel) (n : Z) : Prop := n = 0 \/ n = 1 \/ live k n.
(** the level of a node, with [vn] for the constants *)
Definition lv (vn : Z) (k : kernel) (n : Z) : Z := if n <? 2 then vn else levels k n.
Definition hk (k : kernel) (n : Z) : Z := nodehash (levels k n) (lows k n) (highs k n) (nodesize k).

(** a linked list through the field [next] *)
Inductive chain (nx : Z -> Z) : Z -> list Z -> Prop :=
| chain_nil : chain nx 0 []
| chain_cons n l : n <> 0 -> chain nx (nx n) l -> chain nx n (n :: l).
(** the nodes from [lo] on are in their hash chains or in the free list *)
Record tab (lo : Z) (k : kernel) : Prop := {
  t_chain : forall h, 0 <= h < nodesize k -> exists l, chain (nexts k) (hashes k h) l /\ NoDup l /\
    forall n, In n l <-> lo <= n < nodesize k /\ lows k n <> -1 /\ hk k n = h;
  t_free : exists l, chain (nexts k) (freepos k) l /\ NoDup l /\ (forall n, In n l <-> lo <= n < nodesize k /\ lows k n = -1) /\
    freenum k = Z.of_nat (List.length l) }.

Record core (vn : Z) (k : kernel) : Prop := {
  c_size : 3 <= nodesize k;
  c_vn : 0 <= vn;
  c_cap : cap k = 2 * vn + 4;
  c_const : lows k 0 = 0 /\ highs k 0 = 0 /\ lows k 1 = 1 /\ highs k 1 = 1;
  c_node : forall n, live k n -> 0 <= levels k n < vn /\ valid k (lows k n) /\ valid k (highs k n) /\ lows k n <> highs k n /\
    levels k n < lv vn k (lows k n) /\ levels k n < lv vn k (highs k n);
  c_mark : forall n, marks k n = false;
  c_ref : forall n, 2 <= n -> ~ live k n -> refcou k n = 0;
  c_ref0 : forall n, 0 <= refcou k n;
  c_uniq : forall n m, live k n -> live k m -> levels k n = levels k m -> lows k n = lows k m -> highs k n = highs k m -> n = m;
  c_grow : forall i n, n <= grow k i n;
  c_cache : 1 <= cachesize k;
  c_stack : Forall (valid k) (refstack k) }.

(** nodes that a garbage collection keeps *)
Definition root (k : kernel) (n : Z) : Prop := In n (refstack k) \/ 0 < refcou k n.
Inductive prot (k : kernel) : Z -> Prop :=
| p_root n : live k n -> root k n -> prot k n
| p_low n : prot k n -> 2 <= lows k n -> prot k (lows k n)
| p_high n : prot k n -> 2 <= highs k n -> prot k (highs k n).
Definition pv (k : kernel) (n : Z) : Prop := n = 0 \/ n = 1 \/ prot k n.

Lemma valid_range vn k n : core vn k -> valid k n -> 0 <= n < nodesize k.
Proof. intros [Hs _ _ _ _ _ _ _ _ _ _] [->|[->|[H _]]]; lia. Qed.
Lemma valid_ge2 k n : valid k n -> 2 <= n -> live k n.
Proof. intros [->|[->|H]]; auto; lia. Qed.
Lemma prot_live vn k n : core vn k -> prot k n -> live k n.
Proof.
  intros C. induction 1 as [n Hl _|n _ IH H2|n _ IH H2]; auto; destruct (c_node _ _ C _ IH) as (_ & V1 & V2 & _); apply valid_ge2; auto.
Qed.
Lemma pv_valid vn k n : core vn k -> pv k n -> valid k n.
Proof. intros C [->|[->|H]]; unfold valid; auto. right; right. eapply prot_live; eauto. Qed.
Lemma pv_low vn k n : core vn k -> prot k n -> pv k (lows k n).
Proof.
  intros C H. destruct (c_node _ _ C _ (prot_live _ _ _ C H)) as (_ & V1 & _). destruct V1 as [E|[E|[HL _]]]; unfold pv; auto.
  right; right. apply p_low; auto. lia.
Qed.
Lemma pv_high vn k n : core vn k -> prot k n -> pv k (highs k n).
Proof.
  intros C H. destruct (c_node _ _ C _ (prot_live _ _ _ C H)) as (_ & _ & V1 & _). destruct V1 as [E|[E|[HL _]]]; unfold pv; auto.
  right; right. apply p_high; auto. lia.
Qed.
Lemma lv_range vn k n : core vn k -> valid k n -> 0 <= lv vn k n <= vn.
Proof.
  intros C H. unfold lv. destruct (Z.ltb_spec n 2); [pose proof (c_vn _ _ C); lia|].
  destruct (c_node _ _ C n) as (Hr & _); [apply valid_ge2; auto|lia].
Qed.
Lemma nodehash_range a b c size : 0 < size -> 0 <= nodehash a b c size < size.
Proof.
  intros H. unfold nodehash. pose proof (Z.rem_bound_abs (triple a b c) size ltac:(lia)). lia.
Qed.

(** ** Marking *)
Definition markspec (vn : Z) (i : Z) (k : kernel) (k' : kernel) : Prop := exists m, k' = with_marks m k /\
  (forall n, marks k n = true -> m n = true) /\
  (forall n, m n = true -> marks k n = true \/ (live k n /\ (lows k n < 2 \/ m (lows k n) = true) /\ (highs k n < 2 \/ m (highs k n) = true))) /\
  (valid k i -> i < 2 \/ m i = true).

(** what marking needs of the table *)
Record mcore (vn : Z) (k : kernel) : Prop := {
  mc_node : forall n, live k n -> 0 <= levels k n < vn /\ valid k (lows k n) /\ valid k (highs k n) /\
    levels k n < lv vn k (lows k n) /\ levels k n < lv vn k (highs k n);
  mc_vn : 0 <= vn; mc_size : 3 <= nodesize k }.
Lemma core_mcore vn k : core vn k -> mcore vn k.
Proof. intros C. constructor; try apply C. intros n Hn. destruct (c_node _ _ C _ Hn) as (A & B & D & _ & E & F). auto. Qed.
Lemma mcore_marks vn k m : mcore vn k -> mcore vn (with_marks m k).
Proof. intros [A B D]. constructor; auto. Qed.

Lemma mark_ok vn : forall d i k, mcore vn k -> 0 <= i < nodesize k -> vn - (if lows k i =? -1 then vn else lv vn k i) < Z.of_nat d -> kwp (mark d i) (fun _ => markspec vn i k) k.
Proof.
  induction d as [|d IH]; intros i k C Hi Hd.
  - exfalso. destruct (lows k i =? -1) eqn:E; [lia|]. unfold lv in Hd. destruct (i <? 2) eqn:E2; [lia|].
    apply Z.ltb_ge in E2. apply Z.eqb_neq in E. destruct (mc_node _ _ C i) as (Hr & _); [split; auto; lia|]. lia.
  - cbn [mark]. destruct (i <? 2) eqn:E2.
    { apply kwp_ret. apply Z.ltb_lt in E2. exists (marks k). split; [destruct k; reflexivity|]. split; auto. }
    apply Z.ltb_ge in E2. apply kwp_bind, kwp_rd; auto. apply kwp_bind, kwp_rd; auto.
    destruct (marks k i) eqn:Em; [|destruct (lows k i =? -1) eqn:El]; cbn [orb].
    { apply kwp_ret. exists (marks k). split; [destruct k; reflexivity|]. split; auto. }
    { apply kwp_ret. apply Z.eqb_eq in El. exists (marks k). split; [destruct k; reflexivity|]. split; auto. split; auto.
      intros [?|[?|[_ ?]]]; lia. }
    apply Z.eqb_neq in El. assert (Li : live k i) by (split; auto; lia). destruct (mc_node _ _ C _ Li) as (Hr & Vl & Vh & Ol & Oh).
    unfold setMark. apply kwp_bind, kwp_wr; auto. cbn beta. set (k1 := with_marks (upd (marks k) i true) k). cbn beta.
    assert (Rng : forall x, valid k x -> 0 <= x < nodesize k). { intros x [->|[->|[H _]]]; pose proof (mc_size _ _ C); lia. }
    apply kwp_bind, kwp_rd; auto. cbn beta. change (lows k1 i) with (lows k i).
    assert (HL : lv vn k i = levels k i). { unfold lv. destruct (Z.ltb_spec i 2); auto; lia. }
    assert (Fuel : forall x k2, valid k x -> levels k i < lv vn k x -> lows k2 = lows k -> levels k2 = levels k -> vn - (if lows k2 x =? -1 then vn else lv vn k2 x) < Z.of_nat d).
    { intros x k2 Vx Ox E1 E3. rewrite E1. unfold lv in *. rewrite E3. destruct (lows k x =? -1) eqn:Ex.
      - rewrite HL in Hd. lia.
      - rewrite HL in Hd. lia. }
    eapply kwp_bind'; [apply IH; [apply mcore_marks; auto|apply Rng; auto|apply Fuel; auto]|].
    intros _ k2 (m2 & -> & Mono2 & Cl2 & Hl2). 
    apply kwp_bind, kwp_rd; [exact Hi|]. 
    eapply kwp_conseq; [apply IH; [apply mcore_marks; exact (mcore_marks _ _ _ C)|apply Rng; auto|apply Fuel; auto]|].
    intros _ k3 (m3 & -> & Mono3 & Cl3 & Hh3). cbn in Mono2, Cl2, Hl2, Mono3, Cl3, Hh3.
    exists m3. split; [reflexivity|]. split; [|split].
    + intros n Hn. apply Mono3, Mono2. unfold upd. destruct (n =? i); auto.
    + intros n Hn. destruct (Cl3 n Hn) as [H3|(H3 & H4 & H5)]; [|right; auto].
      destruct (Cl2 n H3) as [H2|(H2 & H4 & H5)].
      * unfold upd in H2. destruct (Z.eqb_spec n i) as [->|]; [|left; auto]. right. split; [exact Li|].
        split; [destruct (Hl2 Vl); auto|destruct (Hh3 Vh); auto].
      * right. split; [exact H2|]. split; [destruct H4; auto|destruct H5; auto].
    + intros _. right. apply Mono3, Mono2. apply upd_same.
Qed.

(** ** Hash chains and the free list *)
Lemma chain_upd nx x v : forall s l, chain nx s l -> ~ In x l -> chain (upd nx x v) s l.
Proof.
  induction 1 as [|n l Hn _ IH]; intros Hx; constructor; auto. rewrite upd_other; [|intros E; apply Hx; left; auto].
  apply IH. intros H. apply Hx. right; auto.
Qed.
Lemma tab_ext lo k k' : nexts k' = nexts k -> hashes k' = hashes k -> nodesize k' = nodesize k -> lows k' = lows k -> levels k' = levels k ->
  highs k' = highs k -> freepos k' = freepos k -> freenum k' = freenum k -> tab lo k -> tab lo k'.
Proof.
  intros E1 E2 E3 E4 E5 E6 E7 E8 [A B]. constructor; unfold hk in *; rewrite ?E1, ?E2, ?E3, ?E4, ?E5, ?E6, ?E7, ?E8; auto.
Qed.
Lemma rehash_ok n k : tab (n + 1) k -> 2 <= n < nodesize k -> lows k n <> -1 ->
  kwp (rehash n) (fun _ k' => tab n k' /\ exists nx hs, k' = with_hashes hs (with_nexts nx k)) k.
Proof.
  intros T Hn Hl. unfold rehash. pose proof (nodehash_range (levels k n) (lows k n) (highs k n) (nodesize k) ltac:(lia)) as Hh.
  apply kwp_bind, kwp_rd; [lia|]. apply kwp_bind, kwp_rd; [lia|]. apply kwp_bind, kwp_rd; [lia|]. apply kwp_bind, kwp_gets.
  cbv zeta. apply kwp_bind, kwp_rd; [lia|]. apply kwp_bind, kwp_wr; [lia|]. apply kwp_wr; [cbn; lia|].
  fold (hk k n) in Hh |- *. cbn. split; [|eauto]. constructor; cbn.
  - intros h Rh. destruct (t_chain _ _ T h Rh) as (l & C & ND & In_l).
    assert (Nn : ~ In n l). { intros H. apply In_l in H. lia. }
    destruct (Z.eq_dec h (hk k n)) as [->|Hne].
    + exists (n :: l). rewrite upd_same. split; [constructor; [lia|]|split].
      * rewrite upd_same. apply chain_upd; auto.
      * constructor; auto.
      * intros m. split.
        -- intros [<-|Hm]; [|apply In_l in Hm]; repeat split; try tauto; try lia.
        -- intros (H1 & H2 & H3). destruct (Z.eq_dec n m) as [|]; [left; auto|right]. apply In_l. repeat split; auto; lia.
    + exists l. rewrite upd_other by auto. split; [apply chain_upd; auto|split; auto]. intros m. rewrite In_l. unfold hk. cbn. fold (hk k m).
      split; intros (H1 & H2 & H3); repeat split; auto; try lia. destruct (Z.eq_dec n m) as [->|]; [congruence|lia].
  - destruct (t_free _ _ T) as (l & C & ND & In_l & Hf). exists l. split; [apply chain_upd; auto; intros H; apply In_l in H; lia|].
    split; auto. split; auto. intros m. rewrite In_l. split; intros (H1 & H2); repeat split; auto; try lia. destruct (Z.eq_dec n m) as [->|]; [contradiction|lia].
Qed.
Lemma release_ok n k : tab (n + 1) k -> 2 <= n < nodesize k -> lows k n = -1 ->
  kwp (release n) (fun _ k' => tab n k' /\ exists nx fp fn, k' = with_freenum fn (with_freepos fp (with_nexts nx k))) k.
Proof.
  intros T Hn Hl. unfold release. apply kwp_bind, kwp_gets. apply kwp_bind, kwp_wr; [lia|]. apply kwp_bind, kwp_modify. apply kwp_modify.
  cbn. split; [|do 3 eexists; reflexivity]. constructor; cbn.
  - intros h Rh. destruct (t_chain _ _ T h Rh) as (l & C & ND & In_l). exists l.
    split; [apply chain_upd; auto; intros H; apply In_l in H; lia|]. split; auto. intros m. rewrite In_l. unfold hk. cbn. fold (hk k m).
    split; intros (H1 & H2 & H3); repeat split; auto; try lia. destruct (Z.eq_dec n m) as [->|]; [contradiction|lia].
  - destruct (t_free _ _ T) as (l & C & ND & In_l & Hf). exists (n :: l).
    assert (Nn : ~ In n l). { intros H. apply In_l in H. lia. }
    split; [constructor; [lia|]; rewrite upd_same; apply chain_upd; auto|]. split; [constructor; auto|]. split; [|cbn [List.length]; lia].
    intros m. split.
    + intros [<-|Hm]; [|apply In_l in Hm]; repeat split; try tauto; try lia.
    + intros (H1 & H2). destruct (Z.eq_dec n m) as [|]; [left; auto|right]. apply In_l. repeat split; auto; lia.
Qed.

(** what the operations of the table leave unchanged *)
Definition static (k : kernel) :=
  (vlist k, varnodes k, varnum k, cap k, refstack k, level2var k, var2level k, quantvarset k, quantvarsetId k, quantlast k, cachesize k, grow k, (bigs k, bignext k)).

(** ** Garbage collection *)
Definition mclosed (k : kernel) (m : Z -> bool) : Prop :=
  forall n, m n = true -> live k n /\ (lows k n < 2 \/ m (lows k n) = true) /\ (highs k n < 2 \/ m (highs k n) = true).
Definition cleared (k : kernel) : Prop := forall i, e_a (applycache k i) = -1 /\ e_a (quantcache k i) = -1 /\ e_a (misccache k i) = -1.
Record collected (k k' : kernel) : Prop := {
  g_static : static k' = static k; g_ref : refcou k' = refcou k; g_size : nodesize k' = nodesize k;
  g_level : levels k' = levels k; g_high : highs k' = highs k;
  g_const : forall n, n < 2 -> lows k' n = lows k n;
  g_live : forall n, live k' n -> live k n /\ lows k' n = lows k n;
  g_prot : forall n, prot k n -> live k' n;
  g_clear : cleared k' }.

Lemma markspec_closed vn i k m hs k' : markspec vn i (with_hashes hs (with_marks m k)) k' -> mclosed k m ->
  exists m', k' = with_hashes hs (with_marks m' k) /\ mclosed k m' /\ (forall n, m n = true -> m' n = true) /\ (valid k i -> i < 2 \/ m' i = true).
Proof.
  intros (m' & -> & Mono & Cl & Hi) M. cbn in *. exists m'. split; [reflexivity|]. split; [|split; auto].
  intros n Hn. destruct (Cl n Hn) as [H|(H1 & H2 & H3)]; [|split; [exact H1|auto]].
  destruct (M n H) as (A & B & D). split; auto. split; [destruct B; auto|destruct D; auto].
Qed.

Lemma gbc_ok vn k : core vn k -> tab 2 k -> kwp gbc (fun _ k' => core vn k' /\ tab 2 k' /\ collected k k') k.
Proof.
  intros C T. unfold gbc. apply kwp_bind, kwp_get.
  assert (MC : forall m hs, mcore vn (with_hashes hs (with_marks m k))). { intros m hs. destruct (core_mcore _ _ C) as [A B D]. constructor; auto. }
  assert (Fu : forall x, valid k x -> vn - (if lows k x =? -1 then vn else lv vn k x) < Z.of_nat (maxdepth k)).
  { intros x Vx. unfold maxdepth. rewrite (c_cap _ _ C). pose proof (c_vn _ _ C). pose proof (lv_range _ _ _ C Vx). destruct (lows k x =? -1); lia. }
  apply kwp_bind. apply kwp_for_each with (I := fun r k' => exists m, k' = with_hashes (hashes k) (with_marks m k) /\ mclosed k m /\
    (forall x, In x (refstack k) -> In x r \/ x < 2 \/ m x = true) /\ incl r (refstack k)).
  { exists (marks k). split; [destruct k; reflexivity|]. split; [intros n Hn; rewrite (c_mark _ _ C) in Hn; discriminate|].
    split; [intros x Hx; left; apply in_rev in Hx; auto|]. intros x Hx. apply in_rev. auto. }
  { intros x r k' (m & -> & M & St & Inc).
    assert (Vx : valid k x). { pose proof (c_stack _ _ C) as F. rewrite Forall_forall in F. apply F, Inc. left; auto. }
    eapply kwp_conseq; [apply mark_ok with (vn := vn); [apply MC|cbn; eapply valid_range; eauto|exact (Fu x Vx)]|].
    intros [] k' Hm. destruct (markspec_closed _ _ _ _ _ _ Hm M) as (m' & Ek & M' & Mono & Hx); subst k'. exists m'. split; auto. split; auto. split.
    - intros y Hy. destruct (St y Hy) as [[<-|H]|[H|H]]; auto.
    - intros y Hy. apply Inc. right; auto. }
  intros k' (m1 & -> & M1 & St1 & _).
  apply kwp_bind. apply kwp_for_up with (I := fun n k' => exists m hs, k' = with_hashes hs (with_marks m k) /\ mclosed k m /\
    (forall x, In x (refstack k) -> x < 2 \/ m x = true) /\ (forall j, j < n -> 0 < refcou k j -> j < 2 \/ m j = true) /\ (forall j, 0 <= j < n -> hs j = 0)).
  { exists m1, (hashes k). split; auto. split; auto. split; [intros x Hx; destruct (St1 x Hx) as [[]|H]; auto|]. split; [intros; left; lia|intros; lia]. }
  { intros j k' Hj (m & hs & -> & M & St & Rf & Hs). rewrite Z2Nat.id in Hj by (pose proof (c_size _ _ C); lia).
    apply kwp_bind, kwp_rd; [cbn; lia|]. cbn [refcou with_hashes with_marks].
    apply kwp_bind' with (P := fun _ k' => exists m, k' = with_hashes hs (with_marks m k) /\ mclosed k m /\
      (forall x, In x (refstack k) -> x < 2 \/ m x = true) /\ (forall i, i < j + 1 -> 0 < refcou k i -> i < 2 \/ m i = true)).
    - destruct (0 <? refcou k j) eqn:Er.
      + apply Z.ltb_lt in Er. assert (Vj : valid k j).
        { destruct (Z_lt_le_dec j 2); [unfold valid; lia|]. right; right. split; [lia|]. intros E. assert (N : refcou k j = 0).
          { apply (c_ref _ _ C); auto. intros [_ N]. contradiction. } lia. }
        eapply kwp_conseq; [apply mark_ok with (vn := vn); [apply MC|cbn; lia|exact (Fu j Vj)]|].
        intros [] k' Hm. destruct (markspec_closed _ _ _ _ _ _ Hm M) as (m' & Ek & M' & Mono & Hx); subst k'. exists m'. split; auto. split; auto. split.
        * intros x H1. destruct (St x H1); auto.
        * intros i H1 H2. destruct (Z.eq_dec i j) as [->|]; [apply Hx; auto|]. destruct (Rf i); auto; lia.
      + apply kwp_ret. apply Z.ltb_ge in Er. exists m. split; auto. split; auto. split; auto.
        intros i H1 H2. apply Rf; auto. destruct (Z.eq_dec i j) as [->|]; lia.
    - intros _ k' (m' & -> & M' & St' & Rf'). apply kwp_wr; [cbn; lia|]. exists m', (upd hs j 0). split; [reflexivity|]. split; auto. split; auto. split; auto.
      intros i Hi. unfold upd. destruct (Z.eqb_spec i j); auto. apply Hs. lia. }
  intros k' (m & hs & -> & M & St & Rf & Hs). rewrite Z2Nat.id in Rf, Hs by (pose proof (c_size _ _ C); lia). cbn in Rf, Hs.
  apply kwp_bind, kwp_modify. apply kwp_bind, kwp_modify.
  pose proof (c_size _ _ C) as Sz.
  assert (Ml : forall n, m n = true -> live k n) by (intros n H; apply M; auto).
  apply kwp_bind. apply kwp_for_down with (I := fun n k' => exists lw mk hs nx fp fn,
     k' = with_freenum fn (with_freepos fp (with_nexts nx (with_hashes hs (with_marks mk (with_lows lw k))))) /\ tab (n + 1) k' /\
     (forall j, j <= n \/ nodesize k <= j -> lw j = lows k j /\ mk j = m j) /\
     (forall j, n < j < nodesize k -> mk j = false /\ lw j = if m j then lows k j else -1)).
  { exists (lows k), m, hs, (nexts k), 0, 0. split; [destruct k; reflexivity|]. split; [|split; [auto|intros; lia]].
    constructor; cbn.
    - intros h Rh. exists []. rewrite Hs by lia. split; [constructor|]. split; [constructor|]. intros n. split; [intros []|lia].
    - exists []. split; [constructor|]. split; [constructor|]. split; [|auto]. intros n. split; [intros []|lia]. }
  { intros j k' Hj (lw & mk & hs' & nx & fp & fn & -> & Tj & U1 & U2). rewrite Z2Nat.id in Hj by lia.
    destruct (U1 j (or_introl (Z.le_refl j))) as (Lj & Mj).
    apply kwp_bind, kwp_rd; [cbn; lia|]. apply kwp_bind, kwp_rd; [cbn; lia|]. cbn [marks lows with_freenum with_freepos with_nexts with_hashes with_marks with_lows].
    rewrite Lj, Mj. destruct (m j) eqn:Emj; cbn [andb].
    - destruct (Ml j Emj) as (_ & Nj). apply Z.eqb_neq in Nj. rewrite Nj. cbn [negb]. unfold unmarkNode. apply kwp_bind, kwp_wr; [cbn; lia|].
      eapply kwp_conseq; [apply rehash_ok; [|cbn; lia|cbn; rewrite Lj; apply Z.eqb_neq; auto]|].
      + revert Tj. apply tab_ext; cbn; reflexivity.
      + intros _ k' (Tj' & nx' & hs2 & ->). exists lw, (upd mk j false), hs2, nx', fp, fn. split; [reflexivity|]. split; [replace (j - 1 + 1) with j by lia; auto|]. split.
        * intros i Hi. rewrite upd_other by lia. apply U1. lia.
        * intros i Hi. destruct (Z.eq_dec i j) as [->|]; [rewrite upd_same, Emj; auto|]. rewrite upd_other by auto. apply U2. lia.
    - apply kwp_bind, kwp_wr; [cbn; lia|].
      eapply kwp_conseq; [apply release_ok; [|cbn; lia|cbn; apply upd_same]|].
      + destruct Tj as [A B]. constructor; cbn.
        * intros h Rh. destruct (A h Rh) as (l & D1 & D2 & D3). exists l. split; auto. split; auto. intros n. rewrite D3. unfold hk. cbn.
          split; intros (H1 & H2 & H3); (split; [lia|]); rewrite ?upd_other in * by lia; auto.
        * destruct B as (l & D1 & D2 & D3 & D4). exists l. split; auto. split; auto. split; auto. intros n. rewrite D3. cbn.
          split; intros (H1 & H2); (split; [lia|]); rewrite ?upd_other in * by lia; auto.
      + intros _ k' (Tj' & nx' & fp' & fn' & ->). exists (upd lw j (-1)), mk, hs', nx', fp', fn'. split; [reflexivity|]. split; [replace (j - 1 + 1) with j by lia; auto|]. split.
        * intros i Hi. rewrite upd_other by lia. apply U1. lia.
        * intros i Hi. destruct (Z.eq_dec i j) as [->|]; [rewrite upd_same, Emj; auto|]. rewrite upd_other by auto. apply U2. lia. }
  rewrite Z2Nat.id by lia. intros k' (lw & mk & hs' & nx & fp & fn & E & T' & U1 & U2).
  apply kwp_bind, kwp_modify. apply kwp_modify. cbn beta.
  replace (nodesize k - 1 - (nodesize k - 2)) with 1 in * by lia.
  match goal with |- core vn ?x /\ _ => set (kf := x) end.
  assert (EQ : lows kf = lw /\ marks kf = mk /\ levels kf = levels k /\ highs kf = highs k /\ nodesize kf = nodesize k /\ refcou kf = refcou k).
  { subst kf k'. cbn. auto 10. }
  assert (ES : static kf = static k) by (subst kf k'; reflexivity).
  assert (EC : cleared kf) by (subst kf k'; intros i; cbn; auto).
  assert (T2 : tab 2 kf) by (revert T'; apply tab_ext; subst kf; cbn; reflexivity).
  clearbody kf. clear k' E T'. destruct EQ as (El & Em & Elv & Eh & En & Er).
  assert (Lw : forall n, 2 <= n < nodesize k -> lw n = if m n then lows k n else -1) by (intros n Hn; apply U2; lia).
  assert (Lv : forall n, live kf n <-> m n = true).
  { intros n. unfold live. rewrite El, En. split.
    - intros (H1 & H2). rewrite Lw in H2 by lia. destruct (m n); auto.
    - intros H. destruct (Ml n H) as (H1 & H2). split; auto. rewrite Lw, H by lia. auto. }
  assert (Lo : forall n, m n = true -> lw n = lows k n). { intros n H. destruct (Ml n H) as (H1 & H2). rewrite Lw, H by lia. auto. }
  assert (Va : forall x, valid k x -> x < 2 \/ m x = true -> valid kf x).
  { intros x Vx Hx. destruct Vx as [->|[->|[H1 H2]]]; [left; auto|right; left; auto|]. right; right. apply Lv. destruct Hx; auto; lia. }
  assert (EV : forall x, lv vn kf x = lv vn k x) by (intros x; unfold lv; rewrite Elv; auto).
  injection ES as S1 S2 S3 S4 S5 S6 S7 S8 S9 S10 S11 S12 S13.
  split; [|split].
  - destruct C. constructor; rewrite ?En, ?S4, ?S12, ?S11; auto.
    + rewrite El, Eh, !(proj1 (U1 0 ltac:(lia))), !(proj1 (U1 1 ltac:(lia))). auto.
    + intros n Hn. apply Lv in Hn. destruct (c_node0 n (Ml n Hn)) as (A & B & D & E & F & G). destruct (M n Hn) as (_ & M1' & M2').
      rewrite El, Eh, !EV, Elv, Lo by auto. auto 10.
    + intros n. rewrite Em. destruct (Z_lt_le_dec n 2) as [H2|H2]; [|destruct (Z_lt_le_dec n (nodesize k)) as [H3|H3]; [apply U2; lia|]].
      * rewrite (proj2 (U1 n ltac:(lia))). destruct (m n) eqn:Emn; auto. destruct (Ml n Emn); lia.
      * rewrite (proj2 (U1 n ltac:(lia))). destruct (m n) eqn:Emn; auto. destruct (Ml n Emn); lia.
    + intros n H2 Hn. rewrite Er. destruct (Z.eq_dec (refcou k n) 0) as [|Hr]; auto. elim Hn. apply Lv. pose proof (c_ref2 n).
      assert (live k n). { split; [|intros El'; apply Hr; apply c_ref1; auto; intros [_ N]; contradiction].
        split; auto. destruct (Z_lt_le_dec n (nodesize k)); auto. elim Hr. apply c_ref1; auto. intros [Hl _]. lia. }
      match goal with H : live k n |- _ => destruct H as [H3 H4] end. destruct (Rf n) as [?|?]; auto; lia.
    + intros n. rewrite Er. auto.
    + intros a b Ha Hb. apply Lv in Ha, Hb. rewrite El, Elv, Eh, (Lo a Ha), (Lo b Hb). apply c_uniq0; auto.
    + rewrite S5. rewrite Forall_forall in *. auto.
  - exact T2.
  - constructor; auto.
    + unfold static. congruence.
    + intros n Hn. rewrite El. apply U1. lia.
    + intros n Hn. apply Lv in Hn. rewrite El. split; auto.
    + intros n Hn. apply Lv. induction Hn as [n H1 H2|n Hp IH H2|n Hp IH H2].
      * destruct H1 as [H1 H3]. destruct H2 as [H2|H2]; [destruct (St n H2)|destruct (Rf n)]; auto; lia.
      * destruct (M n IH) as (_ & [?|?] & _); auto; lia.
      * destruct (M n IH) as (_ & _ & [?|?]); auto; lia.
Qed.

(** ** Growing the table *)
Definition wtab (k : kernel) fp fn nx hs : kernel := with_freenum fn (with_freepos fp (with_nexts nx (with_hashes hs k))).
Lemma gbcRehash_ok k : 3 <= nodesize k -> (forall h, 0 <= h < nodesize k -> hashes k h = 0) ->
  kwp gbcRehash (fun _ k' => tab 2 k' /\ exists fp fn nx hs, k' = wtab k fp fn nx hs) k.
Proof.
  intros Sz Hs. unfold gbcRehash. apply kwp_bind, kwp_modify. apply kwp_bind, kwp_modify. apply kwp_bind, kwp_get.
  cbn [nodesize with_freenum with_freepos].
  apply kwp_for_down with (I := fun n k' => tab (n + 1) k' /\ exists fp fn nx hs, k' = wtab k fp fn nx hs).
  - split.
    + constructor; cbn.
      * intros h Rh. exists []. rewrite Hs by lia. split; [constructor|]. split; [constructor|]. intros n. split; [intros []|lia].
      * exists []. split; [constructor|]. split; [constructor|]. split; [|reflexivity]. intros n. split; [intros []|lia].
    + exists 0, 0, (nexts k), (hashes k). destruct k; reflexivity.
  - intros j k' Hj (T & fp & fn & nx & hs & ->). rewrite Z2Nat.id in Hj by lia. replace (j - 1 + 1) with j by lia.
    apply kwp_bind, kwp_rd; [cbn; lia|]. cbn [lows wtab with_freenum with_freepos with_nexts with_hashes]. destruct (lows k j =? -1) eqn:El; cbn [negb].
    + eapply kwp_conseq; [apply release_ok; [exact T|cbn; lia|apply Z.eqb_eq in El; exact El]|].
      intros _ k' (T' & nx' & fp' & fn' & ->). split; [exact T'|]. exists fp', fn', nx', hs. reflexivity.
    + eapply kwp_conseq; [apply rehash_ok; [exact T|cbn; lia|apply Z.eqb_neq in El; exact El]|].
      intros _ k' (T' & nx' & hs' & ->). split; [exact T'|]. exists fp, fn, nx', hs'. reflexivity.
  - rewrite Z2Nat.id by lia. intros k' (T & E). replace (nodesize k - 1 - (nodesize k - 2) + 1) with 2 in T by lia. auto.
Qed.

Record grown (k k' : kernel) : Prop := {
  w_static : static k' = static k; w_ref : forall n, refcou k' n = refcou k n; w_size : nodesize k <= nodesize k';
  w_const : forall n, n < 2 -> levels k' n = levels k n /\ lows k' n = lows k n /\ highs k' n = highs k n;
  w_live : forall n, live k' n <-> live k n;
  w_same : forall n, live k n -> levels k' n = levels k n /\ lows k' n = lows k n /\ highs k' n = highs k n;
  w_cache : applycache k' = applycache k /\ quantcache k' = quantcache k /\ misccache k' = misccache k }.

Lemma nodeResize_ok vn k : core vn k -> kwp nodeResize (fun _ k' => core vn k' /\ tab 2 k' /\ grown k k') k.
Proof.
  intros C. unfold nodeResize. apply kwp_bind, kwp_get. cbv zeta. apply kwp_bind, kwp_modify. cbn beta.
  set (old := nodesize k). set (new := grow k (gbcollectnum k) old). pose proof (c_grow _ _ C (gbcollectnum k) old) as Gr. fold new in Gr.
  pose proof (c_size _ _ C) as Sz. fold old in Sz.
  apply kwp_bind. apply kwp_for_up with (I := fun n k' => exists hs, k' = with_hashes hs (with_nodesize new k) /\ forall j, 0 <= j < n -> hs j = 0).
  { exists (hashes k). split; [destruct k; reflexivity|intros; lia]. }
  { intros j k' Hj (hs & -> & H). rewrite Z2Nat.id in Hj by lia. apply kwp_wr; [cbn; lia|]. exists (upd hs j 0). split; [reflexivity|].
    intros i Hi. unfold upd. destruct (Z.eqb_spec i j); auto. apply H. lia. }
  rewrite Z2Nat.id by lia. intros k' (hs & -> & Hs).
  apply kwp_bind. apply kwp_for_up with (I := fun n k' => exists hs rf lvs mk lw nx,
     k' = with_nexts nx (with_lows lw (with_marks mk (with_levels lvs (with_hashes hs (with_refcou rf (with_nodesize new k)))))) /\
     (forall j, 0 <= j < n -> hs j = 0) /\ (forall j, rf j = refcou k j) /\ (forall j, mk j = false) /\
     (forall j, j < old -> lvs j = levels k j /\ lw j = lows k j) /\ (forall j, old <= j < n -> lw j = -1)).
  { exists hs, (refcou k), (levels k), (marks k), (lows k), (nexts k). split; [destruct k; reflexivity|]. split; [exact Hs|]. split; [reflexivity|].
    split; [apply C|]. split; [split; reflexivity|]. intros; lia. }
  { intros j k' Hj (hs' & rf & lvs & mk & lw & nx & -> & H1 & H2 & H3 & H4 & H5). rewrite Z2Nat.id in Hj by lia.
    unfold unmarkNode.
    repeat (apply kwp_bind, kwp_wr; [cbn; lia|]). apply kwp_wr; [cbn; lia|].
    exists (upd hs' j 0), (upd rf j 0), (upd lvs j 0), (upd mk j false), (upd lw j (-1)), (upd nx j (j + 1)).
    split; [reflexivity|]. split; [|split; [|split; [|split]]].
    - intros i Hi. unfold upd. destruct (Z.eqb_spec i j); auto. apply H1. lia.
    - intros i. unfold upd. destruct (Z.eqb_spec i j) as [->|]; auto. symmetry. apply (c_ref _ _ C); [lia|]. intros [Hl _]. fold old in Hl. lia.
    - intros i. unfold upd. destruct (Z.eqb_spec i j); auto.
    - intros i Hi. rewrite !upd_other by lia. auto.
    - intros i Hi. unfold upd. destruct (Z.eqb_spec i j); auto. apply H5. lia. }
  rewrite Z2Nat.id by lia. replace (old + (new - old)) with new by lia. intros k' (hs' & rf & lvs & mk & lw & nx & -> & H1 & H2 & H3 & H4 & H5).
  apply kwp_bind, kwp_gets. apply kwp_bind, kwp_wr; [cbn; lia|]. apply kwp_bind, kwp_modify. apply kwp_bind, kwp_modify.
  eapply kwp_conseq; [apply gbcRehash_ok; [cbn; lia|cbn; exact H1]|].
  intros _ kf (T & fp & fn & nx' & hs2 & E).
  assert (EQ : lows kf = lw /\ marks kf = mk /\ levels kf = lvs /\ highs kf = highs k /\ nodesize kf = new /\ refcou kf = rf /\
    (applycache kf = applycache k /\ quantcache kf = quantcache k /\ misccache kf = misccache k)).
  { subst kf. cbn. auto 10. }
  assert (ES : static kf = static k) by (subst kf; reflexivity).
  clear E. destruct EQ as (El & Em & Elv & Eh & En & Er & Ec).
  assert (Lv : forall n, live kf n <-> live k n).
  { intros n. unfold live. rewrite El, En. fold old. split.
    - intros (A & B). destruct (Z_lt_le_dec n old) as [Hn|Hn]; [|elim B; apply H5; lia]. rewrite (proj2 (H4 n Hn)) in B. split; auto; lia.
    - intros (A & B). rewrite (proj2 (H4 n ltac:(lia))). split; auto; lia. }
  assert (Sm : forall n, live k n -> levels kf n = levels k n /\ lows kf n = lows k n /\ highs kf n = highs k n).
  { intros n [A _]. fold old in A. rewrite El, Elv, Eh. destruct (H4 n ltac:(lia)). auto. }
  assert (Va : forall n, valid k n -> valid kf n). { intros n [?|[?|?]]; [left|right; left|right; right; apply Lv]; auto. }
  assert (EV : forall n, valid k n -> lv vn kf n = lv vn k n).
  { intros n V. unfold lv. destruct (Z.ltb_spec n 2); auto. apply Sm. apply valid_ge2; auto. }
  assert (ES' := ES). injection ES' as S1 S2 S3 S4 S5 S6 S7 S8 S9 S10 S11 S12 S13.
  split; [|split; [exact T|]].
  - destruct C as [A1 A2 A3 A4 A5 A6 A7 A8 A9 A10 A11 A12]. constructor; rewrite ?S4, ?S12, ?S11; auto.
    + lia.
    + rewrite El, Eh, !(proj2 (H4 0 ltac:(lia))), !(proj2 (H4 1 ltac:(lia))). auto.
    + intros n Hn. apply Lv in Hn. destruct (Sm n Hn) as (-> & -> & ->). destruct (A5 n Hn) as (B1 & B2 & B3 & B4 & B5 & B6). rewrite !EV by auto. auto 10.
    + intros n. rewrite Em. auto.
    + intros n Hn Hl. rewrite Er, H2. apply A7; auto. rewrite <- Lv. auto.
    + intros n. rewrite Er, H2. auto.
    + intros a b Ha Hb. apply Lv in Ha, Hb. destruct (Sm a Ha) as (-> & -> & ->), (Sm b Hb) as (-> & -> & ->). auto.
    + rewrite S5. eapply Forall_impl; [|exact A12]. auto.
  - constructor; auto.
    + intros n. rewrite Er. auto.
    + rewrite En. exact Gr.
    + intros n Hn. rewrite El, Elv, Eh. destruct (H4 n ltac:(lia)). auto.
Qed.
