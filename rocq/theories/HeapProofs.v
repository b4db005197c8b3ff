(* Proofs about the variable heap of the SAT solver. *)
From Coq Require Import List ZArith Lia Bool.
From Verif Require Import Queue Heap.
Import ListNotations.
Open Scope nat_scope.

(* --- slice updates --- *)
Fixpoint upd {A} (l : list A) (i : nat) (x : A) : list A :=
  match l, i with
  | [], _ => []
  | _ :: r, O => x :: r
  | a :: r, S j => a :: upd r j x
  end.

Lemma setAt_upd : forall {A} (l : list A) i x, i < length l -> setAt l i x = Some (upd l i x).
Proof.
  induction l as [|a l IH]; intros i x H; [simpl in H; lia|].
  destruct i; simpl; [reflexivity|]. rewrite IH by (simpl in H; lia). reflexivity.
Qed.

Lemma upd_length : forall {A} (l : list A) i x, length (upd l i x) = length l.
Proof. induction l; intros [|i] x; simpl; auto. Qed.

Lemma upd_same : forall {A} (l : list A) i x, i < length l -> nth_error (upd l i x) i = Some x.
Proof. induction l; intros [|i] x H; simpl in *; try lia; auto. apply IHl. lia. Qed.

Lemma upd_other : forall {A} (l : list A) i j x, j <> i -> nth_error (upd l i x) j = nth_error l j.
Proof. induction l; intros [|i] [|j] x H; simpl in *; try lia; auto. Qed.

Lemma ne_lt : forall {A} (l : list A) i x, nth_error l i = Some x -> i < length l.
Proof. intros A l i x H. apply nth_error_Some. congruence. Qed.

Lemma ne_ex : forall {A} (l : list A) i, i < length l -> exists x, nth_error l i = Some x.
Proof.
  intros A l i H. destruct (nth_error l i) eqn:E; [eauto|]. apply nth_error_None in E. lia.
Qed.

(* --- consistency of the two arrays --- *)
Definition cons2 (L : list nat) (I : list Z) : Prop :=
  (forall i v, nth_error L i = Some v -> nth_error I v = Some (Z.of_nat i)) /\
  (forall v k, nth_error I v = Some k -> (0 <= k)%Z -> nth_error L (Z.to_nat k) = Some v).

Lemma cons2_inj : forall L I i j v, cons2 L I ->
  nth_error L i = Some v -> nth_error L j = Some v -> i = j.
Proof. intros L I i j v [C _] A B. apply C in A. apply C in B. rewrite A in B. inversion B. lia. Qed.

Lemma cons2_NoDup : forall L I, cons2 L I -> NoDup L.
Proof.
  intros L I C. apply NoDup_nth_error. intros i j Hi E.
  destruct (ne_ex L i Hi) as (v & V). rewrite V in E. symmetry in E.
  apply (cons2_inj L I i j v C V E).
Qed.

Lemma cons2_lt : forall L I i v, cons2 L I -> nth_error L i = Some v -> v < length I.
Proof. intros L I i v [C _] H. apply C in H. apply (ne_lt _ _ _ H). Qed.

Lemma place_ok : forall h i v, i < length (hp h) -> v < length (ix h) ->
  place h i v = Some (mkHeap (upd (hp h) i v) (upd (ix h) v (Z.of_nat i))).
Proof.
  intros h i v Hi Hv. unfold place, setHp. rewrite (setAt_upd _ _ _ Hi).
  unfold setIx. simpl. rewrite (setAt_upd _ _ _ Hv). reflexivity.
Qed.

(* the pending view of a loop: x is to be written at position j *)
Definition vL (h : heap) (x j : nat) := upd (hp h) j x.
Definition vI (h : heap) (x j : nat) := upd (ix h) x (Z.of_nat j).

Record view (h : heap) (x j : nat) (L : list nat) (I : list Z) : Prop := {
  vw_j : j < length (hp h);
  vw_x : x < length (ix h);
  vw_L : vL h x j = L;
  vw_I : vI h x j = I;
  vw_c : cons2 L I
}.

Lemma view_at : forall h x j L I, view h x j L I -> nth_error L j = Some x.
Proof. intros h x j L I [a b <- d e]. apply upd_same. exact a. Qed.

Lemma view_other : forall h x j L I i, view h x j L I -> i <> j ->
  nth_error L i = nth_error (hp h) i.
Proof. intros h x j L I i [a b <- d e] N. apply upd_other. exact N. Qed.

Lemma view_len : forall h x j L I, view h x j L I -> length L = length (hp h).
Proof. intros h x j L I [a b <- d e]. apply upd_length. Qed.

Lemma view_lenI : forall h x j L I, view h x j L I -> length I = length (ix h).
Proof. intros h x j L I [a b d <- e]. apply upd_length. Qed.

Lemma view_end : forall h x j L I, view h x j L I -> place h j x = Some (mkHeap L I).
Proof.
  intros h x j L I [a b <- <- e]. apply place_ok; assumption.
Qed.

(* the swap of positions j and p *)
Record swapped (L L' : list nat) (j p x y : nat) : Prop := {
  sw_j : nth_error L' j = Some y;
  sw_p : nth_error L' p = Some x;
  sw_o : forall i, i <> j -> i <> p -> nth_error L' i = nth_error L i;
  sw_l : length L' = length L
}.

Lemma swapped_In : forall L L' j p x y, nth_error L j = Some x -> nth_error L p = Some y ->
  swapped L L' j p x y -> forall v, In v L' <-> In v L.
Proof.
  intros L L' j p x y Hx Hy [A B C D] v. split; intros H.
  - apply In_nth_error in H. destruct H as (i & H).
    destruct (Nat.eq_dec i j) as [->|N1].
    + rewrite A in H. inversion H; subst. apply nth_error_In with p. exact Hy.
    + destruct (Nat.eq_dec i p) as [->|N2].
      * rewrite B in H. inversion H; subst. apply nth_error_In with j. exact Hx.
      * rewrite C in H by assumption. apply nth_error_In with i. exact H.
  - apply In_nth_error in H. destruct H as (i & H).
    destruct (Nat.eq_dec i j) as [->|N1].
    + rewrite Hx in H. inversion H; subst. apply nth_error_In with p. exact B.
    + destruct (Nat.eq_dec i p) as [->|N2].
      * rewrite Hy in H. inversion H; subst. apply nth_error_In with j. exact A.
      * rewrite <- C in H by assumption. apply nth_error_In with i. exact H.
Qed.

(* one iteration of a loop: the value y at position p moves to j, the hole moves to p *)
Lemma view_step : forall h x j L I p y, view h x j L I -> p <> j ->
  nth_error (hp h) p = Some y ->
  exists h' L' I', place h j y = Some h' /\ view h' x p L' I' /\ swapped L L' j p x y /\
    length I' = length I.
Proof.
  intros h x j L I p y V Np Hy.
  assert (Vx := view_at _ _ _ _ _ V).
  assert (Vy : nth_error L p = Some y) by (rewrite (view_other _ _ _ _ _ p V Np); exact Hy).
  assert (C := vw_c _ _ _ _ _ V).
  assert (Nxy : x <> y).
  { intros <-. apply Np. apply (cons2_inj L I p j x C Vy Vx). }
  assert (Ly := cons2_lt _ _ _ _ C Vy).
  assert (LI := view_lenI _ _ _ _ _ V). assert (LL := view_len _ _ _ _ _ V).
  assert (Hp : p < length (hp h)) by (apply (ne_lt _ _ _ Hy)).
  assert (Hj := vw_j _ _ _ _ _ V). assert (Hx := vw_x _ _ _ _ _ V).
  exists (mkHeap (upd (hp h) j y) (upd (ix h) y (Z.of_nat j))).
  exists (upd (upd (hp h) j y) p x), (upd (upd (ix h) y (Z.of_nat j)) x (Z.of_nat p)).
  assert (SW : swapped L (upd (upd (hp h) j y) p x) j p x y).
  { constructor.
    - rewrite upd_other by congruence. apply upd_same. exact Hj.
    - apply upd_same. rewrite upd_length. exact Hp.
    - intros i N1 N2. rewrite upd_other by exact N2. rewrite upd_other by exact N1.
      symmetry. apply (view_other _ _ _ _ _ i V N1).
    - rewrite !upd_length. symmetry. exact LL. }
  assert (IX : nth_error (upd (upd (ix h) y (Z.of_nat j)) x (Z.of_nat p)) x = Some (Z.of_nat p)).
  { apply upd_same. rewrite upd_length. exact Hx. }
  assert (IY : nth_error (upd (upd (ix h) y (Z.of_nat j)) x (Z.of_nat p)) y = Some (Z.of_nat j)).
  { rewrite upd_other by congruence. apply upd_same. lia. }
  assert (IO : forall v, v <> x -> v <> y ->
    nth_error (upd (upd (ix h) y (Z.of_nat j)) x (Z.of_nat p)) v = nth_error I v).
  { intros v N1 N2. rewrite upd_other by exact N1. rewrite upd_other by exact N2.
    rewrite <- (vw_I _ _ _ _ _ V). unfold vI. rewrite upd_other by exact N1. reflexivity. }
  split; [apply place_ok; [exact Hj|lia]|].
  split; [|split; [exact SW|rewrite !upd_length; symmetry; exact LI]].
  constructor; simpl; try (rewrite upd_length; lia); try reflexivity.
  destruct C as [C1 C2]. destruct SW as [S1 S2 S3 S4]. split.
  - intros i v Hi. destruct (Nat.eq_dec i j) as [->|N1].
    + rewrite S1 in Hi. inversion Hi; subst v. exact IY.
    + destruct (Nat.eq_dec i p) as [->|N2].
      * rewrite S2 in Hi. inversion Hi; subst v. exact IX.
      * rewrite S3 in Hi by assumption.
        rewrite IO; [apply C1; exact Hi| |].
        -- intros ->. apply N1. apply C1 in Hi. apply C1 in Vx. rewrite Vx in Hi. inversion Hi. lia.
        -- intros ->. apply N2. apply C1 in Hi. apply C1 in Vy. rewrite Vy in Hi. inversion Hi. lia.
  - intros v k Hk K0. destruct (Nat.eq_dec v x) as [->|N1].
    + rewrite IX in Hk. inversion Hk. rewrite Nat2Z.id. exact S2.
    + destruct (Nat.eq_dec v y) as [->|N2].
      * rewrite IY in Hk. inversion Hk. rewrite Nat2Z.id. exact S1.
      * rewrite IO in Hk by assumption. assert (G := C2 v k Hk K0).
        rewrite S3; [exact G| |].
        -- intros E. rewrite E in G. rewrite Vx in G. congruence.
        -- intros E. rewrite E in G. rewrite Vy in G. congruence.
Qed.

(* --- heap order --- *)
Section Order.
Variable act : nat -> Z.
Notation lt := (actLt act).

(* the activity of the variable at position i *)
Definition val (L : list nat) (i : nat) : Z := act (nth i L 0).

Lemma val_at : forall L i v, nth_error L i = Some v -> val L i = act v.
Proof. intros L i v H. unfold val. rewrite (nth_error_nth L i 0 H). reflexivity. Qed.

(* every child at a position whose parent is >= k is not more active than its parent *)
Definition orderFrom (k : nat) (L : list nat) : Prop :=
  forall i, 0 < i -> i < length L -> k <= parent i -> (val L i <= val L (parent i))%Z.

Definition upGap (L : list nat) (j : nat) : Prop :=
  (forall i, 0 < i -> i < length L -> i <> j -> (val L i <= val L (parent i))%Z) /\
  (forall c, 0 < c -> c < length L -> parent c = j -> 0 < j -> (val L c <= val L (parent j))%Z).

Definition downGap (k : nat) (L : list nat) (p : nat) : Prop :=
  (forall i, 0 < i -> i < length L -> k <= parent i -> parent i <> p -> (val L i <= val L (parent i))%Z) /\
  (forall c, 0 < c -> c < length L -> parent c = p -> 0 < p -> k <= parent p -> (val L c <= val L (parent p))%Z).

Lemma parent_lt : forall j, 0 < j -> parent j < j.
Proof. intros j H. unfold parent. rewrite Nat.div2_div. assert (H0 := Nat.div_le_upper_bound (j-1) 2 (j-1)). lia. Qed.

Lemma parent_left : forall p, parent (left p) = p.
Proof. intros p. unfold parent, left. rewrite Nat.div2_div. replace (p*2+1-1) with (p*2) by lia. apply Nat.div_mul. lia. Qed.

Lemma parent_right : forall p, parent (right p) = p.
Proof.
  intros p. unfold parent, right. rewrite Nat.div2_div.
  replace ((p+1)*2-1) with (1 + p*2) by lia. rewrite Nat.div_add by lia. reflexivity.
Qed.

Lemma child_cases : forall c p, 0 < c -> parent c = p -> c = left p \/ c = right p.
Proof.
  intros c p H E. unfold parent in E. rewrite Nat.div2_div in E. unfold left, right.
  assert (D := Nat.div_mod (c - 1) 2 ltac:(lia)). assert (M := Nat.mod_upper_bound (c - 1) 2 ltac:(lia)).
  lia.
Qed.

Lemma swapped_val : forall L L' j p x y, swapped L L' j p x y ->
  val L' j = act y /\ val L' p = act x /\
  (forall i, i < length L -> i <> j -> i <> p -> val L' i = val L i).
Proof.
  intros L L' j p x y [A B C D]. split; [apply val_at; exact A|]. split; [apply val_at; exact B|].
  intros i Hi N1 N2. destruct (ne_ex L i Hi) as (v & V).
  rewrite (val_at L i v V). apply val_at. rewrite C by assumption. exact V.
Qed.

(* the result of a loop *)
Record done (L : list nat) (I : list Z) (h : heap) : Prop := {
  dn_c : cons2 (hp h) (ix h);
  dn_in : forall v, In v (hp h) <-> In v L;
  dn_l : length (hp h) = length L;
  dn_i : length (ix h) = length I
}.

Lemma upLoop_ok : forall fuel x j h L I, view h x j L I -> j < fuel ->
  exists h', upLoop fuel lt x j h = Some h' /\ done L I h' /\
    (upGap L j -> orderFrom 0 (hp h')).
Proof.
  induction fuel as [|fuel IH]; intros x j h L I V Hf; [lia|]. cbn [upLoop].
  assert (Dn : done L I (mkHeap L I)).
  { constructor; simpl; auto; [apply (vw_c _ _ _ _ _ V)|tauto]. }
  destruct (j =? 0) eqn:J0.
  - apply Nat.eqb_eq in J0. subst j. rewrite (view_end _ _ _ _ _ V).
    exists (mkHeap L I). split; [reflexivity|]. split; [exact Dn|].
    intros [G _] i A B _. simpl in *. apply G; lia.
  - apply Nat.eqb_neq in J0. assert (PL := parent_lt j ltac:(lia)).
    assert (Hj := vw_j _ _ _ _ _ V).
    destruct (ne_ex (hp h) (parent j) ltac:(lia)) as (y & Hy). rewrite Hy.
    assert (Vx := view_at _ _ _ _ _ V).
    assert (Vy : nth_error L (parent j) = Some y) by (rewrite (view_other _ _ _ _ _ _ V); [exact Hy|lia]).
    assert (LL := view_len _ _ _ _ _ V).
    destruct (lt x y) eqn:Cmp.
    + unfold actLt in Cmp. apply Z.ltb_lt in Cmp.
      destruct (view_step h x j L I (parent j) y V ltac:(lia) Hy) as (h' & L' & I' & P & V' & SW & LI').
      rewrite P. destruct (IH x (parent j) h' L' I' V' ltac:(lia)) as (h'' & R & D & O).
      exists h''. split; [exact R|]. split.
      * destruct D as [D1 D2 D3 D4]. constructor; auto.
        -- intros v. rewrite D2. apply (swapped_In L L' j (parent j) x y Vx Vy SW).
        -- rewrite D3. apply (sw_l _ _ _ _ _ _ SW).
        -- lia.
      * intros [G1 G2]. apply O.
        destruct (swapped_val _ _ _ _ _ _ SW) as (W1 & W2 & W3).
        assert (SL := sw_l _ _ _ _ _ _ SW).
        assert (X := val_at _ _ _ Vx). assert (Y := val_at _ _ _ Vy).
        assert (OJ : forall i, 0 < i -> i < length L -> i <> j -> i <> parent j -> 
                      parent i <> j -> parent i <> parent j -> (val L' i <= val L' (parent i))%Z).
        { intros i A B N1 N2 N3 N4. rewrite W3 by lia.
          rewrite W3; try lia; [apply G1; lia|]. assert (Q := parent_lt i A). lia. }
        split.
        -- intros i A B N. rewrite SL in B.
           destruct (Nat.eq_dec i j) as [->|N1]; [rewrite W1, W2; lia|].
           destruct (Nat.eq_dec (parent i) j) as [E|N3].
           ++ rewrite (W3 i) by lia. rewrite E, W1, <- Y. apply G2; lia.
           ++ destruct (Nat.eq_dec (parent i) (parent j)) as [E|N4]; [|apply OJ; assumption].
              rewrite (W3 i) by lia. rewrite E, W2.
              assert (Q := G1 i A B N1). rewrite E, Y in Q. lia.
        -- intros c A B E Pp. rewrite SL in B.
           assert (PP := parent_lt (parent j) Pp).
           rewrite (W3 (parent (parent j))) by lia.
           assert (Q := G1 (parent j) Pp ltac:(lia) ltac:(lia)). rewrite Y in Q.
           destruct (Nat.eq_dec c j) as [->|N1]; [rewrite W1; exact Q|].
           rewrite (W3 c); try lia; [|intros F; rewrite F in E; lia].
           assert (Q2 := G1 c A B N1). rewrite E, Y in Q2. lia.
    + unfold actLt in Cmp. apply Z.ltb_ge in Cmp.
      rewrite (view_end _ _ _ _ _ V).
      exists (mkHeap L I). split; [reflexivity|]. split; [exact Dn|].
      intros [G _] i A B _. simpl in *.
      destruct (Nat.eq_dec i j) as [->|N]; [|apply G; lia].
      rewrite (val_at _ _ _ Vx), (val_at _ _ _ Vy). exact Cmp.
Qed.

Lemma downLoop_ok : forall fuel x p h L I, view h x p L I -> length L < p + fuel ->
  exists h', downLoop fuel lt x p h = Some h' /\ done L I h' /\
    (forall k, k <= p -> downGap k L p -> orderFrom k (hp h')).
Proof.
  induction fuel as [|fuel IH]; intros x p h L I V Hf.
  { assert (Hj := vw_j _ _ _ _ _ V). assert (LL := view_len _ _ _ _ _ V). lia. }
  cbn [downLoop].
  assert (Dn : done L I (mkHeap L I)).
  { constructor; simpl; auto; [apply (vw_c _ _ _ _ _ V)|tauto]. }
  assert (Hj := vw_j _ _ _ _ _ V). assert (LL := view_len _ _ _ _ _ V).
  assert (Vx := view_at _ _ _ _ _ V). assert (X := val_at _ _ _ Vx).
  assert (STOP : (forall c, 0 < c -> c < length L -> parent c = p -> (val L c <= act x)%Z) ->
     exists h', Some (mkHeap L I) = Some h' /\ done L I h' /\
       (forall k, k <= p -> downGap k L p -> orderFrom k (hp h'))).
  { intros H. exists (mkHeap L I). split; [reflexivity|]. split; [exact Dn|].
    intros k Kp [G _] i A B C. simpl in *.
    destruct (Nat.eq_dec (parent i) p) as [E|N]; [rewrite E, X; apply H; assumption|apply G; assumption]. }
  destruct (left p <? length (hp h)) eqn:LP.
  2:{ apply Nat.ltb_ge in LP. rewrite (view_end _ _ _ _ _ V). apply STOP.
      intros c A B E. destruct (child_cases c p A E) as [-> | ->]; unfold left, right in *; lia. }
  apply Nat.ltb_lt in LP.
  destruct (ne_ex (hp h) (left p) LP) as (l & Hl). rewrite Hl.
  set (cv := match nth_error (hp h) (right p) with
             | Some r => if lt r l then (right p, r) else (left p, l)
             | None => (left p, l) end).
  assert (CV : nth_error (hp h) (fst cv) = Some (snd cv) /\ parent (fst cv) = p /\ p < fst cv /\
               (forall c, 0 < c -> c < length L -> parent c = p -> (val L c <= act (snd cv))%Z)).
  { assert (Vl : nth_error L (left p) = Some l).
    { rewrite (view_other _ _ _ _ _ _ V); [exact Hl|unfold left; lia]. }
    assert (Vr : forall r, nth_error (hp h) (right p) = Some r -> nth_error L (right p) = Some r).
    { intros r Hr. rewrite (view_other _ _ _ _ _ _ V); [exact Hr|unfold right; lia]. }
    subst cv. destruct (nth_error (hp h) (right p)) as [r|] eqn:Hr.
    - assert (Vr' := Vr r eq_refl).
      destruct (lt r l) eqn:Cmp; unfold actLt in Cmp;
        [apply Z.ltb_lt in Cmp|apply Z.ltb_ge in Cmp]; simpl.
      + split; [exact Hr|]. split; [apply parent_right|]. split; [unfold right; lia|].
        intros c A B E. destruct (child_cases c p A E) as [-> | ->];
          [rewrite (val_at _ _ _ Vl)|rewrite (val_at _ _ _ Vr')]; lia.
      + split; [exact Hl|]. split; [apply parent_left|]. split; [unfold left; lia|].
        intros c A B E. destruct (child_cases c p A E) as [-> | ->];
          [rewrite (val_at _ _ _ Vl)|rewrite (val_at _ _ _ Vr')]; lia.
    - simpl. split; [exact Hl|]. split; [apply parent_left|]. split; [unfold left; lia|].
      apply nth_error_None in Hr.
      intros c A B E. destruct (child_cases c p A E) as [-> | ->]; [|lia].
      rewrite (val_at _ _ _ Vl). lia. }
  clearbody cv. destruct cv as (c & w). cbn [fst snd] in *.
  destruct CV as (Hw & Pc & Lc & Mx).
  destruct (lt w x) eqn:Cmp; unfold actLt in Cmp; [apply Z.ltb_lt in Cmp|apply Z.ltb_ge in Cmp].
  - destruct (view_step h x p L I c w V ltac:(lia) Hw) as (h' & L' & I' & P & V' & SW & LI').
    rewrite P. assert (SL := sw_l _ _ _ _ _ _ SW).
    destruct (IH x c h' L' I' V' ltac:(lia)) as (h'' & R & D & O).
    assert (Vw : nth_error L c = Some w) by (rewrite (view_other _ _ _ _ _ _ V); [exact Hw|lia]).
    exists h''. split; [exact R|]. split.
    + destruct D as [D1 D2 D3 D4]. constructor; auto; try lia.
      intros v. rewrite D2. apply (swapped_In L L' p c x w Vx Vw SW).
    + intros k Kp [G1 G2]. apply O; [lia|].
      destruct (swapped_val _ _ _ _ _ _ SW) as (W1 & W2 & W3).
      assert (W := val_at _ _ _ Vw).
      assert (Lw := ne_lt _ _ _ Vw).
      split.
      * intros i A B Ki N. rewrite SL in B.
        assert (Pi := parent_lt i A).
        destruct (Nat.eq_dec i p) as [->|N1].
        -- rewrite W1. rewrite W3 by lia. rewrite <- W. apply G2; auto; lia.
        -- destruct (Nat.eq_dec i c) as [->|N2].
           ++ rewrite Pc, W1, W2. lia.
           ++ rewrite (W3 i) by lia. destruct (Nat.eq_dec (parent i) p) as [E|N3].
              ** rewrite E, W1. apply Mx; assumption.
              ** rewrite W3 by lia. apply G1; assumption.
      * intros d A B E C0 Kc. rewrite SL in B. rewrite Pc, W1.
        assert (Pd := parent_lt d A). rewrite (W3 d) by lia.
        rewrite <- W, <- E. apply G1; try assumption; lia.
  - rewrite (view_end _ _ _ _ _ V). apply STOP.
    intros d A B E. assert (Q := Mx d A B E). lia.
Qed.

Lemma hp_eta : forall h, mkHeap (hp h) (ix h) = h.
Proof. intros [a b]; reflexivity. Qed.

Lemma upd_id : forall {A} (l : list A) i x, nth_error l i = Some x -> upd l i x = l.
Proof.
  induction l as [|a l IH]; intros [|i] x H; simpl in *; try discriminate.
  - inversion H; reflexivity.
  - f_equal. apply IH. exact H.
Qed.

Lemma view_id : forall h j x, cons2 (hp h) (ix h) -> nth_error (hp h) j = Some x ->
  view h x j (hp h) (ix h).
Proof.
  intros h j x C H. assert (H1 := proj1 C _ _ H).
  constructor; [apply (ne_lt _ _ _ H)|apply (ne_lt _ _ _ H1)| | |exact C].
  - apply upd_id. exact H.
  - apply upd_id. exact H1.
Qed.

Lemma percolateUp_ok : forall h j, cons2 (hp h) (ix h) -> j < length (hp h) ->
  exists h', percolateUp lt j h = Some h' /\ done (hp h) (ix h) h' /\
    (upGap (hp h) j -> orderFrom 0 (hp h')).
Proof.
  intros h j C H. destruct (ne_ex _ _ H) as (x & Hx). unfold percolateUp. rewrite Hx.
  apply upLoop_ok; [apply view_id; assumption|lia].
Qed.

Lemma percolateDown_ok : forall h j, cons2 (hp h) (ix h) -> j < length (hp h) ->
  exists h', percolateDown lt j h = Some h' /\ done (hp h) (ix h) h' /\
    (forall k, k <= j -> downGap k (hp h) j -> orderFrom k (hp h')).
Proof.
  intros h j C H. destruct (ne_ex _ _ H) as (x & Hx). unfold percolateDown. rewrite Hx.
  apply downLoop_ok; [apply view_id; assumption|lia].
Qed.

Lemma inHeap_spec : forall h v, cons2 (hp h) (ix h) -> (inHeap h v = true <-> In v (hp h)).
Proof.
  intros h v [C1 C2]. unfold inHeap. split; intros H.
  - destruct (nth_error (ix h) v) as [k|] eqn:E; [|discriminate]. apply Z.leb_le in H.
    apply nth_error_In with (Z.to_nat k). apply C2; assumption.
  - apply In_nth_error in H. destruct H as (i & H). rewrite (C1 i v H). apply Z.leb_le. lia.
Qed.

(* --- the operations --- *)
Lemma decrease_ok : forall h v, cons2 (hp h) (ix h) -> In v (hp h) ->
  exists h' j, nth_error (hp h) j = Some v /\ decrease lt v h = Some h' /\ done (hp h) (ix h) h' /\
    (upGap (hp h) j -> orderFrom 0 (hp h')).
Proof.
  intros h v C H. apply In_nth_error in H. destruct H as (i & H).
  unfold decrease. rewrite (proj1 C i v H).
  replace (0 <=? Z.of_nat i)%Z with true by (symmetry; apply Z.leb_le; lia).
  rewrite Nat2Z.id. destruct (percolateUp_ok h i C (ne_lt _ _ _ H)) as (h' & A & B & D).
  exists h', i. auto.
Qed.

Lemma nth_error_app_last : forall (l : list nat) n, nth_error (l ++ [n]) (length l) = Some n.
Proof. intros l n. rewrite nth_error_app2 by lia. rewrite Nat.sub_diag. reflexivity. Qed.

Lemma grow_nth : forall (l : list Z) n v k, nth_error (l ++ repeat (-1)%Z n) v = Some k ->
  (0 <= k)%Z -> nth_error l v = Some k.
Proof.
  intros l n v k H K. destruct (Nat.lt_ge_cases v (length l)) as [A|A].
  - rewrite nth_error_app1 in H by exact A. exact H.
  - rewrite nth_error_app2 in H by exact A. apply nth_error_In in H. apply repeat_spec in H. lia.
Qed.

Lemma append_cons2 : forall L I n, cons2 L I -> ~ In n L -> n < length I ->
  cons2 (L ++ [n]) (upd I n (Z.of_nat (length L))).
Proof.
  intros L I n C Nn Ln. split.
  - intros i v Hi. destruct (Nat.lt_ge_cases i (length L)) as [A|A].
    + rewrite nth_error_app1 in Hi by exact A.
      rewrite upd_other; [apply (proj1 C); exact Hi|].
      intros ->. apply Nn. apply nth_error_In with i. exact Hi.
    + assert (B := ne_lt _ _ _ Hi). rewrite app_length in B. simpl in B.
      assert (i = length L) by lia. subst i. rewrite nth_error_app_last in Hi. inversion Hi; subst.
      apply upd_same. exact Ln.
  - intros v k Hk K. destruct (Nat.eq_dec v n) as [->|N].
    + rewrite upd_same in Hk by exact Ln. inversion Hk. rewrite Nat2Z.id. apply nth_error_app_last.
    + rewrite upd_other in Hk by exact N. assert (G := proj2 C v k Hk K).
      rewrite nth_error_app1; [exact G|apply (ne_lt _ _ _ G)].
Qed.

Lemma grow_cons2 : forall L I n, cons2 L I -> cons2 L (I ++ repeat (-1)%Z n).
Proof.
  intros L I n C. split.
  - intros i v Hi. assert (G := proj1 C i v Hi). rewrite nth_error_app1; [exact G|apply (ne_lt _ _ _ G)].
  - intros v k Hk K. apply (proj2 C); [|exact K]. apply (grow_nth _ _ _ _ Hk K).
Qed.

Lemma val_app : forall L n i, i < length L -> val (L ++ [n]) i = val L i.
Proof. intros L n i H. unfold val. rewrite app_nth1 by exact H. reflexivity. Qed.

Lemma insert_ok : forall h n, cons2 (hp h) (ix h) -> ~ In n (hp h) ->
  exists h', insert lt n h = Some h' /\ cons2 (hp h') (ix h') /\
    (forall v, In v (hp h') <-> In v (hp h) \/ v = n) /\
    length (ix h') = Nat.max (length (ix h)) (S n) /\
    (orderFrom 0 (hp h) -> orderFrom 0 (hp h')).
Proof.
  intros h n C Nn. unfold insert.
  set (h1 := growIx h (n + 1)).
  assert (L1 : length (ix h1) = Nat.max (length (ix h)) (S n)).
  { simpl. rewrite app_length, repeat_length. lia. }
  assert (C1 : cons2 (hp h1) (ix h1)) by (apply grow_cons2; exact C).
  change (hp h) with (hp h1) in *.
  clearbody h1.
  unfold setIx. rewrite setAt_upd by lia. cbn [hp ix].
  set (h3 := mkHeap (hp h1 ++ [n]) (upd (ix h1) n (Z.of_nat (length (hp h1))))).
  assert (C3 : cons2 (hp h3) (ix h3)) by (apply append_cons2; [exact C1|exact Nn|lia]).
  destruct (decrease_ok h3 n C3) as (h' & j & Hj & E & D & O).
  { simpl. apply in_or_app. right. left. reflexivity. }
  exists h'. split; [exact E|]. destruct D as [D1 D2 D3 D4].
  split; [exact D1|]. split.
  { intros v. rewrite D2. simpl. rewrite in_app_iff. simpl. intuition. }
  split.
  { rewrite D4. simpl. rewrite upd_length. exact L1. }
  intros Ord. apply O.
  assert (J : j = length (hp h1)).
  { apply (cons2_inj _ _ _ _ n C3 Hj). simpl. apply nth_error_app_last. }
  subst j. simpl. split.
  - intros i A B N. rewrite app_length in B. simpl in B. assert (P := parent_lt i A).
    rewrite !val_app by lia. apply Ord; lia.
  - intros c A B Q. rewrite app_length in B. simpl in B. assert (P := parent_lt c A). lia.
Qed.

Lemma order_top : forall L, orderFrom 0 L -> forall i, i < length L -> (val L i <= val L 0)%Z.
Proof.
  intros L O i. induction i as [i IH] using (well_founded_induction lt_wf). intros H.
  destruct i as [|i]; [lia|].
  assert (P := parent_lt (S i) ltac:(lia)).
  assert (A := O (S i) ltac:(lia) H ltac:(lia)).
  assert (B := IH (parent (S i)) P ltac:(lia)). lia.
Qed.

Lemma removelast_nth : forall (l : list nat) i, i < length l - 1 -> nth_error (removelast l) i = nth_error l i.
Proof.
  induction l as [|a l IH]; intros i H; [simpl in H; lia|].
  destruct l as [|b l]; [simpl in H; lia|].
  change (removelast (a :: b :: l)) with (a :: removelast (b :: l)).
  destruct i; [reflexivity|]. simpl nth_error at 1. rewrite IH by (simpl in *; lia). reflexivity.
Qed.

Lemma removelast_len : forall (l : list nat), length (removelast l) = length l - 1.
Proof.
  induction l as [|a l IH]; [reflexivity|]. destruct l as [|b l]; [reflexivity|].
  change (removelast (a :: b :: l)) with (a :: removelast (b :: l)). simpl in *. lia.
Qed.

Lemma last_nth : forall (l : list nat), l <> [] -> nth_error l (length l - 1) = Some (last l 0).
Proof.
  induction l as [|a l IH]; intros H; [congruence|]. destruct l as [|b l]; [reflexivity|].
  change (last (a :: b :: l) 0) with (last (b :: l) 0).
  rewrite <- IH by discriminate. simpl. rewrite Nat.sub_0_r. reflexivity.
Qed.

(* taking variable x out at position j: the last element takes its place *)
Lemma take_ok : forall h j x, cons2 (hp h) (ix h) -> nth_error (hp h) j = Some x ->
  j < length (hp h) - 1 ->
  let L := removelast (upd (hp h) j (last (hp h) 0)) in
  let I := upd (upd (ix h) (last (hp h) 0) (Z.of_nat j)) x (-1)%Z in
  cons2 L I /\ (forall v, In v L <-> In v (hp h) /\ v <> x) /\ length L = length (hp h) - 1 /\
  nth_error L j = Some (last (hp h) 0) /\
  (forall i, i < length L -> i <> j -> nth_error L i = nth_error (hp h) i).
Proof.
  intros h j x C Hx Hj L I.
  assert (Hl := last_nth (hp h) ltac:(destruct (hp h); simpl in *; [lia|discriminate])).
  set (y := last (hp h) 0) in *.
  assert (Nxy : x <> y).
  { intros E. rewrite <- E in Hl. assert (Q := cons2_inj _ _ _ _ _ C Hx Hl). lia. }
  assert (LL : length L = length (hp h) - 1) by (subst L; rewrite removelast_len, upd_length; reflexivity).
  assert (LJ : nth_error L j = Some y).
  { subst L. rewrite removelast_nth by (rewrite upd_length; lia). apply upd_same. lia. }
  assert (LO : forall i, i < length L -> i <> j -> nth_error L i = nth_error (hp h) i).
  { intros i A N. subst L. rewrite removelast_nth by (rewrite upd_length; lia). apply upd_other. exact N. }
  assert (Hxi := cons2_lt _ _ _ _ C Hx). assert (Hyi := cons2_lt _ _ _ _ C Hl).
  assert (IX : nth_error I x = Some (-1)%Z) by (apply upd_same; rewrite upd_length; exact Hxi).
  assert (IY : nth_error I y = Some (Z.of_nat j)).
  { subst I. rewrite upd_other by congruence. apply upd_same. exact Hyi. }
  assert (IO : forall v, v <> x -> v <> y -> nth_error I v = nth_error (ix h) v).
  { intros v A B. subst I. rewrite upd_other by exact A. apply upd_other. exact B. }
  clearbody L I.
  split; [|split; [|auto]].
  - split.
    + intros i v Hi. assert (Li := ne_lt _ _ _ Hi). destruct (Nat.eq_dec i j) as [->|N].
      * rewrite LJ in Hi. inversion Hi; subst. exact IY.
      * rewrite LO in Hi by assumption. rewrite IO; [apply (proj1 C); exact Hi| |].
        -- intros ->. apply N. apply (cons2_inj _ _ _ _ _ C Hi Hx).
        -- intros ->. assert (Q := cons2_inj _ _ _ _ _ C Hi Hl). lia.
    + intros v k Hk K. destruct (Nat.eq_dec v x) as [->|N1].
      * rewrite IX in Hk. inversion Hk. lia.
      * destruct (Nat.eq_dec v y) as [->|N2].
        -- rewrite IY in Hk. inversion Hk. rewrite Nat2Z.id. exact LJ.
        -- rewrite IO in Hk by assumption. assert (G := proj2 C v k Hk K).
           rewrite LO; [exact G| |].
           ++ assert (Q := ne_lt _ _ _ G). rewrite LL.
              destruct (Nat.eq_dec (Z.to_nat k) (length (hp h) - 1)) as [E|]; [|lia].
              rewrite E, Hl in G. congruence.
           ++ intros E. rewrite E, Hx in G. congruence.
  - intros v. split.
    + intros H. apply In_nth_error in H. destruct H as (i & Hi). assert (Li := ne_lt _ _ _ Hi).
      destruct (Nat.eq_dec i j) as [->|N].
      * rewrite LJ in Hi. inversion Hi; subst v. split; [apply nth_error_In with (length (hp h) - 1); exact Hl|congruence].
      * rewrite LO in Hi by assumption. split; [apply nth_error_In with i; exact Hi|].
        intros ->. apply N. apply (cons2_inj _ _ _ _ _ C Hi Hx).
    + intros [H N]. apply In_nth_error in H. destruct H as (i & Hi). assert (Li := ne_lt _ _ _ Hi).
      destruct (Nat.eq_dec i (length (hp h) - 1)) as [->|N2].
      * rewrite Hl in Hi. inversion Hi; subst v. apply nth_error_In with j. exact LJ.
      * apply nth_error_In with i. rewrite LO; [exact Hi|lia|].
        intros ->. rewrite Hx in Hi. congruence.
Qed.

(* taking out the last element *)
Lemma takeLast_ok : forall h x, cons2 (hp h) (ix h) -> nth_error (hp h) (length (hp h) - 1) = Some x ->
  cons2 (removelast (hp h)) (upd (ix h) x (-1)%Z) /\
  (forall v, In v (removelast (hp h)) <-> In v (hp h) /\ v <> x).
Proof.
  intros h x C Hx. assert (Lx := ne_lt _ _ _ Hx).
  assert (Hxi := cons2_lt _ _ _ _ C Hx).
  assert (LR : forall i v, nth_error (removelast (hp h)) i = Some v ->
             i < length (hp h) - 1 /\ nth_error (hp h) i = Some v).
  { intros i v H. assert (A := ne_lt _ _ _ H). rewrite removelast_len in A.
    rewrite removelast_nth in H by exact A. auto. }
  split.
  - split.
    + intros i v H. destruct (LR i v H) as [A B]. rewrite upd_other; [apply (proj1 C); exact B|].
      intros ->. assert (Q := cons2_inj _ _ _ _ _ C B Hx). lia.
    + intros v k Hk K. destruct (Nat.eq_dec v x) as [->|N].
      * rewrite upd_same in Hk by exact Hxi. inversion Hk. lia.
      * rewrite upd_other in Hk by exact N. assert (G := proj2 C v k Hk K).
        rewrite removelast_nth; [exact G|]. assert (Q := ne_lt _ _ _ G).
        destruct (Nat.eq_dec (Z.to_nat k) (length (hp h) - 1)) as [E|]; [|lia].
        rewrite E, Hx in G. congruence.
  - intros v. split.
    + intros H. apply In_nth_error in H. destruct H as (i & Hi). destruct (LR i v Hi) as [A B].
      split; [apply nth_error_In with i; exact B|].
      intros ->. assert (Q := cons2_inj _ _ _ _ _ C B Hx). lia.
    + intros [H N]. apply In_nth_error in H. destruct H as (i & Hi). assert (Li := ne_lt _ _ _ Hi).
      apply nth_error_In with i. rewrite removelast_nth; [exact Hi|].
      destruct (Nat.eq_dec i (length (hp h) - 1)) as [->|]; [|lia]. rewrite Hx in Hi. congruence.
Qed.

Lemma val_eq : forall L L' i, i < length L -> nth_error L' i = nth_error L i -> val L' i = val L i.
Proof.
  intros L L' i H E. destruct (ne_ex L i H) as (v & V). rewrite (val_at L i v V).
  apply val_at. rewrite E. exact V.
Qed.

Lemma removeMin_ok : forall h, cons2 (hp h) (ix h) -> hp h <> [] ->
  exists x h', removeMin lt h = Some (x, h') /\ cons2 (hp h') (ix h') /\ In x (hp h) /\
    (forall v, In v (hp h') <-> In v (hp h) /\ v <> x) /\
    length (ix h') = length (ix h) /\
    (orderFrom 0 (hp h) -> orderFrom 0 (hp h') /\ forall v, In v (hp h) -> (act v <= act x)%Z).
Proof.
  intros h C NE. unfold removeMin.
  destruct (hp h) as [|x tl] eqn:EH; [congruence|]. rewrite <- EH in *.
  assert (Hx : nth_error (hp h) 0 = Some x) by (rewrite EH; reflexivity).
  assert (Hl := last_nth (hp h) NE).
  assert (Len : length (hp h) = S (length tl)) by (rewrite EH; reflexivity). clear EH.
  assert (Hxi := cons2_lt _ _ _ _ C Hx). assert (Hyi := cons2_lt _ _ _ _ C Hl).
  rewrite place_ok by lia. unfold setIx. cbn [ix hp].
  rewrite setAt_upd by (rewrite upd_length; lia). cbn [hp ix].
  rewrite removelast_len, upd_length.
  assert (Inx : In x (hp h)) by (apply nth_error_In with 0; exact Hx).
  assert (TOP : orderFrom 0 (hp h) -> forall v, In v (hp h) -> (act v <= act x)%Z).
  { intros O v Hv. apply In_nth_error in Hv. destruct Hv as (i & Hi).
    rewrite <- (val_at _ _ _ Hi), <- (val_at _ _ _ Hx). apply order_top; [exact O|apply (ne_lt _ _ _ Hi)]. }
  destruct (Nat.eq_dec (length (hp h)) 1) as [L1|L1].
  - replace (1 <? length (hp h) - 1) with false by (symmetry; apply Nat.ltb_ge; lia).
    rewrite L1 in Hl. change (1 - 1) with 0 in Hl. rewrite Hx in Hl. inversion Hl as [E].
    rewrite <- E. destruct (takeLast_ok h x C) as [T1 T2]; [rewrite L1; exact Hx|].
    assert (EQ : upd (upd (ix h) x (Z.of_nat 0)) x (-1)%Z = upd (ix h) x (-1)%Z).
    { clear. revert x. induction (ix h) as [|a l IH]; intros [|x]; simpl; auto. f_equal. apply IH. }
    assert (EL : removelast (upd (hp h) 0 x) = removelast (hp h)) by (rewrite upd_id by exact Hx; reflexivity).
    rewrite EQ, EL. exists x. eexists. split; [reflexivity|]. cbn [hp ix].
    split; [exact T1|]. split; [exact Inx|]. split; [exact T2|]. split; [apply upd_length|].
    intros O. split; [|apply TOP; exact O].
    intros i A B. rewrite removelast_len in B. lia.
  - destruct (take_ok h 0 x C Hx ltac:(lia)) as (T1 & T2 & T3 & T4 & T5).
    set (L := removelast (upd (hp h) 0 (last (hp h) 0))) in *.
    set (I := upd (upd (ix h) (last (hp h) 0) (Z.of_nat 0)) x (-1)%Z) in *.
    assert (LI : length I = length (ix h)) by (subst I; rewrite !upd_length; reflexivity).
    clearbody L I.
    destruct (1 <? length (hp h) - 1) eqn:B1.
    + destruct (percolateDown_ok (mkHeap L I) 0 T1) as (h' & E & D & O); [simpl; lia|].
      rewrite E. exists x, h'. split; [reflexivity|]. destruct D as [D1 D2 D3 D4]. cbn [hp ix] in *.
      split; [exact D1|]. split; [exact Inx|].
      split; [intros v; rewrite D2; apply T2|]. split; [lia|].
      intros Ord. split; [|apply TOP; exact Ord]. apply (O 0 ltac:(lia)).
      split; [|intros; lia].
      intros i A B _ N. assert (P := parent_lt i A).
      rewrite (val_eq (hp h) L i) by (try apply T5; lia).
      rewrite (val_eq (hp h) L (parent i)) by (try apply T5; lia).
      apply Ord; lia.
    + apply Nat.ltb_ge in B1. exists x. eexists. split; [reflexivity|]. cbn [hp ix].
      split; [exact T1|]. split; [exact Inx|]. split; [exact T2|]. split; [exact LI|].
      intros Ord. split; [|apply TOP; exact Ord]. intros i A B. lia.
Qed.

Lemma remove_ok : forall h x, cons2 (hp h) (ix h) -> In x (hp h) ->
  exists h', remove lt x h = Some h' /\ cons2 (hp h') (ix h') /\
    (forall v, In v (hp h') <-> In v (hp h) /\ v <> x) /\
    length (ix h') = length (ix h).
Proof.
  intros h x C Hin. apply In_nth_error in Hin. destruct Hin as (j & Hx).
  unfold remove. rewrite (proj1 C j x Hx).
  replace (Z.of_nat j <? 0)%Z with false by (symmetry; apply Z.ltb_ge; lia).
  rewrite Nat2Z.id. assert (Hxi := cons2_lt _ _ _ _ C Hx).
  unfold setIx. rewrite setAt_upd by exact Hxi. cbn [hp ix].
  assert (Lj := ne_lt _ _ _ Hx).
  assert (Hl := last_nth (hp h) ltac:(destruct (hp h); simpl in *; [lia|discriminate])).
  assert (Hyi := cons2_lt _ _ _ _ C Hl).
  destruct (j <? length (hp h) - 1) eqn:B.
  - apply Nat.ltb_lt in B. rewrite place_ok by (simpl; rewrite ?upd_length; lia). cbn [hp ix].
    destruct (take_ok h j x C Hx B) as (T1 & T2 & T3 & T4 & T5).
    assert (N : last (hp h) 0 <> x).
    { intros E. rewrite E in Hl. assert (Q := cons2_inj _ _ _ _ _ C Hx Hl). lia. }
    assert (EQ : upd (upd (ix h) x (-1)%Z) (last (hp h) 0) (Z.of_nat j) =
                 upd (upd (ix h) (last (hp h) 0) (Z.of_nat j)) x (-1)%Z).
    { revert N. generalize (last (hp h) 0). generalize (Z.of_nat j). clear. revert x.
      induction (ix h) as [|a l IH]; intros [|x] z [|y] N; simpl; auto; try lia.
      f_equal. apply IH. lia. }
    rewrite EQ.
    set (L := removelast (upd (hp h) j (last (hp h) 0))) in *.
    set (I := upd (upd (ix h) (last (hp h) 0) (Z.of_nat j)) x (-1)%Z) in *.
    assert (LI : length I = length (ix h)) by (subst I; rewrite !upd_length; reflexivity).
    clearbody L I.
    destruct (percolateDown_ok (mkHeap L I) j T1) as (h' & E & D & _); [simpl; lia|].
    exists h'. split; [exact E|]. destruct D as [D1 D2 D3 D4]. cbn [hp ix] in *.
    split; [exact D1|]. split; [intros v; rewrite D2; apply T2|lia].
  - apply Nat.ltb_ge in B. assert (j = length (hp h) - 1) by lia. subst j.
    destruct (takeLast_ok h x C Hx) as [T1 T2].
    eexists. split; [reflexivity|]. cbn [hp ix]. split; [exact T1|]. split; [exact T2|apply upd_length].
Qed.

(* --- clear and build --- *)
Lemma unindex_ok : forall vs h, (forall v, In v vs -> v < length (ix h)) ->
  exists h', unindex vs h = Some h' /\ hp h' = hp h /\ length (ix h') = length (ix h) /\
    (forall v, In v vs -> nth_error (ix h') v = Some (-1)%Z) /\
    (forall v, ~ In v vs -> nth_error (ix h') v = nth_error (ix h) v).
Proof.
  induction vs as [|w vs IH]; intros h H; simpl.
  - exists h. repeat split; auto. intros v [].
  - unfold setIx. rewrite setAt_upd by (apply H; left; reflexivity).
    destruct (IH (mkHeap (hp h) (upd (ix h) w (-1)%Z))) as (h' & A & B & C & D & E).
    { intros v Hv. simpl. rewrite upd_length. apply H. right. exact Hv. }
    cbn [hp ix] in *. rewrite upd_length in C.
    exists h'. split; [exact A|]. split; [exact B|]. split; [exact C|]. split.
    + intros v [->|Hv]; [|apply D; exact Hv].
      destruct (in_dec Nat.eq_dec v vs) as [I|I]; [apply D; exact I|].
      rewrite E by exact I. apply upd_same. apply H. left. reflexivity.
    + intros v Hv. rewrite E by (intros I; apply Hv; right; exact I).
      apply upd_other. intros ->. apply Hv. left. reflexivity.
Qed.

Lemma clear_ok : forall h, cons2 (hp h) (ix h) ->
  exists h', clear h = Some h' /\ hp h' = [] /\ cons2 (hp h') (ix h') /\ length (ix h') = length (ix h).
Proof.
  intros h C. unfold clear.
  destruct (unindex_ok (hp h) h) as (h' & A & B & L & D & E).
  { intros v Hv. apply In_nth_error in Hv. destruct Hv as (i & Hi). apply (cons2_lt _ _ _ _ C Hi). }
  rewrite A. eexists. split; [reflexivity|]. cbn [hp ix]. split; [reflexivity|]. split; [|exact L].
  split.
  - intros [|i] v H; discriminate.
  - intros v k Hk K. exfalso.
    destruct (in_dec Nat.eq_dec v (hp h)) as [I|I].
    + rewrite (D v I) in Hk. inversion Hk. lia.
    + rewrite (E v I) in Hk. apply I. apply nth_error_In with (Z.to_nat k). apply (proj2 C); assumption.
Qed.

Lemma appendAll_ok : forall ns h, cons2 (hp h) (ix h) -> NoDup ns ->
  (forall n, In n ns -> ~ In n (hp h) /\ n < length (ix h)) ->
  exists h', appendAll ns h = Some h' /\ hp h' = hp h ++ ns /\ cons2 (hp h') (ix h') /\
    length (ix h') = length (ix h).
Proof.
  induction ns as [|n ns IH]; intros h C ND H; simpl.
  - exists h. rewrite app_nil_r. auto.
  - destruct (H n ltac:(left; reflexivity)) as [Hn Ln].
    unfold setIx. rewrite setAt_upd by exact Ln. cbn [hp ix].
    inversion ND as [|a b Na Nb]; subst.
    destruct (IH (mkHeap (hp h ++ [n]) (upd (ix h) n (Z.of_nat (length (hp h)))))) as (h' & A & B & D & E).
    + apply append_cons2; assumption.
    + exact Nb.
    + intros m Hm. cbn [hp ix]. rewrite upd_length. destruct (H m ltac:(right; exact Hm)) as [M1 M2].
      split; [|exact M2]. rewrite in_app_iff. intros [X|[->|[]]]; [apply M1; exact X|apply Na; exact Hm].
    + cbn [hp ix] in *. rewrite upd_length in E. exists h'. split; [exact A|].
      split; [rewrite B, <- app_assoc; reflexivity|]. auto.
Qed.

Lemma downFrom_ok : forall k h, cons2 (hp h) (ix h) -> k <= length (hp h) ->
  exists h', downFrom lt k h = Some h' /\ done (hp h) (ix h) h' /\
    (orderFrom k (hp h) -> orderFrom 0 (hp h')).
Proof.
  induction k as [|k IH]; intros h C H; simpl.
  - exists h. split; [reflexivity|]. split; [constructor; auto; tauto|auto].
  - destruct (percolateDown_ok h k C ltac:(lia)) as (h1 & E & D & O). rewrite E.
    destruct D as [D1 D2 D3 D4].
    destruct (IH h1 D1 ltac:(lia)) as (h2 & E2 & F & O2). exists h2. split; [exact E2|].
    destruct F as [F1 F2 F3 F4]. split.
    + constructor; auto; try lia. intros v. rewrite F2. apply D2.
    + intros Ord. apply O2. apply (O k ltac:(lia)). split.
      * intros i A B Ki N. apply Ord; lia.
      * intros c A B P K0 Kp. assert (Q := parent_lt k K0). lia.
Qed.

Lemma build_ok : forall h ns, cons2 (hp h) (ix h) -> NoDup ns ->
  (forall n, In n ns -> n < length (ix h)) ->
  exists h', build lt ns h = Some h' /\ cons2 (hp h') (ix h') /\
    (forall v, In v (hp h') <-> In v ns) /\ length (ix h') = length (ix h) /\
    orderFrom 0 (hp h').
Proof.
  intros h ns C ND H. unfold build.
  destruct (clear_ok h C) as (h1 & E1 & N1 & C1 & L1). rewrite E1.
  destruct (appendAll_ok ns h1 C1 ND) as (h2 & E2 & N2 & C2 & L2).
  { intros n Hn. rewrite N1, L1. split; [intros []|apply H; exact Hn]. }
  rewrite E2. rewrite N1 in N2. simpl in N2.
  assert (DL : Nat.div2 (length (hp h2)) <= length (hp h2)).
  { rewrite Nat.div2_div. apply Nat.div_le_upper_bound; lia. }
  destruct (downFrom_ok (Nat.div2 (length (hp h2))) h2 C2 DL) as (h3 & E3 & D & O).
  exists h3. split; [exact E3|]. destruct D as [D1 D2 D3 D4].
  split; [exact D1|]. split; [intros v; rewrite D2, N2; tauto|]. split; [lia|].
  apply O. intros i A B Ki. exfalso.
  assert (Q : i < 2 * Nat.div2 (length (hp h2)) + 2).
  { rewrite Nat.div2_div. assert (DM := Nat.div_mod (length (hp h2)) 2 ltac:(lia)).
    assert (MM := Nat.mod_upper_bound (length (hp h2)) 2 ltac:(lia)). lia. }
  unfold parent in Ki. rewrite !Nat.div2_div in Ki.
  assert (D5 := Nat.div_mod (i-1) 2 ltac:(lia)). assert (M5 := Nat.mod_upper_bound (i-1) 2 ltac:(lia)).
  assert (D6 := Nat.div_mod (length (hp h2)) 2 ltac:(lia)).
  assert (M6 := Nat.mod_upper_bound (length (hp h2)) 2 ltac:(lia)).
  lia.
Qed.

Lemma bump_ok : forall h v, cons2 (hp h) (ix h) ->
  exists h', bump lt v h = Some h' /\ cons2 (hp h') (ix h') /\
    (forall w, In w (hp h') <-> In w (hp h)) /\ length (ix h') = length (ix h) /\
    ((forall w, nth_error (hp h) w = Some v -> upGap (hp h) w) ->
     (~ In v (hp h) -> orderFrom 0 (hp h)) -> orderFrom 0 (hp h')).
Proof.
  intros h v C. unfold bump. destruct (inHeap h v) eqn:E.
  - apply (inHeap_spec h v C) in E.
    destruct (decrease_ok h v C E) as (h' & j & Hj & R & D & O).
    exists h'. split; [exact R|]. destruct D as [D1 D2 D3 D4]. split; [exact D1|].
    split; [exact D2|]. split; [exact D4|]. intros G _. apply O. apply G. exact Hj.
  - exists h. split; [reflexivity|]. split; [exact C|]. split; [tauto|]. split; [reflexivity|].
    intros _ G. apply G. intros I. apply (inHeap_spec h v C) in I. congruence.
Qed.
End Order.

(* activities may change as long as the order among the other variables is kept
   (weakly) and v only moves forward *)
Lemma upGap_bump : forall act act' v L j,
  (forall x y, y <> v -> (act y <= act x -> act' y <= act' x)%Z) ->
  NoDup L -> nth_error L j = Some v -> orderFrom act 0 L -> upGap act' L j.
Proof.
  intros act act' v L j M ND Hj O.
  assert (NV : forall i, i < length L -> i <> j -> nth i L 0 <> v).
  { intros i Hi N E. apply N. assert (Ne := nth_error_nth' L 0 Hi). rewrite E in Ne.
    rewrite NoDup_nth_error in ND. apply ND; [exact Hi|]. rewrite Ne, Hj. reflexivity. }
  assert (Lj := ne_lt _ _ _ Hj).
  split.
  - intros i A B N. unfold val. apply M; [apply NV; assumption|]. apply O; lia.
  - intros c A B P J0. unfold val. assert (Q := parent_lt c A). apply M; [apply NV; lia|].
    assert (O1 := O c A B ltac:(lia)). assert (O2 := O j J0 Lj ltac:(lia)).
    unfold val in *. rewrite P in O1. lia.
Qed.

Lemma order_bump : forall act act' v L,
  (forall x y, y <> v -> (act y <= act x -> act' y <= act' x)%Z) ->
  ~ In v L -> orderFrom act 0 L -> orderFrom act' 0 L.
Proof.
  intros act act' v L M N O i A B _. unfold val. apply M; [|apply O; lia].
  intros E. apply N. rewrite <- E. apply nth_In. exact B.
Qed.
