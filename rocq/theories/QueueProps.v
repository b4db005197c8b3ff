(* Property C48: the bounded queue reports the sum (and average) of the last
   maxSize values pushed since it was last cleared. *)
From Coq Require Import List ZArith Lia Bool.
From Verif Require Import Queue.
Import ListNotations.
Open Scope Z_scope.

(* --- specification: the values pushed since the last clear, newest first --- *)
Fixpoint pushedSince (acc : list Z) (os : list qop) : list Z :=
  match os with
  | [] => acc
  | QPush x :: r => pushedSince (x :: acc) r
  | QClear :: r => pushedSince [] r
  end.

Definition total (l : list Z) : Z := fold_right Z.add 0 l.

(* the window: the newest n of the pushed values *)
Definition window (n : nat) (os : list qop) : list Z := firstn n (pushedSince [] os).

(* --- proofs --- *)
Lemma setAt_ok : forall (l : list Z) i x, (i < length l)%nat ->
  exists l', setAt l i x = Some l' /\ length l' = length l /\
    nth_error l' i = Some x /\ (forall j, j <> i -> nth_error l' j = nth_error l j).
Proof.
  induction l as [|a l IH]; intros i x Hi; [simpl in Hi; lia|].
  destruct i as [|i]; simpl.
  - exists (x :: l). repeat split; auto. intros [|j] H; [lia|reflexivity].
  - destruct (IH i x) as (l' & E & L & G & O); [simpl in Hi; lia|].
    rewrite E. exists (a :: l'). repeat split; simpl; auto.
    intros [|j] H; simpl; auto.
Qed.

(* the position of the value pushed k steps ago *)
Definition slot (q : queue) (k : nat) : nat :=
  if (S k <=? qFirst q)%nat then (qFirst q - S k)%nat else (qFirst q + qMax q - S k)%nat.

Record qinv (m : nat) (q : queue) (ps : list Z) : Prop := {
  qi_max : qMax q = m;
  qi_len : length (qElems q) = m;
  qi_pos : (0 < m)%nat;
  qi_first : (qFirst q < m)%nat;
  qi_size : qSize q = Nat.min m (length ps);
  qi_sum : qSum q = total (firstn m ps);
  qi_last : qLast q = (if (qSize q =? m)%nat then qFirst q else O);
  qi_fresh : (qSize q < m)%nat -> qFirst q = qSize q;
  qi_slots : forall k, (k < qSize q)%nat -> nth_error (qElems q) (slot q k) = nth_error ps k
}.

Lemma total_app : forall a b, total (a ++ b) = total a + total b.
Proof. intros a b. unfold total. induction a; simpl in *; lia. Qed.

Lemma firstn_S_nth : forall (l : list Z) n x, nth_error l n = Some x ->
  firstn (S n) l = firstn n l ++ [x].
Proof.
  induction l as [|a l IH]; intros [|n] x H; simpl in *; try discriminate.
  - inversion H; reflexivity.
  - f_equal. apply IH. exact H.
Qed.

Lemma push_inv : forall m q ps x, qinv m q ps ->
  exists q', push q x = Some q' /\ qinv m q' (x :: ps).
Proof.
  intros m q ps x I. destruct I as [Im Il Ip If Is Iu Ila Ifr Isl].
  destruct (setAt_ok (qElems q) (qFirst q) x) as (es & E & Le & Ge & Oe); [lia|].
  unfold push. rewrite E.
  assert (NW : forall k, (S k < m)%nat -> (k < qSize q)%nat ->
            nth_error es (slot q k) = nth_error ps k).
  { intros k Hk Hs. rewrite Oe; [apply Isl; exact Hs|].
    unfold slot. destruct (S k <=? qFirst q)%nat eqn:D;
      [apply Nat.leb_le in D|apply Nat.leb_gt in D]; lia. }
  assert (SL : forall q' : queue,
     qMax q' = m -> qFirst q' = (if (S (qFirst q) =? m)%nat then O else S (qFirst q)) ->
     qElems q' = es -> (qSize q' <= m)%nat -> (qSize q' <= S (qSize q))%nat ->
     forall k, (k < qSize q')%nat -> nth_error (qElems q') (slot q' k) = nth_error (x :: ps) k).
  { intros q' Hm Hf He Hs1 Hs2 k Hk. rewrite He.
    destruct k as [|k]; cbn [nth_error].
    - replace (slot q' 0) with (qFirst q); [exact Ge|].
      unfold slot. rewrite Hf, Hm.
      destruct (S (qFirst q) =? m)%nat eqn:D.
      + apply Nat.eqb_eq in D. change (1 <=? 0)%nat with false. cbv iota. lia.
      + apply Nat.eqb_neq in D. destruct (1 <=? S (qFirst q))%nat eqn:D2;
          [apply Nat.leb_le in D2|apply Nat.leb_gt in D2]; lia.
    - replace (slot q' (S k)) with (slot q k); [apply NW; lia|].
      unfold slot. rewrite Hf, Hm, Im.
      destruct (S (qFirst q) =? m)%nat eqn:D.
      + apply Nat.eqb_eq in D.
        destruct (Nat.leb_spec (S k) (qFirst q)); destruct (Nat.leb_spec (S (S k)) 0); lia.
      + apply Nat.eqb_neq in D.
        destruct (Nat.leb_spec (S k) (qFirst q)); destruct (Nat.leb_spec (S (S k)) (S (qFirst q))); lia. }
  destruct (qSize q =? qMax q)%nat eqn:Full.
  - apply Nat.eqb_eq in Full.
    assert (Hfull : (qSize q =? m)%nat = true) by (apply Nat.eqb_eq; lia).
    rewrite Hfull in Ila.
    assert (Hold : nth_error (qElems q) (qLast q) = nth_error ps (m - 1)).
    { rewrite Ila. rewrite <- (Isl (m - 1)%nat) by lia. f_equal.
      unfold slot. destruct (S (m - 1) <=? qFirst q)%nat eqn:D;
        [apply Nat.leb_le in D|apply Nat.leb_gt in D]; lia. }
    destruct (nth_error ps (m - 1)) as [old|] eqn:No.
    2:{ apply nth_error_None in No. lia. }
    rewrite Hold.
    eexists. split; [reflexivity|].
    assert (Hps : (m <= length ps)%nat) by lia.
    constructor; cbn [qMax qElems qFirst qLast qSum qSize].
    + exact Im.
    + lia.
    + exact Ip.
    + rewrite Im. destruct (S (qFirst q) =? m)%nat eqn:D; [lia|apply Nat.eqb_neq in D; lia].
    + simpl. lia.
    + rewrite Iu. destruct m as [|m']; [lia|].
      replace (S m' - 1)%nat with m' in No by lia.
      rewrite (firstn_S_nth ps m' old No), total_app. cbn [firstn]. unfold total; simpl. lia.
    + rewrite Hfull, Im, Ila. destruct (S (qFirst q) =? m)%nat; reflexivity.
    + lia.
    + intros k Hk. refine (SL (mkQueue es _ _ _ _ _) _ _ _ _ _ k Hk); simpl; auto; try lia.
      rewrite Im; reflexivity.
  - apply Nat.eqb_neq in Full.
    assert (Hnf : (qSize q =? m)%nat = false) by (apply Nat.eqb_neq; lia).
    rewrite Hnf in Ila. assert (HF := Ifr ltac:(lia)).
    eexists. split; [reflexivity|].
    constructor; cbn [qMax qElems qFirst qLast qSum qSize].
    + exact Im.
    + lia.
    + exact Ip.
    + rewrite Im. destruct (S (qFirst q) =? m)%nat eqn:D; [lia|apply Nat.eqb_neq in D; lia].
    + simpl. lia.
    + rewrite Iu. rewrite (firstn_all2 (n := m) ps) by lia.
      rewrite (firstn_all2 (n := m) (x :: ps)) by (simpl; lia).
      unfold total; simpl. lia.
    + rewrite Im, Ila. rewrite <- HF. destruct (S (qFirst q) =? m)%nat; reflexivity.
    + intros H. rewrite Im. rewrite <- HF in *.
      destruct (S (qFirst q) =? m)%nat eqn:D; [apply Nat.eqb_eq in D; lia|reflexivity].
    + intros k Hk. refine (SL (mkQueue es _ _ _ _ _) _ _ _ _ _ k Hk); simpl; auto; try lia.
      rewrite Im; reflexivity.
Qed.

Lemma clear_inv : forall m q ps, qinv m q ps -> qinv m (fastClear q) [].
Proof.
  intros m q ps I. destruct I as [Im Il Ip If Is Iu Ila Ifr Isl].
  constructor; simpl; auto; try lia.
  - rewrite firstn_nil. reflexivity.
  - destruct m; [lia|reflexivity].
Qed.

Lemma init_inv : forall m, (0 < m)%nat -> qinv m (growTo newQueue m) [].
Proof.
  intros m H. unfold growTo, newQueue. simpl.
  destruct m as [|m]; [lia|]. simpl.
  constructor; simpl; auto; try lia.
  rewrite repeat_length. reflexivity.
Qed.

Lemma qrun_inv : forall os m q ps, qinv m q ps ->
  exists q', qrun q os = Some q' /\ qinv m q' (pushedSince ps os).
Proof.
  induction os as [|o os IH]; intros m q ps I; simpl.
  - exists q; auto.
  - destruct o as [x|]; simpl.
    + destruct (push_inv m q ps x I) as (q' & E & I'). rewrite E. apply IH. exact I'.
    + apply IH. apply (clear_inv m q ps I).
Qed.

(* C48: for every positive capacity and every sequence of pushes and clears the
   queue never fails, its sum is the sum of the newest `m` values pushed since
   the last clear, its average is that sum divided by the number of values in
   the window, and it reports being full exactly when m values were pushed. *)
Theorem C48_queue : forall m os, (0 < m)%nat ->
  exists q, qrun (growTo newQueue m) os = Some q /\
    qSum q = total (window m os) /\
    (window m os <> [] -> avg q = Some (Z.quot (total (window m os)) (Z.of_nat (length (window m os))))) /\
    (valid q = true <-> (m <= length (pushedSince [] os))%nat).
Proof.
  intros m os H. destruct (qrun_inv os m _ [] (init_inv m H)) as (q & E & I).
  exists q. destruct I as [Im Il Ip If Is Iu Ila Ifr Isl].
  split; [exact E|]. unfold window. split; [exact Iu|]. split.
  - intros NE. unfold avg.
    assert (L : qSize q = length (firstn m (pushedSince [] os))) by (rewrite firstn_length; exact Is).
    rewrite <- L, <- Iu. destruct (qSize q =? 0)%nat eqn:D; [|reflexivity].
    apply Nat.eqb_eq in D. rewrite D in L. destruct (firstn m (pushedSince [] os)); [congruence|discriminate].
  - unfold valid. rewrite Nat.eqb_eq, Im, Is. lia.
Qed.

Example queue_example :
  match qrun (growTo newQueue 3) [QPush 5; QPush 1; QPush 7; QPush 2; QPush 9] with
  | Some q => (qSum q, avg q, valid q) = (18, Some 6, true)
  | None => False
  end.
Proof. vm_compute. reflexivity. Qed.

Print Assumptions C48_queue.
