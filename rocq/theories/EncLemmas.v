(** * Lemmas about literals, clauses, counters and environments *)

From Coq Require Import String List Bool Arith ZArith Lia.
From Verif Require Import EncSpec EncAmo.
Import ListNotations.

Lemma lval_neg : forall a l, lval a (neg l) = negb (lval a l).
Proof. intros a [v b]; unfold lval, neg; destruct b; simpl; [reflexivity | now rewrite negb_involutive]. Qed.

Lemma lval_neg_true : forall a l, lval a (neg l) = true <-> lval a l = false.
Proof. intros a l; rewrite lval_neg; destruct (lval a l); simpl; split; congruence. Qed.

Lemma neg_neg : forall l, neg (neg l) = l.
Proof. intros [v b]; unfold neg; simpl; now rewrite negb_involutive. Qed.

Lemma fst_neg : forall l, fst (neg l) = fst l.
Proof. reflexivity. Qed.

Lemma lscope_neg : forall n l, lscope n (neg l) <-> lscope n l.
Proof. reflexivity. Qed.

(** ** Clauses *)

Lemma csat_nil : forall a, ~ csat a [].
Proof. intros a [l [[] _]]. Qed.

Lemma csat_cons : forall a l c, csat a (l :: c) <-> lval a l = true \/ csat a c.
Proof.
  intros a l c; split.
  - intros [x [[->|H] Hv]]; [now left | right; now exists x].
  - intros [H|[x [H Hv]]]; [exists l | exists x]; simpl; auto.
Qed.

Lemma csat_app : forall a c d, csat a (c ++ d) <-> csat a c \/ csat a d.
Proof.
  intros a c d; split.
  - intros [x [H Hv]]; apply in_app_iff in H as [H|H]; [left | right]; now exists x.
  - intros [[x [H Hv]]|[x [H Hv]]]; exists x; rewrite in_app_iff; auto.
Qed.

Lemma csat1 : forall a l, csat a [l] <-> lval a l = true.
Proof.
  intros; rewrite csat_cons; split; [intros [H|H]; [exact H | now apply csat_nil in H] | auto].
Qed.

(** Clauses of up to four literals as implications. *)
Lemma csat2 : forall a l m, csat a [neg l; m] <-> (lval a l = true -> lval a m = true).
Proof.
  intros; rewrite csat_cons, csat1, lval_neg_true; destruct (lval a l); split; intros; intuition congruence.
Qed.

Lemma csat3 : forall a l k m,
  csat a [neg l; neg k; m] <-> (lval a l = true -> lval a k = true -> lval a m = true).
Proof.
  intros; rewrite csat_cons, csat2, lval_neg_true; destruct (lval a l); split; intros; intuition congruence.
Qed.

Lemma csat_exists : forall a c, csat a c <-> 1 <= count a c.
Proof.
  intros a c; induction c as [|l c IH]; simpl.
  - split; [intros H; now apply csat_nil in H | lia].
  - rewrite csat_cons, IH; destruct (lval a l); simpl; split; intros H; lia.
Qed.

Lemma sat_nil : forall a, sat a [].
Proof. intros a c []. Qed.

Lemma sat_cons : forall a c cs, sat a (c :: cs) <-> csat a c /\ sat a cs.
Proof.
  intros a c cs; split.
  - intros H; split; [apply H; now left | intros d Hd; apply H; now right].
  - intros [H1 H2] d [->|Hd]; auto.
Qed.

Lemma sat_app : forall a c d, sat a (c ++ d) <-> sat a c /\ sat a d.
Proof.
  intros a c d; split.
  - intros H; split; intros x Hx; apply H, in_app_iff; auto.
  - intros [H1 H2] x Hx; apply in_app_iff in Hx as [Hx|Hx]; auto.
Qed.

Lemma sat_flat_map : forall {A} a (f : A -> list clause) l,
  sat a (flat_map f l) <-> forall x, In x l -> sat a (f x).
Proof.
  intros A a f l; split.
  - intros H x Hx c Hc; apply H, in_flat_map; eauto.
  - intros H c Hc; apply in_flat_map in Hc as [x [Hx Hc]]; exact (H x Hx c Hc).
Qed.

Lemma sat_map : forall {A} a (f : A -> clause) l,
  sat a (map f l) <-> forall x, In x l -> csat a (f x).
Proof.
  intros A a f l; split.
  - intros H x Hx; apply H, in_map, Hx.
  - intros H c Hc; apply in_map_iff in Hc as [x [<- Hx]]; auto.
Qed.

Lemma sat1 : forall a c, sat a [c] <-> csat a c.
Proof. intros; rewrite sat_cons; split; [tauto | intros; split; [assumption | apply sat_nil]]. Qed.

Lemma sat_if : forall a (b : bool) x y, sat a (if b then x else y) <-> if b then sat a x else sat a y.
Proof. intros a []; tauto. Qed.

(** ** Scopes *)

Lemma cscoped_nil : forall n, cscoped n [].
Proof. intros n c []. Qed.

Lemma cscoped_cons : forall n c cs, cscoped n (c :: cs) <-> scoped n c /\ cscoped n cs.
Proof.
  intros n c cs; split.
  - intros H; split; [apply H; now left | intros d Hd; apply H; now right].
  - intros [H1 H2] d [->|Hd]; auto.
Qed.

Lemma cscoped_app : forall n c d, cscoped n (c ++ d) <-> cscoped n c /\ cscoped n d.
Proof.
  intros n c d; split.
  - intros H; split; intros x Hx; apply H, in_app_iff; auto.
  - intros [H1 H2] x Hx; apply in_app_iff in Hx as [Hx|Hx]; auto.
Qed.

Lemma cscoped_flat_map : forall {A} n (f : A -> list clause) l,
  cscoped n (flat_map f l) <-> forall x, In x l -> cscoped n (f x).
Proof.
  intros A n f l; split.
  - intros H x Hx c Hc; apply H, in_flat_map; eauto.
  - intros H c Hc; apply in_flat_map in Hc as [x [Hx Hc]]; exact (H x Hx c Hc).
Qed.

Lemma cscoped_map : forall {A} n (f : A -> clause) l,
  cscoped n (map f l) <-> forall x, In x l -> scoped n (f x).
Proof.
  intros A n f l; split.
  - intros H x Hx; apply H, in_map, Hx.
  - intros H c Hc; apply in_map_iff in Hc as [x [<- Hx]]; auto.
Qed.

Lemma scoped_nil : forall n, scoped n [].
Proof. intros n l []. Qed.

Lemma scoped_cons : forall n l c, scoped n (l :: c) <-> lscope n l /\ scoped n c.
Proof.
  intros n l c; split.
  - intros H; split; [apply H; now left | intros d Hd; apply H; now right].
  - intros [H1 H2] d [->|Hd]; auto.
Qed.

Lemma scoped_app : forall n c d, scoped n (c ++ d) <-> scoped n c /\ scoped n d.
Proof.
  intros n c d; split.
  - intros H; split; intros x Hx; apply H, in_app_iff; auto.
  - intros [H1 H2] x Hx; apply in_app_iff in Hx as [Hx|Hx]; auto.
Qed.

Lemma scoped_firstn : forall n k ls, scoped n ls -> scoped n (firstn k ls).
Proof.
  intros n k ls H l Hl; apply H; rewrite <- (firstn_skipn k ls); apply in_app_iff; now left.
Qed.

Lemma scoped_skipn : forall n k ls, scoped n ls -> scoped n (skipn k ls).
Proof.
  intros n k ls H l Hl; apply H; rewrite <- (firstn_skipn k ls); apply in_app_iff; now right.
Qed.

Lemma scoped_map_neg : forall n ls, scoped n ls -> scoped n (map neg ls).
Proof. intros n ls H l Hl; apply in_map_iff in Hl as [x [<- Hx]]; apply lscope_neg, H, Hx. Qed.

Lemma at_in : forall ls i, i < length ls -> In (at_ ls i) ls.
Proof. intros; now apply nth_In. Qed.

Lemma at_0 : forall x l, at_ (x :: l) 0 = x.
Proof. reflexivity. Qed.

Lemma at_S : forall x l i, at_ (x :: l) (S i) = at_ l i.
Proof. reflexivity. Qed.

Lemma scoped_at : forall n ls i, scoped n ls -> i < length ls -> lscope n (at_ ls i).
Proof. intros n ls i H Hi; apply H, at_in, Hi. Qed.

Lemma cle_refl : forall n, cle n n.
Proof. split; lia. Qed.

Lemma cle_trans : forall a b c, cle a b -> cle b c -> cle a c.
Proof. unfold cle; intros; lia. Qed.

Lemma cle_fresh : forall n m s, cle n m -> fresh s n <= fresh s m.
Proof. intros n m [] H; unfold cle in H; simpl; lia. Qed.

Lemma scope_le : forall n m v, cle n m -> scope n v -> scope m v.
Proof.
  intros n m [] H; simpl; auto; intros Hk; pose proof (cle_fresh n m s H); lia.
Qed.

Lemma lscope_le : forall n m l, cle n m -> lscope n l -> lscope m l.
Proof. intros; eapply scope_le; eauto. Qed.

Lemma scoped_le : forall n m ls, cle n m -> scoped n ls -> scoped m ls.
Proof. intros n m ls H Hs l Hl; eapply lscope_le; eauto. Qed.

Lemma cscoped_le : forall n m cs, cle n m -> cscoped n cs -> cscoped m cs.
Proof. intros n m cs H Hs c Hc; eapply scoped_le; eauto. Qed.

Lemma cle_bump : forall s k n, cle n (bump s k n).
Proof. intros [] k [x y]; unfold cle; simpl; lia. Qed.

Lemma fresh_bump : forall s k n, fresh s (bump s k n) = fresh s n + k.
Proof. intros [] k [x y]; reflexivity. Qed.

Lemma auxs_length : forall s k n, length (auxs s k n) = k.
Proof. intros; unfold auxs; now rewrite map_length, seq_length. Qed.

Lemma auxs_scoped : forall s k n, scoped (bump s k n) (auxs s k n).
Proof.
  intros s k n l H; apply in_map_iff in H as [i [<- Hi]]; apply in_seq in Hi.
  unfold lscope; simpl; rewrite fresh_bump; lia.
Qed.

Lemma auxs_at : forall s k n i, i < k -> at_ (auxs s k n) i = (Aux s (fresh s n + i), true).
Proof.
  intros s k n i H; unfold at_, auxs.
  rewrite (nth_indep _ _ (Aux s (fresh s n + 0), true)) by now rewrite map_length, seq_length.
  rewrite (map_nth (fun i => (Aux s (fresh s n + i), true)) (seq 0 k) 0 i).
  now rewrite seq_nth.
Qed.

(** ** Environments *)

Lemma agree_refl : forall n a, agree n a a.
Proof. intros n a v H; reflexivity. Qed.

Lemma agree_trans : forall n m a b c, cle n m -> agree n a b -> agree m b c -> agree n a c.
Proof.
  intros n m a b c H Hab Hbc v Hv; rewrite Hbc by (eapply scope_le; eauto); auto.
Qed.

Lemma agree_sym : forall n a b, agree n a b -> agree n b a.
Proof. intros n a b H v Hv; symmetry; auto. Qed.

Lemma agree_le : forall n m a b, cle n m -> agree m a b -> agree n a b.
Proof. intros n m a b H Ha v Hv; apply Ha; eapply scope_le; eauto. Qed.

Lemma agree_lval : forall n a b l, agree n a b -> lscope n l -> lval b l = lval a l.
Proof. intros n a b l H Hl; unfold lval; now rewrite (H _ Hl). Qed.

Lemma agree_count : forall n a b ls, agree n a b -> scoped n ls -> count b ls = count a ls.
Proof.
  intros n a b ls H; induction ls as [|l ls IH]; simpl; intros Hs; [reflexivity|].
  apply scoped_cons in Hs as [Hl Hs]; now rewrite (agree_lval n a b l H Hl), IH.
Qed.

Lemma agree_csat : forall n a b c, agree n a b -> scoped n c -> csat a c -> csat b c.
Proof.
  intros n a b c H Hs [l [Hl Hv]]; exists l; split; [exact Hl|].
  now rewrite (agree_lval n a b l H (Hs l Hl)).
Qed.

Lemma agree_sat : forall n a b cs, agree n a b -> cscoped n cs -> sat a cs -> sat b cs.
Proof. intros n a b cs H Hs Ha c Hc; exact (agree_csat n a b c H (Hs c Hc) (Ha c Hc)). Qed.

(** Set the auxiliary variables of sort [s] from [lo] on by [F]. *)
Definition upd (s : asort) (lo : nat) (F : nat -> bool) (a : env) : env :=
  fun v => match v with
           | Aux s' k =>
             if (match s, s' with ACC, ACC | APB, APB => true | _, _ => false end) && (lo <=? k)
             then F (k - lo) else a v
           | _ => a v
           end.

Lemma upd_agree : forall s n F a, agree n a (upd s (fresh s n) F a).
Proof.
  intros s n F a [x|s' k| | | | |] H; simpl; try reflexivity.
  simpl in H; destruct s, s'; simpl; try reflexivity; simpl in H.
  - destruct (Nat.leb_spec (fst n) k); [lia | reflexivity].
  - destruct (Nat.leb_spec (snd n) k); [lia | reflexivity].
Qed.

Lemma upd_aux : forall s lo F a i b,
  lval (upd s lo F a) (Aux s (lo + i), b) = if b then F i else negb (F i).
Proof.
  intros s lo F a i b; unfold lval; simpl.
  assert (E : (lo <=? lo + i) = true) by (apply Nat.leb_le; lia).
  assert (E2 : lo + i - lo = i) by lia.
  destruct s; simpl; now rewrite E, E2.
Qed.

Lemma upd_at : forall s k n F a i, i < k ->
  lval (upd s (fresh s n) F a) (at_ (auxs s k n) i) = F i.
Proof. intros; rewrite auxs_at by assumption; apply upd_aux. Qed.

Lemma upd_lval : forall s n F a l, lscope n l -> lval (upd s (fresh s n) F a) l = lval a l.
Proof. intros; eapply agree_lval; [apply upd_agree | assumption]. Qed.

(** ** Counting *)

Lemma count_app : forall a l m, count a (l ++ m) = count a l + count a m.
Proof. intros a l m; induction l as [|x l IH]; simpl; [reflexivity | rewrite IH; lia]. Qed.

Lemma count_le : forall a l, count a l <= length l.
Proof. intros a l; induction l as [|x l IH]; simpl; [lia | destruct (lval a x); lia]. Qed.

Lemma count_neg : forall a l, count a (map neg l) = length l - count a l.
Proof.
  intros a l; induction l as [|x l IH]; [reflexivity|].
  cbn [map count length]; pose proof (count_le a l); rewrite lval_neg, IH.
  destruct (lval a x); cbn [negb]; lia.
Qed.

Lemma count_zero : forall a l, count a l = 0 <-> forall x, In x l -> lval a x = false.
Proof.
  intros a l; induction l as [|x l IH]; simpl.
  - split; [intros _ x [] | reflexivity].
  - split.
    + intros H y [->|Hy]; [destruct (lval a y); [lia | reflexivity] | apply IH; [lia | exact Hy]].
    + intros H; rewrite (H x) by now left. simpl; apply IH; auto.
Qed.

Lemma count_pos : forall a l, 1 <= count a l <-> exists x, In x l /\ lval a x = true.
Proof. intros a l; rewrite <- csat_exists; reflexivity. Qed.

Lemma count_skipn_firstn : forall a k l, count a l = count a (firstn k l) + count a (skipn k l).
Proof. intros a k l; rewrite <- count_app, firstn_skipn; reflexivity. Qed.

(** At most one: no two positions are true. *)
Lemma count_le1 : forall a l,
  count a l <= 1 <-> forall i j, i < j -> j < length l ->
                       lval a (at_ l i) = true -> lval a (at_ l j) = true -> False.
Proof.
  intros a l; induction l as [|x l IH]; simpl.
  - split; [intros _ i j; lia | lia].
  - split.
    + intros H i j Hij Hj Hi' Hj'.
      destruct j as [|j]; [lia|]; rewrite at_S in Hj'.
      assert (Hc : 1 <= count a l) by (apply count_pos; exists (at_ l j); split; [apply at_in; lia | exact Hj']).
      destruct i as [|i]; [rewrite at_0 in Hi'; rewrite Hi' in H; lia|]; rewrite at_S in Hi'.
      destruct IH as [IH _]; apply (IH ltac:(destruct (lval a x); lia) i j); auto; lia.
    + intros H.
      assert (count a l <= 1) by (apply IH; intros i j Hij Hj; apply (H (S i) (S j)); lia).
      destruct (lval a x) eqn:Ex; [|lia].
      assert (~ 1 <= count a l); [|lia].
      intros Hc; apply count_pos in Hc as [y [Hy Ey]].
      apply (In_nth l y (Bad, true)) in Hy as [j [Hj Ej]].
      apply (H 0 (S j)); try lia; [exact Ex | rewrite at_S; unfold at_; now rewrite Ej].
Qed.

Lemma pure_sat : forall a l, sat a (pure l) <-> count a l <= 1.
Proof.
  intros a l; induction l as [|x l IH]; simpl; [split; [lia | intros _; apply sat_nil]|].
  rewrite sat_app, sat_map, IH.
  assert (E : (forall y, In y l -> csat a [neg x; neg y]) <-> (lval a x = true -> count a l = 0)).
  { rewrite count_zero; split.
    - intros H Hx y Hy; apply lval_neg_true; now apply (proj1 (csat2 _ _ _) (H y Hy)).
    - intros H y Hy; apply csat2; intros Hx; apply lval_neg_true; auto. }
  rewrite E; destruct (lval a x); split; intros; try lia; intuition lia.
Qed.

Lemma pure_scoped : forall n l, scoped n l -> cscoped n (pure l).
Proof.
  intros n l; induction l as [|x l IH]; simpl; intros H; [apply cscoped_nil|].
  apply scoped_cons in H as [Hx Hl]; apply cscoped_app; split; [|auto].
  apply cscoped_map; intros y Hy; apply scoped_cons; split; [exact Hx|].
  apply scoped_cons; split; [exact (Hl y Hy) | apply scoped_nil].
Qed.

(** ** Combining encodings *)

Lemma encodes_ext : forall P Q n out, (forall a, P a <-> Q a) -> encodes P n out -> encodes Q n out.
Proof.
  intros P Q n out H [H1 [H2 [H3 H4]]]; repeat split; try (apply H1); auto.
  - intros a Ha; apply H, H3, Ha.
  - intros a Ha; apply H4, H, Ha.
Qed.

Lemma encodes_nil : forall (P : env -> Prop) n, (forall a, P a) -> encodes P n ([], n).
Proof.
  intros P n H; split; [apply cle_refl|]; split; [apply cscoped_nil|]; split; auto.
  intros a _; exists a; split; [apply agree_refl | apply sat_nil].
Qed.

Lemma encodes_pure : forall n l, scoped n l -> encodes (fun a => count a l <= 1) n (pure l, n).
Proof.
  intros n l H; split; [apply cle_refl|]; split; [now apply pure_scoped|]; split; simpl.
  - intros a; apply pure_sat.
  - intros a Ha; exists a; split; [apply agree_refl | now apply pure_sat].
Qed.
