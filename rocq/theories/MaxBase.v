(** * MaxSAT: reasoning about the solver operations and the totalizer *)
From Coq Require Import List Bool Arith Lia Permutation.
From Verif Require Import SatSpec Sat SatProps MaxSpec MaxSat.
Import ListNotations.

Definition wpM {A} (m : M A) (x : mx) (Q : A -> mx -> Prop) : Prop := match m x with MRet a y => Q a y | MPanic => False | MStuck => True end.
Lemma wpM_ret : forall {A} (a : A) x (Q : A -> mx -> Prop), Q a x -> wpM (mret a) x Q.
Proof. intros. exact H. Qed.
Lemma wpM_bind : forall {A B} (m : M A) (f : A -> M B) x Q, wpM m x (fun a y => wpM (f a) y Q) -> wpM (mbind m f) x Q.
Proof. intros. unfold wpM, mbind in *. destruct (m x); auto. Qed.
Lemma wpM_mono : forall {A} (m : M A) x (Q R : A -> mx -> Prop), wpM m x Q -> (forall a y, Q a y -> R a y) -> wpM m x R.
Proof. intros. unfold wpM in *. destruct (m x); auto. Qed.
Lemma wpM_get : forall {A} (f : mx -> A) x (Q : A -> mx -> Prop), Q (f x) x -> wpM (mget f) x Q.
Proof. intros. exact H. Qed.
Lemma wpM_getT : forall {A} (f : tot -> A) x (Q : A -> mx -> Prop), Q (f (tot_ x)) x -> wpM (getT f) x Q.
Proof. intros. exact H. Qed.
Lemma wpM_do : forall f x (Q : unit -> mx -> Prop), Q tt (f x) -> wpM (mdo f) x Q.
Proof. intros. exact H. Qed.
Lemma wpM_setT : forall f x (Q : unit -> mx -> Prop), Q tt (set_tot_ (f (tot_ x)) x) -> wpM (setT f) x Q.
Proof. intros. exact H. Qed.
Lemma wpM_stuck : forall {A} x (Q : A -> mx -> Prop), wpM mstuck x Q.
Proof. intros. exact I. Qed.
Lemma wpM_of : forall {A} (m : M A) x Q r y, wpM m x Q -> m x = MRet r y -> Q r y.
Proof. intros A m x Q r y H E. unfold wpM in H. rewrite E in H. exact H. Qed.

(** assignments that agree on the first variables *)
Definition agree (nv : nat) (a b : assignment) : Prop := forall v, v < nv -> a v = b v.
Lemma agree_refl : forall nv a, agree nv a a. Proof. intros nv a v _. reflexivity. Qed.
Lemma agree_trans : forall n1 n2 a b c, n1 <= n2 -> agree n1 a b -> agree n2 b c -> agree n1 a c.
Proof. intros n1 n2 a b c L H1 H2 v Hv. rewrite H1 by auto. apply H2. lia. Qed.
Lemma agree_le : forall n1 n2 a b, n1 <= n2 -> agree n2 a b -> agree n1 a b.
Proof. intros n1 n2 a b L H v Hv. apply H. lia. Qed.
Lemma agree_sym : forall nv a b, agree nv a b -> agree nv b a.
Proof. intros nv a b H v Hv. symmetry. auto. Qed.
Definition below (nv : nat) (ls : list slit) : Prop := forall l, In l ls -> fst l < nv.
Lemma below_le : forall n1 n2 ls, n1 <= n2 -> below n1 ls -> below n2 ls.
Proof. intros n1 n2 ls L H l I. specialize (H l I). lia. Qed.
Lemma below_cons : forall nv l ls, below nv (l :: ls) <-> fst l < nv /\ below nv ls.
Proof. intros nv l ls. split; [intros H; split; [apply H; left; auto|intros m I; apply H; right; auto]|intros [H1 H2] m [<-|I]; auto]. Qed.
Lemma below_app : forall nv l1 l2, below nv (l1 ++ l2) <-> below nv l1 /\ below nv l2.
Proof. intros nv l1 l2. split; [intros H; split; intros l I; apply H, in_or_app; auto|intros [H1 H2] l I; apply in_app_or in I as [I|I]; auto]. Qed.
Lemma below_perm : forall nv l1 l2, Permutation l1 l2 -> below nv l1 -> below nv l2.
Proof. intros nv l1 l2 P H l I. apply H. eapply Permutation_in; [symmetry; exact P|exact I]. Qed.
Lemma lit_agree : forall nv a b l, agree nv a b -> fst l < nv -> lit_true a l = lit_true b l.
Proof. intros nv a b [v s] H L. unfold lit_true. cbn in *. rewrite H; auto. Qed.
Lemma true_in_agree : forall nv a b ls, agree nv a b -> below nv ls -> true_in a ls = true_in b ls.
Proof. intros nv a b ls H. induction ls as [|l r IH]; intros L; cbn; auto. apply below_cons in L as [L1 L2]. rewrite (lit_agree nv a b l); auto. unfold true_in in IH. rewrite IH; auto. Qed.
Lemma lit_neg : forall a l, lit_true a (neg l) = negb (lit_true a l).
Proof. intros a [v []]; unfold lit_true, neg; cbn; destruct (a v); auto. Qed.
Definition count (a : assignment) (ls : list slit) : nat := length (filter (lit_true a) ls).
Lemma count_agree : forall nv a b ls, agree nv a b -> below nv ls -> count a ls = count b ls.
Proof. intros nv a b ls H. unfold count. induction ls as [|l r IH]; intros L; cbn; auto. apply below_cons in L as [L1 L2]. rewrite (lit_agree nv a b l); auto. destruct (lit_true b l); cbn; rewrite IH; auto. Qed.
Lemma count_app : forall a l1 l2, count a (l1 ++ l2) = count a l1 + count a l2.
Proof. intros. unfold count. rewrite filter_app, app_length. auto. Qed.
Lemma count_cons : forall a l r, count a (l :: r) = (if lit_true a l then 1 else 0) + count a r.
Proof. intros. unfold count. cbn. destruct (lit_true a l); auto. Qed.
Lemma count_le : forall a ls, count a ls <= length ls.
Proof. intros. unfold count. induction ls as [|l r IH]; cbn; auto. destruct (lit_true a l); cbn; lia. Qed.
Lemma filter_perm : forall {A} (f : A -> bool) l1 l2, Permutation l1 l2 -> Permutation (filter f l1) (filter f l2).
Proof. intros A f l1 l2 P. induction P; cbn; auto. - destruct (f x); auto. - destruct (f x), (f y); auto. constructor. - eapply perm_trans; eauto. Qed.
Lemma count_perm : forall a l1 l2, Permutation l1 l2 -> count a l1 = count a l2.
Proof. intros a l1 l2 P. unfold count. apply Permutation_length, filter_perm; auto. Qed.
Lemma count_pos : forall a ls, count a ls <> 0 <-> exists l, In l ls /\ lit_true a l = true.
Proof.
  intros a ls. unfold count. split.
  - destruct (filter (lit_true a) ls) as [|l r] eqn:E; [intros H; contradiction H; auto|]. intros _. exists l. apply (proj1 (filter_In (lit_true a) l ls)). rewrite E. left; auto.
  - intros (l & I & T) H. apply length_zero_iff_nil in H. assert (In l (filter (lit_true a) ls)) by (apply filter_In; auto). rewrite H in H0. contradiction.
Qed.

(** ** The SAT solver holds exactly the constraint [P] over the first [nv] variables *)
Definition local (nv : nat) (P : assignment -> Prop) : Prop := forall a b, agree nv a b -> P a -> P b.
Definition On (x : mx) (nv : nat) (P : assignment -> Prop) : Prop :=
  (exists cs, reach MinDeep false (slv x) nv cs [] [] /\ forall a, models cs a <-> P a) /\ local nv P.
Lemma on_iff : forall x nv P P', On x nv P -> (forall a, P a <-> P' a) -> On x nv P'.
Proof.
  intros x nv P P' [(cs & R & H) L] E. split; [exists cs; split; auto; intros a; rewrite H; auto|]. intros a b A Ha. apply E. apply (L a); auto. apply E; auto.
Qed.
Lemma on_slv : forall x y nv P, slv y = slv x -> On x nv P -> On y nv P.
Proof. intros x y nv P E H. unfold On in *. rewrite E. auto. Qed.
Lemma local_le : forall n1 n2 P, n1 <= n2 -> local n1 P -> local n2 P.
Proof. intros n1 n2 P L H a b A. apply H. eapply agree_le; eauto. Qed.

(** the operations of the SAT solver keep everything else *)
Definition only (x y : mx) : Prop := y = set_slv (slv y) x.
Lemma only_refl : forall x, only x x. Proof. intros []. reflexivity. Qed.
Lemma only_trans : forall x y z, only x y -> only y z -> only x z.
Proof. unfold only. intros x y z H1 H2. rewrite H2, H1. reflexivity. Qed.
Lemma only_set : forall s x, only x (set_slv s x). Proof. intros. reflexivity. Qed.

Lemma newSatVar_ok : forall x nv P, On x nv P -> wpM newSatVar x (fun l y => l = (nv, false) /\ On y (S nv) P /\ only x y).
Proof.
  intros x nv P [(cs & R & H) L]. unfold newSatVar. apply wpM_bind. unfold wpM at 1, onSat.
  destruct (newVar true true (slv x)) as [v s| |] eqn:E; try discriminate E. apply wpM_ret.
  destruct (C37_no_panic _ _ _ _ _ _ _ R) as (N & _). destruct (N true) as (s' & E'). assert (v = nv) by congruence. subst v. split; auto. split; [|reflexivity].
  split; [|eapply local_le; [|exact L]; lia]. exists cs. split; auto. eapply reach_var; eauto.
Qed.
Lemma addC_ok : forall n ls x nv P, On x nv P -> below nv ls -> wpM (addC n ls) x (fun _ y => On y nv (fun a => P a /\ true_in a ls = true) /\ only x y).
Proof.
  intros n ls x nv P [(cs & R & H) L] B. unfold addC. apply wpM_bind. unfold wpM at 1, onSat.
  destruct (addClause n ls (slv x)) as [v s| |] eqn:E; auto; [|destruct (C37_no_panic _ _ _ _ _ _ _ R) as (_ & N & _); exact (N n ls B E)].
  apply wpM_ret. split; [|reflexivity]. split.
  - exists (SomeOf ls :: cs). split; [eapply reach_clause; eauto|]. intros a. rewrite models_cons. cbn [holds]. rewrite H. unfold true_in. rewrite existsb_exists. tauto.
  - intros a b A [Pa T]. split; [eapply L; eauto|]. rewrite <- (true_in_agree nv a b); auto.
Qed.
Lemma meach_addC : forall n (cls : list (list slit)) x nv P, On x nv P -> (forall c, In c cls -> below nv c) ->
  wpM (meach cls (addC n)) x (fun _ y => On y nv (fun a => P a /\ forall c, In c cls -> true_in a c = true) /\ only x y).
Proof.
  intros n cls. induction cls as [|c r IH]; intros x nv P H B; cbn [meach].
  - apply wpM_ret. split; [|apply only_refl]. eapply on_iff; [exact H|]. intros a. split; [intros; split; auto; intros ? []|tauto].
  - apply wpM_bind. eapply wpM_mono; [apply addC_ok; [exact H|apply B; left; auto]|]. cbv beta. intros _ y (H1 & O1). eapply wpM_mono; [apply IH; [exact H1|intros; apply B; right; auto]|]. cbv beta. intros _ z (H2 & O2). split; [|eapply only_trans; eauto].
    eapply on_iff; [exact H2|]. intros a. cbv beta. split; [intros [[X Y] Z]; split; auto; intros d [<-|I]; auto|intros [X Y]; split; [split; auto; apply Y; left; auto|intros; apply Y; right; auto]].
Qed.
(** one unit clause for the negation of every literal *)
Lemma meach_neg : forall {A} n (f : A -> slit) (ls : list A) x nv P, On x nv P -> below nv (map f ls) ->
  wpM (meach ls (fun l => addC n [neg (f l)])) x (fun _ y => On y nv (fun a => P a /\ forall l, In l ls -> lit_true a (f l) = false) /\ only x y).
Proof.
  intros A n f ls. induction ls as [|l r IH]; intros x nv P H B; cbn [meach].
  - apply wpM_ret. split; [|apply only_refl]. eapply on_iff; [exact H|]. intros a. split; [intros; split; auto; intros ? []|tauto].
  - cbn [map] in B. apply below_cons in B as [B1 B2]. apply wpM_bind. eapply wpM_mono; [apply addC_ok; [exact H|intros m [<-|[]]; exact B1]|]. cbv beta. intros _ y (H1 & O1). eapply wpM_mono; [apply IH; [exact H1|exact B2]|]. cbv beta. intros _ z (H2 & O2). split; [|eapply only_trans; eauto].
    eapply on_iff; [exact H2|]. intros a. cbv beta. unfold true_in. cbn [existsb]. rewrite orb_false_r, lit_neg. split.
    + intros [[X Y] Z]. split; auto. intros d [<-|I]; auto. destruct (lit_true a (f l)); auto; discriminate.
    + intros [X Y]. split; [split; auto; rewrite Y by (left; auto); auto|intros; apply Y; right; auto].
Qed.
Lemma mrep_vars : forall k x nv P, On x nv P -> wpM (mrep k newSatVar) x (fun ls y => ls = map (fun i => (i, false)) (seq nv k) /\ On y (nv + k) P /\ only x y).
Proof.
  induction k as [|k IH]; intros x nv P H; cbn [mrep].
  - apply wpM_ret. rewrite Nat.add_0_r. split; [reflexivity|]. split; auto. apply only_refl.
  - apply wpM_bind. eapply wpM_mono; [apply newSatVar_ok; exact H|]. cbv beta. intros l y (-> & H1 & O1). apply wpM_bind. eapply wpM_mono; [apply IH; exact H1|]. cbv beta. intros ls z (-> & H2 & O2). apply wpM_ret. cbn [seq map]. replace (nv + S k) with (S nv + k) by lia. split; auto. split; auto. eapply only_trans; eauto.
Qed.
Lemma call_ok : forall os n ps x nv P, On x nv P -> below nv ps -> (forall i, fair (os i)) ->
  wpM (call os n ps) x (fun r y => y = set_slv (slv y) (set_time (S (time x)) x) /\ On y nv P /\
    match r with
    | None => True
    | Some true => length (model (slv y)) = nv /\ P (of_list (model (slv y))) /\ forall p, In p ps -> lit_true (of_list (model (slv y))) p = true
    | Some false => (forall q, In q (conflict (slv y)) -> In (neg q) ps) /\ (forall a, P a -> exists q, In q (conflict (slv y)) /\ lit_true a q = true) /\ NoDup (conflict (slv y))
    end).
Proof.
  intros os n ps x nv P [(cs & R & H) L] B F. unfold wpM, call, onSat. cbn [slv set_time].
  destruct (solveWith (os (time x)) MinDeep n ps (slv x)) as [r s| |] eqn:E; auto; [|destruct (C37_no_panic _ _ _ _ _ _ _ R) as (_ & _ & _ & N & _); exact (N _ n ps B (F _) E)].
  cbn [slv set_slv]. split; [reflexivity|]. split.
  - split; auto. exists cs. split; auto. destruct (F (time x)). eapply reach_solve; eauto.
  - destruct r as [[]|]; auto.
    + destruct (C37_satisfiable _ _ _ _ _ _ _ _ _ _ _ R B (F _) E) as (X & Y & Z). split; auto. split; [apply H; exact Y|exact Z].
    + destruct (C37_unsatisfiable _ _ _ _ _ _ _ _ _ _ _ R B (F _) E) as (_ & Y & Z). split; auto. split; [intros a Pa; apply Z, H; auto|exact (C37_core_distinct _ _ _ _ _ _ _ _ _ _ _ R B (F _) E)].
Qed.

(** ** Trees of totalizer cells *)
Inductive tree := Nil | Leaf (l : slit) | Node (lt rt : tree) (out : list slit).
Definition outs (T : tree) : list slit := match T with Nil => [] | Leaf l => [l] | Node _ _ o => o end.
Fixpoint leaves (T : tree) : list slit := match T with Nil => [] | Leaf l => [l] | Node a b _ => leaves a ++ leaves b end.
Fixpoint cells (T : tree) : list (list slit * list slit * list slit) := match T with Node a b o => (outs a, outs b, o) :: cells a ++ cells b | _ => [] end.
Fixpoint wf (T : tree) : Prop := match T with Node a b o => length o = length (outs a) + length (outs b) /\ wf a /\ wf b | _ => True end.
Fixpoint under (nv : nat) (T : tree) : Prop := match T with Nil => True | Leaf l => fst l < nv | Node a b o => below nv o /\ under nv a /\ under nv b end.
Definition cellOk (hi : nat) (a : assignment) (c : list slit * list slit * list slit) : Prop :=
  let '(l, r, o) := c in forall i j, i <= length l -> j <= length r -> 0 < i + j <= hi -> true_in a (cellClause l r o i j) = true.
(** the outputs of a node say how many leaves are true *)
Definition rootCanon (a : assignment) (T : tree) : Prop := forall k, k < length (outs T) -> lit_true a (nth k (outs T) (0, false)) = (k <? count a (leaves T)).
Fixpoint canon (a : assignment) (T : tree) : Prop := match T with Node x y _ => rootCanon a T /\ canon a x /\ canon a y | _ => True end.
Definition subCanon (a : assignment) (T : tree) : Prop := match T with Node x y _ => canon a x /\ canon a y | _ => True end.

Lemma len_leaves : forall T, wf T -> length (outs T) = length (leaves T).
Proof. induction T as [|l|x IHx y IHy o]; cbn; auto. intros (H & Wx & Wy). rewrite app_length, H, IHx, IHy; auto. Qed.
Lemma canon_root : forall a T, canon a T -> rootCanon a T.
Proof.
  intros a [|l|x y o] H; [intros k Hk; cbn in Hk; lia| |apply H]. intros k Hk. cbn in Hk. assert (k = 0) by lia. subst. cbn [outs nth leaves]. rewrite count_cons. unfold count. cbn. destruct (lit_true a l); auto.
Qed.
Lemma canon_split : forall a T, rootCanon a T -> subCanon a T -> canon a T.
Proof. intros a [|l|x y o]; cbn; auto. Qed.
Lemma under_le : forall n1 n2 T, n1 <= n2 -> under n1 T -> under n2 T.
Proof. intros n1 n2 T L. induction T as [|l|x IHx y IHy o]; cbn; auto; [lia|]. intros (H & H1 & H2). split; auto. eapply below_le; eauto. Qed.
Lemma under_outs : forall nv T, under nv T -> below nv (outs T).
Proof. intros nv [|l|x y o] H; cbn in *; [intros m []|intros m [<-|[]]; auto|apply H]. Qed.
Lemma under_leaves : forall nv T, under nv T -> below nv (leaves T).
Proof. intros nv T. induction T as [|l|x IHx y IHy o]; cbn; [intros _ m []|intros H m [<-|[]]; auto|]. intros (_ & H1 & H2). apply below_app. auto. Qed.
Lemma rootCanon_agree : forall nv a b T, agree nv a b -> under nv T -> rootCanon a T -> rootCanon b T.
Proof.
  intros nv a b T A U H k Hk. rewrite <- (count_agree nv a b) by (auto using under_leaves). rewrite <- H by auto. symmetry. apply (lit_agree nv); auto. apply (under_outs nv T U). apply nth_In; auto.
Qed.
Lemma canon_agree : forall nv a b T, agree nv a b -> under nv T -> canon a T -> canon b T.
Proof.
  intros nv a b T A. induction T as [|l|x IHx y IHy o]; cbn [canon]; auto. intros U (H & Hx & Hy). split; [eapply rootCanon_agree; eauto|]. destruct U as (_ & U1 & U2). auto.
Qed.
Lemma subCanon_agree : forall nv a b T, agree nv a b -> under nv T -> subCanon a T -> subCanon b T.
Proof. intros nv a b [|l|x y o] A U; cbn [subCanon]; auto. destruct U as (_ & U1 & U2). intros [H1 H2]. split; eapply canon_agree; eauto. Qed.

Lemma fst_neg : forall l, fst (neg l) = fst l. Proof. reflexivity. Qed.
Lemma cellClause_under : forall nv l r o i j, below nv l -> below nv r -> below nv o -> length o = length l + length r -> i <= length l -> j <= length r -> below nv (cellClause l r o i j).
Proof.
  intros nv l r o i j Bl Br Bo Lo Hi Hj. destruct i as [|i], j as [|j]; cbn [cellClause]; intros m I; cbn [In] in I.
  - contradiction.
  - destruct I as [<-|[<-|[]]]; rewrite ?fst_neg; [apply Br|apply Bo]; apply nth_In; lia.
  - destruct I as [<-|[<-|[]]]; rewrite ?fst_neg; [apply Bl|apply Bo]; apply nth_In; lia.
  - destruct I as [<-|[<-|[<-|[]]]]; rewrite ?fst_neg; [apply Bl|apply Br|apply Bo]; apply nth_In; lia.
Qed.
(** what the clause of a cell says *)
Lemma cellClause_true : forall a l r o i j, true_in a (cellClause l r o i j) = true <->
  (0 < i + j /\ ((0 < i -> lit_true a (nth (i - 1) l (0, false)) = true) -> (0 < j -> lit_true a (nth (j - 1) r (0, false)) = true) -> lit_true a (nth (i + j - 1) o (0, false)) = true)).
Proof.
  intros a l r o i j. destruct i as [|i], j as [|j]; cbn [cellClause]; unfold true_in; cbn [existsb]; rewrite ?lit_neg, ?orb_false_r.
  - split; [discriminate|lia].
  - replace (S j - 1) with j by lia. replace (0 + S j - 1) with j by lia. destruct (lit_true a (nth j r (0, false))), (lit_true a (nth j o (0, false))); cbn [negb orb]; split; intros H; try reflexivity; try discriminate H; try (split; [lia|intros X Y; auto; apply Y; lia]); destruct H as [_ H]; apply H; auto; lia.
  - replace (S i - 1) with i by lia. replace (S i + 0 - 1) with i by lia. destruct (lit_true a (nth i l (0, false))), (lit_true a (nth i o (0, false))); cbn [negb orb]; split; intros H; try reflexivity; try discriminate H; try (split; [lia|intros X Y; auto; apply X; lia]); destruct H as [_ H]; apply H; auto; lia.
  - replace (S i - 1) with i by lia. replace (S j - 1) with j by lia. replace (S i + S j - 1) with (i + j + 1) by lia.
    destruct (lit_true a (nth i l (0, false))), (lit_true a (nth j r (0, false))), (lit_true a (nth (i + j + 1) o (0, false))); cbn [negb orb]; split; intros H; try reflexivity; try discriminate H; try (split; [lia|intros X Y; auto; first [apply X; lia|apply Y; lia]]); destruct H as [_ H]; apply H; auto; lia.
Qed.
(** if the clauses for sums up to [R + 1] hold, then the outputs up to position [R] are true if enough leaves are *)
Lemma tree_sound : forall a R T, wf T -> (forall c, In c (cells T) -> cellOk (R + 1) a c) -> forall k, k <= R -> k < count a (leaves T) -> lit_true a (nth k (outs T) (0, false)) = true.
Proof.
  intros a R T. induction T as [|l|x IHx y IHy o]; cbn [wf cells outs leaves]; intros W C k Hk Ht.
  - unfold count in Ht. cbn in Ht. lia.
  - rewrite count_cons in Ht. unfold count in Ht. cbn in Ht. destruct (lit_true a l) eqn:E; [|lia]. assert (k = 0) by lia. subst. auto.
  - destruct W as (Lo & Wx & Wy). rewrite count_app in Ht. pose proof (count_le a (leaves x)) as Lx. pose proof (count_le a (leaves y)) as Ly. rewrite <- len_leaves in Lx, Ly by auto.
    assert (Cx : forall c, In c (cells x) -> cellOk (R + 1) a c) by (intros; apply C; right; apply in_or_app; auto). assert (Cy : forall c, In c (cells y) -> cellOk (R + 1) a c) by (intros; apply C; right; apply in_or_app; auto).
    set (i := min (count a (leaves x)) (k + 1)). set (j := k + 1 - i). specialize (C (outs x, outs y, o) (or_introl eq_refl)). cbn [cellOk] in C.
    assert (Hi : i <= length (outs x)) by (unfold i; lia). assert (Hj : j <= length (outs y)) by (unfold j, i; lia). assert (Hs : i + j = k + 1) by (unfold j, i; lia).
    specialize (C i j Hi Hj ltac:(lia)). apply cellClause_true in C as [_ C]. replace (i + j - 1) with k in C by lia. apply C.
    + intros P. apply IHx; auto; unfold i in *; lia.
    + intros P. apply IHy; auto; unfold j, i in *; lia.
Qed.
Lemma canon_cells : forall a hi T, wf T -> canon a T -> forall c, In c (cells T) -> cellOk hi a c.
Proof.
  intros a hi T. induction T as [|l|x IHx y IHy o]; cbn [wf cells canon]; intros W Ca c I; try contradiction. destruct W as (Lo & Wx & Wy), Ca as (Rc & Cx & Cy). destruct I as [<-|I].
  - intros i j Hi Hj Hs. apply cellClause_true. split; [lia|]. intros X Y. unfold rootCanon in Rc. cbn [outs leaves] in Rc. rewrite Rc by lia. rewrite count_app. apply Nat.ltb_lt.
    assert (i <= count a (leaves x)). { destruct i as [|i]; [lia|]. pose proof (canon_root a x Cx i ltac:(lia)) as Z. specialize (X ltac:(lia)). replace (S i - 1) with i in X by lia. rewrite X in Z. symmetry in Z. apply Nat.ltb_lt in Z. lia. }
    assert (j <= count a (leaves y)). { destruct j as [|j]; [lia|]. pose proof (canon_root a y Cy j ltac:(lia)) as Z. specialize (Y ltac:(lia)). replace (S j - 1) with j in Y by lia. rewrite Y in Z. symmetry in Z. apply Nat.ltb_lt in Z. lia. }
    lia.
  - apply in_app_or in I as [I|I]; auto.
Qed.
Lemma cellOk_agree : forall nv hi a b T, agree nv a b -> under nv T -> wf T -> (forall c, In c (cells T) -> cellOk hi a c) -> forall c, In c (cells T) -> cellOk hi b c.
Proof.
  intros nv hi a b T A. induction T as [|l|x IHx y IHy o]; cbn [under wf cells]; intros U W C c I; try contradiction. destruct U as (U0 & U1 & U2), W as (W0 & W1 & W2). destruct I as [<-|I].
  - pose proof (C (outs x, outs y, o) (or_introl eq_refl)) as Z. cbn [cellOk] in *. intros i j Hi Hj Hs. rewrite <- (true_in_agree nv a b); auto. apply cellClause_under; auto using under_outs.
  - apply in_app_or in I as [I|I]; [apply IHx|apply IHy]; auto; intros; apply C; right; apply in_or_app; auto.
Qed.
