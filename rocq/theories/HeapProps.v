(* Property C47: the solver's variable heap contains exactly the inserted and not
   yet removed variables, and removeMin returns one that no other precedes in
   the activity order. *)
From Coq Require Import List ZArith Lia Bool.
From Verif Require Import Queue Heap HeapProofs.
Import ListNotations.
Open Scope nat_scope.

(* --- specification --- *)

(* An admissible change of the activities when v is bumped: v may gain, and the
   (weak) order among all other variables is kept.  Adding to v's activity and
   rescaling all activities by one factor, also with rounding, are of this kind
   (sat/core.go:682-690). *)
Definition bumped (v : nat) (act act' : nat -> Z) : Prop :=
  forall x y, y <> v -> (act y <= act x -> act' y <= act' x)%Z.

(* `history rm h act S seen`: h is the heap after some sequence of operations,
   act the current activities, S the set of variables inserted and not removed
   since, seen the variables that were ever inserted.  rm tells whether
   `remove` may occur in the history.  Callers insert only variables that are
   not in the heap, remove only variables that are, and rebuild from distinct
   variables seen before (sat/core.go:574, 617-618, 658-659, 666-669, 696-703). *)
Inductive history (rm : bool) : heap -> (nat -> Z) -> (nat -> Prop) -> (nat -> Prop) -> Prop :=
| H_new : forall act, history rm newHeap act (fun _ => False) (fun _ => False)
| H_insert : forall h act S seen n h', history rm h act S seen -> ~ S n ->
    insert (actLt act) n h = Some h' ->
    history rm h' act (fun v => S v \/ v = n) (fun v => seen v \/ v = n)
| H_removeMin : forall h act S seen x h', history rm h act S seen ->
    removeMin (actLt act) h = Some (x, h') ->
    history rm h' act (fun v => S v /\ v <> x) seen
| H_remove : forall h act S seen n h', history rm h act S seen -> rm = true -> S n ->
    remove (actLt act) n h = Some h' ->
    history rm h' act (fun v => S v /\ v <> n) seen
| H_bump : forall h act act' S seen v h', history rm h act S seen -> bumped v act act' ->
    bump (actLt act') v h = Some h' ->
    history rm h' act' S seen
| H_build : forall h act S seen ns h', history rm h act S seen ->
    NoDup ns -> (forall n, In n ns -> seen n) ->
    build (actLt act) ns h = Some h' ->
    history rm h' act (fun v => In v ns) seen
| H_clear : forall h act S seen h', history rm h act S seen ->
    clear h = Some h' ->
    history rm h' act (fun _ => False) seen.

(* --- proofs --- *)
Record hinv (rm : bool) (h : heap) (act : nat -> Z) (S seen : nat -> Prop) : Prop := {
  hi_c : cons2 (hp h) (ix h);
  hi_s : forall v, In v (hp h) <-> S v;
  hi_seen : forall v, seen v -> v < length (ix h);
  hi_o : rm = false -> orderFrom act 0 (hp h)
}.

Lemma some_inj : forall {A} (a b : A), Some a = Some b -> a = b.
Proof. intros A a b H. inversion H. reflexivity. Qed.

Lemma history_inv : forall rm h act S seen, history rm h act S seen -> hinv rm h act S seen.
Proof.
  intros rm h act S seen H. induction H.
  - constructor; simpl; try tauto.
    + split; intros [|i] v E; discriminate.
    + intros _ i A B. simpl in B. lia.
  - destruct IHhistory as [C1 C2 C3 C4].
    destruct (insert_ok act h n C1) as (h2 & E & D1 & D2 & D3 & D4); [rewrite C2; assumption|].
    rewrite E in H1. apply some_inj in H1. subst h2. constructor; auto.
    + intros v. rewrite D2, C2. tauto.
    + intros v [Hv | ->]; [apply C3 in Hv; lia|lia].
  - destruct IHhistory as [C1 C2 C3 C4].
    assert (NE : hp h <> []). { intros E. unfold removeMin in H0. rewrite E in H0. discriminate. }
    destruct (removeMin_ok act h C1 NE) as (x2 & h2 & E & D1 & D2 & D3 & D4 & D5).
    rewrite E in H0. inversion H0; subst x2 h2. constructor; auto.
    + intros v. rewrite D3, C2. tauto.
    + intros v Hv. apply C3 in Hv. lia.
    + intros R. apply D5. apply C4. exact R.
  - destruct IHhistory as [C1 C2 C3 C4].
    destruct (remove_ok act h n C1) as (h2 & E & D1 & D2 & D3); [apply C2; assumption|].
    rewrite E in H2. apply some_inj in H2. subst h2. constructor; auto.
    + intros v. rewrite D2, C2. tauto.
    + intros v Hv. apply C3 in Hv. lia.
    + congruence.
  - destruct IHhistory as [C1 C2 C3 C4].
    destruct (bump_ok act' h v C1) as (h2 & E & D1 & D2 & D3 & D4).
    rewrite E in H1. apply some_inj in H1. subst h2. constructor; auto.
    + intros w. rewrite D2. apply C2.
    + intros w Hw. apply C3 in Hw. lia.
    + intros R. apply D4.
      * intros j Hj. apply (upGap_bump act act' v); auto. apply (cons2_NoDup _ _ C1).
      * intros N. apply (order_bump act act' v); auto.
  - destruct IHhistory as [C1 C2 C3 C4].
    destruct (build_ok act h ns C1 H0) as (h2 & E & D1 & D2 & D3 & D4); [intros n Hn; apply C3, H1, Hn|].
    rewrite E in H2. apply some_inj in H2. subst h2. constructor; auto.
    intros v Hv. apply C3 in Hv. lia.
  - destruct IHhistory as [C1 C2 C3 C4].
    destruct (clear_ok h C1) as (h2 & E & D1 & D2 & D3).
    rewrite E in H0. apply some_inj in H0. subst h2. constructor; auto.
    + intros v. rewrite D1. simpl. tauto.
    + intros v Hv. apply C3 in Hv. lia.
    + intros _ i A B. rewrite D1 in B. simpl in B. lia.
Qed.

(* C47, contents: after every history, with or without remove, a variable is
   reported to be in the heap iff it was inserted and not removed since; the
   heap array lists exactly these variables, without duplicates. *)
Theorem C47_contents : forall rm h act S seen, history rm h act S seen ->
  (forall v, inHeap h v = true <-> S v) /\
  (forall v, In v (hp h) <-> S v) /\ NoDup (hp h) /\
  (isEmpty h = true <-> forall v, ~ S v).
Proof.
  intros rm h act S seen H. destruct (history_inv _ _ _ _ _ H) as [C1 C2 C3 C4].
  split; [intros v; rewrite (inHeap_spec h v C1); apply C2|].
  split; [exact C2|]. split; [apply (cons2_NoDup _ _ C1)|].
  unfold isEmpty. destruct (hp h) as [|x l] eqn:E.
  - split; [intros _ v Hv; apply C2 in Hv; destruct Hv|reflexivity].
  - split; [discriminate|]. intros N. exfalso. apply (N x). apply C2. left. reflexivity.
Qed.

(* C47, totality: no operation allowed by the callers' discipline fails. *)
Theorem C47_total : forall rm h act S seen, history rm h act S seen ->
  (forall n, ~ S n -> exists h', insert (actLt act) n h = Some h') /\
  ((exists v, S v) -> exists x h', removeMin (actLt act) h = Some (x, h')) /\
  (forall n, S n -> exists h', remove (actLt act) n h = Some h') /\
  (forall act' v, exists h', bump (actLt act') v h = Some h') /\
  (forall ns, NoDup ns -> (forall n, In n ns -> seen n) -> exists h', build (actLt act) ns h = Some h') /\
  (exists h', clear h = Some h').
Proof.
  intros rm h act S seen H. destruct (history_inv _ _ _ _ _ H) as [C1 C2 C3 C4].
  split.
  { intros n Hn. destruct (insert_ok act h n C1) as (h2 & E & _); [rewrite C2; assumption|eauto]. }
  split.
  { intros (v & Hv). destruct (removeMin_ok act h C1) as (x & h2 & E & _); [|eauto].
    intros E. apply C2 in Hv. rewrite E in Hv. destruct Hv. }
  split.
  { intros n Hn. destruct (remove_ok act h n C1) as (h2 & E & _); [apply C2; assumption|eauto]. }
  split.
  { intros act' v. destruct (bump_ok act' h v C1) as (h2 & E & _). eauto. }
  split.
  { intros ns ND Hn. destruct (build_ok act h ns C1 ND) as (h2 & E & _); [intros n I; apply C3, Hn, I|eauto]. }
  destruct (clear_ok h C1) as (h2 & E & _). eauto.
Qed.

(* C47, minimum: as long as no variable was taken out with remove (that is, no
   solver state was loaded), removeMin returns a variable of the heap that no
   other one precedes in the activity order.  The full claim, for histories
   with remove, is refuted below. *)
Theorem C47_removeMin_partial : forall h act S seen x h', history false h act S seen ->
  removeMin (actLt act) h = Some (x, h') ->
  S x /\ forall v, S v -> actLt act v x = false.
Proof.
  intros h act S seen x h' H E. destruct (history_inv _ _ _ _ _ H) as [C1 C2 C3 C4].
  assert (NE : hp h <> []). { intros Z. unfold removeMin in E. rewrite Z in E. discriminate. }
  destruct (removeMin_ok act h C1 NE) as (x2 & h2 & E2 & D1 & D2 & D3 & D4 & D5).
  rewrite E in E2. inversion E2; subst x2 h2.
  split; [apply C2; exact D2|]. intros v Hv. unfold actLt. apply Z.ltb_ge.
  apply (proj2 (D5 (C4 eq_refl))). apply C2. exact Hv.
Qed.

(* rebuilding the heap restores the order after any history *)
Theorem C47_build_restores : forall rm h act S seen ns h' x h'', history rm h act S seen ->
  NoDup ns -> (forall n, In n ns -> seen n) ->
  build (actLt act) ns h = Some h' -> removeMin (actLt act) h' = Some (x, h'') ->
  In x ns /\ forall v, In v ns -> actLt act v x = false.
Proof.
  intros rm h act S seen ns h' x h'' H ND Hn B E. destruct (history_inv _ _ _ _ _ H) as [C1 C2 C3 C4].
  destruct (build_ok act h ns C1 ND) as (h2 & E2 & D1 & D2 & D3 & D4); [intros n I; apply C3, Hn, I|].
  rewrite B in E2. apply some_inj in E2. subst h2.
  assert (NE : hp h' <> []). { intros Z. unfold removeMin in E. rewrite Z in E. discriminate. }
  destruct (removeMin_ok act h' D1 NE) as (x2 & h3 & E3 & F1 & F2 & F3 & F4 & F5).
  rewrite E in E3. inversion E3; subst x2 h3. split; [apply D2; exact F2|].
  intros v Hv. unfold actLt. apply Z.ltb_ge. apply (proj2 (F5 D4)). apply D2. exact Hv.
Qed.

(* --- remove breaks the order --- *)
Definition exAct (v : nat) : Z := nth v [4; 4; 1; 5; 1; 6; 7]%Z 0%Z.

Fixpoint inserts (ns : list nat) (h : heap) : option heap :=
  match ns with
  | [] => Some h
  | n :: r => match insert (actLt exAct) n h with Some h' => inserts r h' | None => None end
  end.

Lemma inserts_history : forall rm ns h S seen h', history rm h exAct S seen -> NoDup ns ->
  (forall n, In n ns -> ~ S n) -> inserts ns h = Some h' ->
  exists S' seen', history rm h' exAct S' seen' /\ (forall v, S' v <-> S v \/ In v ns).
Proof.
  induction ns as [|n ns IH]; intros h S seen h' H ND N E; simpl in E.
  - inversion E; subst. exists S, seen. split; [exact H|]. simpl. tauto.
  - destruct (insert (actLt exAct) n h) as [h1|] eqn:E1; [|discriminate].
    inversion ND as [|a b Na Nb]; subst.
    assert (H1 := H_insert rm h exAct S seen n h1 H (N n ltac:(left; reflexivity)) E1).
    destruct (IH h1 _ _ h' H1 Nb) as (S' & seen' & A & B).
    + intros m Hm [Sm | ->]; [apply (N m); [right; exact Hm|exact Sm]|apply Na; exact Hm].
    + exact E.
    + exists S', seen'. split; [exact A|]. intros v. rewrite B. simpl. intuition.
Qed.

(* the heaps after inserting 0..6, removing 1 and taking out two variables *)
Definition hOr (o : option heap) : heap := match o with Some h => h | None => newHeap end.
Definition hMin (o : option (nat * heap)) : nat * heap :=
  match o with Some p => p | None => (0, newHeap) end.
Definition exA := hOr (inserts [0; 1; 2; 3; 4; 5; 6] newHeap).
Definition exB := hOr (remove (actLt exAct) 1 exA).
Definition exC := hMin (removeMin (actLt exAct) exB).
Definition exD := hMin (removeMin (actLt exAct) (snd exC)).
Definition exE := hMin (removeMin (actLt exAct) (snd exD)).

(* C47 fails for histories with remove, as loading a solver state does
   (sat/core.go:574): remove only moves the replacement down, never up, so a
   later removeMin returns a variable although one with a larger activity is
   in the heap. *)
Theorem C47_removeMin_refuted :
  exists h act S seen x h' v,
    history true h act S seen /\ removeMin (actLt act) h = Some (x, h') /\
    S v /\ actLt act v x = true.
Proof.
  destruct (inserts_history true [0; 1; 2; 3; 4; 5; 6] newHeap _ _ exA (H_new true exAct))
    as (S1 & seen1 & H1 & M1).
  - repeat constructor; simpl; lia.
  - intros n _ F. exact F.
  - vm_compute. reflexivity.
  - assert (H2 : history true exB exAct (fun v => S1 v /\ v <> 1) seen1).
    { apply (H_remove true exA exAct S1 seen1 1 exB H1 eq_refl).
      - apply M1. right. simpl. tauto.
      - vm_compute. reflexivity. }
    assert (H3 := H_removeMin true exB exAct _ seen1 (fst exC) (snd exC) H2 ltac:(vm_compute; reflexivity)).
    assert (H4 := H_removeMin true _ exAct _ seen1 (fst exD) (snd exD) H3 ltac:(vm_compute; reflexivity)).
    eexists _, _, _, _, (fst exE), (snd exE), 3.
    split; [exact H4|]. split; [vm_compute; reflexivity|].
    split; [|vm_compute; reflexivity].
    cbv beta. rewrite M1. vm_compute. intuition discriminate.
Qed.

(* the hypotheses of C47_removeMin_partial are met by a heap with seven variables *)
Example heap_example : exists S seen, history false exA exAct S seen /\ S 3 /\ S 6 /\
  removeMin (actLt exAct) exA = Some (6, snd (hMin (removeMin (actLt exAct) exA))).
Proof.
  destruct (inserts_history false [0; 1; 2; 3; 4; 5; 6] newHeap _ _ exA (H_new false exAct))
    as (S1 & seen1 & H1 & M1).
  - repeat constructor; simpl; lia.
  - intros n _ F. exact F.
  - vm_compute. reflexivity.
  - exists S1, seen1. split; [exact H1|]. rewrite !M1.
    split; [simpl; tauto|]. split; [simpl; tauto|]. vm_compute. reflexivity.
Qed.

Print Assumptions C47_contents.
Print Assumptions C47_total.
Print Assumptions C47_removeMin_partial.
Print Assumptions C47_build_restores.
Print Assumptions C47_removeMin_refuted.
