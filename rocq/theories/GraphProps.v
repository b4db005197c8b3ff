(* Property C44: connected components and the splitting of formulas by component. *)
From Coq Require Import List Arith Lia Bool Relations.
From Verif Require Import Queue HeapProofs Graph GraphProofs.
Import ListNotations.
Open Scope nat_scope.

(* --- specification --- *)

(* the calls on a graph *)
Inductive gop := GAdd (f : nat) | GConnect (a b : nat).

Definition gstep (g : fgraph) (o : gop) : option fgraph :=
  match o with
  | GAdd f => Some (fst (addNode g f))
  | GConnect a b => connect g a b
  end.

Fixpoint grun (g : fgraph) (os : list gop) : option fgraph :=
  match os with
  | [] => Some g
  | o :: r => match gstep g o with Some g' => grun g' r | None => None end
  end.

(* the formulas mentioned by the calls are the nodes *)
Definition mentioned (os : list gop) (f : nat) : Prop :=
  In (GAdd f) os \/ exists h, In (GConnect f h) os \/ In (GConnect h f) os.

(* two formulas are connected if a chain of connected pairs, in either
   direction, leads from one to the other *)
Definition connected (os : list gop) : nat -> nat -> Prop :=
  clos_refl_sym_trans nat (fun a b => In (GConnect a b) os).

(* --- proofs --- *)
Record ginv (os : list gop) (g : fgraph) : Prop := {
  gi_ok : gok g;
  gi_nodes : forall f, In f (nodes g) <-> mentioned os f;
  gi_adj : forall i j a b, nth_error (nodes g) i = Some a -> nth_error (nodes g) j = Some b ->
     (adj g i j <-> a <> b /\ (In (GConnect a b) os \/ In (GConnect b a) os))
}.

Lemma ginv_step : forall os g o, ginv os g -> exists g', gstep g o = Some g' /\ ginv (os ++ [o]) g'.
Proof.
  intros os g o [K N A]. destruct o as [f | a b].
  - destruct (addNode_ok g f K) as (K1 & N1 & P1 & I1 & A1). simpl.
    eexists. split; [reflexivity|]. constructor; [exact K1| |].
    + intros h. rewrite I1, N. unfold mentioned. split.
      * intros [[H | (x & H)] | ->].
        -- left. apply in_or_app. left. exact H.
        -- right. exists x. rewrite !in_app_iff. tauto.
        -- left. apply in_or_app. right. left. reflexivity.
      * intros [H | (x & H)].
        -- apply in_app_or in H. destruct H as [H | [H|[]]]; [tauto|]. inversion H. auto.
        -- left. right. exists x. rewrite !in_app_iff in H. simpl in H. intuition discriminate.
    + intros i j x y Hi Hj. rewrite A1.
      assert (EQ : forall u v, In (GConnect u v) (os ++ [GAdd f]) <-> In (GConnect u v) os).
      { intros u v. rewrite in_app_iff. simpl. intuition discriminate. }
      rewrite !EQ.
      assert (OLD : forall u, In u (nodes g) -> exists k, nth_error (nodes g) k = Some u).
      { intros u H. apply In_nth_error. exact H. }
      split.
      * intros H. assert (Lj := go_rng g K i j H). assert (Li := go_rng g K j i (go_sym g K i j H)).
        destruct (ne_ex _ _ Li) as (x' & X). destruct (ne_ex _ _ Lj) as (y' & Y).
        assert (X2 := P1 _ _ X). assert (Y2 := P1 _ _ Y).
        assert (x' = x) by congruence. assert (y' = y) by congruence. subst.
        apply (A i j x y X Y). exact H.
      * intros H. assert (Mx : In x (nodes g)) by (apply N; right; exists y; tauto).
        assert (My : In y (nodes g)) by (apply N; right; exists x; tauto).
        destruct (OLD x Mx) as (i' & X). destruct (OLD y My) as (j' & Y).
        assert (i' = i) by (apply (gok_inj _ i' i x K1); auto).
        assert (j' = j) by (apply (gok_inj _ j' j y K1); auto). subst.
        apply (A i j x y X Y). exact H.
  - destruct (connect_ok g a b K) as (g' & E & K1 & P1 & I1 & A1). simpl. rewrite E.
    exists g'. split; [reflexivity|]. constructor; [exact K1| |].
    + intros h. rewrite I1, N. unfold mentioned. split.
      * intros [[H | (x & H)] | H].
        -- left. apply in_or_app. left. exact H.
        -- right. exists x. rewrite !in_app_iff. tauto.
        -- right. destruct H as [-> | ->]; [exists b|exists a]; rewrite !in_app_iff; simpl; auto.
      * intros [H | (x & H)].
        -- apply in_app_or in H. destruct H as [H | [H|[]]]; [tauto|]. discriminate.
        -- rewrite !in_app_iff in H. simpl in H. destruct H as [[H | [H|[]]] | [H | [H|[]]]].
           ++ left. right. exists x. tauto.
           ++ inversion H. auto.
           ++ left. right. exists x. tauto.
           ++ inversion H. auto.
    + intros i j x y Hi Hj. rewrite A1.
      assert (EQ : forall u v, In (GConnect u v) (os ++ [GConnect a b]) <-> In (GConnect u v) os \/ (u = a /\ v = b)).
      { intros u v. rewrite in_app_iff. simpl. split.
        - intros [H | [H | []]]; [auto|]. inversion H. auto.
        - intros [H | [-> ->]]; auto. }
      rewrite !EQ.
      assert (OLDA : adj g i j <-> x <> y /\ (In (GConnect x y) os \/ In (GConnect y x) os)).
      { split.
        - intros H. assert (Lj := go_rng g K i j H). assert (Li := go_rng g K j i (go_sym g K i j H)).
          destruct (ne_ex _ _ Li) as (x' & X). destruct (ne_ex _ _ Lj) as (y' & Y).
          assert (X2 := P1 _ _ X). assert (Y2 := P1 _ _ Y).
          assert (x' = x) by congruence. assert (y' = y) by congruence. subst.
          apply (A i j x y X Y). exact H.
        - intros H. assert (Mx : In x (nodes g)) by (apply N; right; exists y; tauto).
          assert (My : In y (nodes g)) by (apply N; right; exists x; tauto).
          destruct (In_nth_error _ _ Mx) as (i' & X). destruct (In_nth_error _ _ My) as (j' & Y).
          assert (i' = i) by (apply (gok_inj _ i' i x K1); auto).
          assert (j' = j) by (apply (gok_inj _ j' j y K1); auto). subst.
          apply (A i j x y X Y). exact H. }
      rewrite OLDA, Hi, Hj. split.
      * intros [[H1 H2] | [H1 [[Hx Hy] | [Hx Hy]]]].
        -- tauto.
        -- inversion Hx; inversion Hy; subst. tauto.
        -- inversion Hx; inversion Hy; subst. split; [congruence|tauto].
      * intros [H1 [[H2 | [-> ->]] | [H2 | [-> ->]]]]; auto 6.
Qed.

Lemma ginv_new : ginv [] newGraph.
Proof.
  constructor; [apply gok_new| |].
  - intros f. unfold mentioned. simpl. split; [intros []|]. intros [[] | (x & [[] | []])].
  - intros i j a b H. destruct i; discriminate.
Qed.

Lemma grun_inv : forall os os0 g, ginv os0 g -> exists g', grun g os = Some g' /\ ginv (os0 ++ os) g'.
Proof.
  induction os as [|o os IH]; intros os0 g I; simpl.
  - exists g. rewrite app_nil_r. auto.
  - destruct (ginv_step os0 g o I) as (g1 & E & I1). rewrite E.
    destruct (IH (os0 ++ [o]) g1 I1) as (g2 & E2 & I2). exists g2. split; [exact E2|].
    rewrite <- app_assoc in I2. exact I2.
Qed.

Lemma path_connected : forall os g i j a b, ginv os g -> path g i j ->
  nth_error (nodes g) i = Some a -> nth_error (nodes g) j = Some b -> connected os a b.
Proof.
  intros os g i j a b I P. revert a b. induction P; intros a b A B.
  - assert (H1 := proj1 (gi_adj os g I x y a b A B) H). destruct H1 as (_ & [C|C]).
    + apply rst_step. exact C.
    + apply rst_sym. apply rst_step. exact C.
  - assert (a = b) by congruence. subst. apply rst_refl.
  - assert (K := gi_ok os g I).
    assert (Ly : y < length (nodes g)).
    { clear IHP1 IHP2 P2. assert (La := ne_lt _ _ _ A). clear A a B b.
      induction P1; auto. apply (go_rng g K x y H). }
    destruct (ne_ex _ _ Ly) as (c & C). apply rst_trans with c; [apply IHP1|apply IHP2]; assumption.
Qed.

Lemma connected_path : forall os g a b, ginv os g -> connected os a b ->
  (a = b \/ exists i j, nth_error (nodes g) i = Some a /\ nth_error (nodes g) j = Some b /\ path g i j).
Proof.
  intros os g a b I H. assert (K := gi_ok os g I). induction H as [x y H|x|x y H IH|x y z H1 IH1 H2 IH2].
  - destruct (Nat.eq_dec x y) as [->|N]; [left; reflexivity|right].
    assert (Mx : In x (nodes g)) by (apply (gi_nodes os g I); right; exists y; tauto).
    assert (My : In y (nodes g)) by (apply (gi_nodes os g I); right; exists x; tauto).
    destruct (In_nth_error _ _ Mx) as (i & X). destruct (In_nth_error _ _ My) as (j & Y).
    exists i, j. split; [exact X|]. split; [exact Y|]. apply rt_step.
    apply (gi_adj os g I i j x y X Y). tauto.
  - left. reflexivity.
  - destruct IH as [-> | (i & j & A & B & P)]; [left; reflexivity|right].
    exists j, i. split; [exact B|]. split; [exact A|]. apply path_sym; assumption.
  - destruct IH1 as [-> | (i & j & A & B & P)]; [exact IH2|].
    destruct IH2 as [<- | (j' & k & B' & C & Q)]; [right; exists i, j; auto|right].
    assert (j' = j) by (apply (gok_inj g j' j y K B' B)). subst j'.
    exists i, k. split; [exact A|]. split; [exact C|]. apply rt_trans with j; assumption.
Qed.

(* the partition property of components, for a graph with the invariant *)
Definition isPartition (os : list gop) (comps : list (list nat)) : Prop :=
  NoDup (concat comps) /\
  (forall f, In f (concat comps) <-> mentioned os f) /\
  (forall c, In c comps -> c <> [] /\ forall a b, In a c -> (In b c <-> connected os a b)).

Lemma components_inv : forall os g, ginv os g -> exists comps, components g = Some comps /\ isPartition os comps.
Proof.
  intros os g I. assert (K := gi_ok os g I).
  destruct (components_idx g K) as (ls & E & N & R & P).
  set (nm := fun i => nth i (nodes g) 0) in *.
  exists (map (map nm) ls). split; [exact E|].
  assert (NE : forall i, i < length (nodes g) -> nth_error (nodes g) i = Some (nm i)).
  { intros i H. apply nth_error_nth'. exact H. }
  assert (CC : concat (map (map nm) ls) = map nm (concat ls)) by (symmetry; apply concat_map).
  assert (INC : forall l i, In l ls -> In i l -> i < length (nodes g)).
  { intros l i Hl Hi. apply R. apply in_concat. exists l. auto. }
  split; [|split].
  - rewrite CC. clear E P CC INC. 
    assert (INJ : forall i j, In i (concat ls) -> In j (concat ls) -> nm i = nm j -> i = j).
    { intros i j Hi Hj Q. apply R in Hi. apply R in Hj. apply (gok_inj g i j (nm i) K); [apply NE; exact Hi|].
      rewrite Q. apply NE. exact Hj. }
    clear R. induction (concat ls) as [|x l IH]; simpl; [constructor|]. inversion N; subst. constructor.
    + intros H. apply in_map_iff in H. destruct H as (y & Q & Y).
      assert (y = x) by (apply INJ; [right; exact Y|left; reflexivity|exact Q]). subst. contradiction.
    + apply IH; [assumption|]. intros i j Hi Hj. apply INJ; right; assumption.
  - intros f. rewrite CC, in_map_iff, <- (gi_nodes os g I). split.
    + intros (i & <- & Hi). apply R in Hi. apply nth_In. exact Hi.
    + intros H. destruct (In_nth_error _ _ H) as (i & Hi). assert (L := ne_lt _ _ _ Hi).
      exists i. split; [|apply R; exact L]. assert (Q := NE i L). congruence.
  - intros c Hc. apply in_map_iff in Hc. destruct Hc as (l & <- & Hl).
    destruct (P l Hl) as [P1 P2]. split; [destruct l; [congruence|discriminate]|].
    intros a b Ha. apply in_map_iff in Ha. destruct Ha as (i & <- & Hi).
    assert (Li := NE i (INC l i Hl Hi)). split.
    + intros Hb. apply in_map_iff in Hb. destruct Hb as (j & <- & Hj).
      apply (path_connected os g i j _ _ I); [apply (P2 i j Hi); exact Hj|exact Li|].
      apply NE. apply (INC l j Hl Hj).
    + intros C. destruct (connected_path os g (nm i) b I C) as [<- | (i' & j & A & B & Q)].
      * apply in_map. exact Hi.
      * assert (i' = i) by (apply (gok_inj g i' i (nm i) K A Li)). subst i'.
        apply in_map_iff. exists j. split; [|apply (P2 i j Hi); exact Q].
        unfold nm. apply nth_error_nth. exact B.
Qed.

(* C44, components: for every sequence of AddNode and Connect calls the computed
   components partition the nodes: every mentioned formula is in exactly one
   component (exactly once), no component is empty, and two formulas are in the
   same component iff they are connected. *)
Theorem C44_components : forall os,
  exists g comps, grun newGraph os = Some g /\ components g = Some comps /\
    NoDup (concat comps) /\
    (forall f, In f (concat comps) <-> mentioned os f) /\
    (forall c, In c comps -> c <> [] /\ forall a b, In a c -> (In b c <-> connected os a b)).
Proof.
  intros os. destruct (grun_inv os [] newGraph ginv_new) as (g & E & I). simpl in I.
  destruct (components_inv os g I) as (comps & C & P). exists g, comps. split; [exact E|]. split; [exact C|]. exact P.
Qed.

(* --- constraint graphs and splitting --- *)
Fixpoint pairOps (vs : list nat) : list gop :=
  match vs with
  | [] => []
  | v :: r => map (GConnect v) r ++ pairOps r
  end.
Definition formulaOps (vs : list nat) : list gop :=
  (match vs with [v] => [GAdd v] | _ => [] end) ++ pairOps vs.

Lemma grun_app : forall a b g, grun g (a ++ b) = match grun g a with Some g' => grun g' b | None => None end.
Proof. induction a as [|o a IH]; intros b g; simpl; [reflexivity|]. destruct (gstep g o); auto. Qed.

Lemma connectTo_run : forall ws v g, connectTo g v ws = grun g (map (GConnect v) ws).
Proof. induction ws as [|w ws IH]; intros v g; simpl; [reflexivity|]. destruct (connect g v w); auto. Qed.

Lemma connectAll_run : forall vs g, connectAll g vs = grun g (pairOps vs).
Proof.
  induction vs as [|v vs IH]; intros g; simpl; [reflexivity|]. rewrite connectTo_run, grun_app.
  destruct (grun g (map (GConnect v) vs)); auto.
Qed.

Lemma addSubformula_run : forall vs g, addSubformula g vs = grun g (formulaOps vs).
Proof.
  intros vs g. unfold addSubformula, formulaOps. rewrite grun_app, connectAll_run.
  destruct vs as [|v [|w r]]; reflexivity.
Qed.

Definition graphOps (vars : nat -> list nat) (fs : list nat) : list gop :=
  flat_map (fun f => formulaOps (vars f)) fs.

Lemma constraintGraph_run : forall vars fs g, constraintGraphFrom vars g fs = grun g (graphOps vars fs).
Proof.
  intros vars. induction fs as [|f fs IH]; intros g; simpl; [reflexivity|].
  rewrite addSubformula_run, grun_app. destruct (grun g (formulaOps (vars f))); auto.
Qed.

Lemma pairOps_conn : forall vs a b, In a vs -> In b vs -> a <> b ->
  In (GConnect a b) (pairOps vs) \/ In (GConnect b a) (pairOps vs).
Proof.
  induction vs as [|v vs IH]; intros a b A B N; [destruct A|]. simpl. rewrite !in_app_iff, !in_map_iff.
  destruct A as [-> | A], B as [-> | B]; try congruence.
  - left. left. exists b. auto.
  - right. left. exists a. auto.
  - destruct (IH a b A B N); auto.
Qed.

Lemma pairOps_in : forall vs a b, In (GConnect a b) (pairOps vs) -> In a vs /\ In b vs.
Proof.
  induction vs as [|v vs IH]; intros a b H; [destruct H|]. simpl in H. apply in_app_or in H.
  destruct H as [H|H].
  - apply in_map_iff in H. destruct H as (w & E & W). inversion E; subst. split; [left; reflexivity|right; exact W].
  - apply IH in H. destruct H. split; right; assumption.
Qed.

Lemma formulaOps_mentioned : forall vs f, NoDup vs -> (mentioned (formulaOps vs) f <-> In f vs).
Proof.
  intros vs f ND. unfold mentioned, formulaOps. split.
  - intros [H | (x & [H | H])]; apply in_app_or in H; destruct H as [H|H].
    + destruct vs as [|v [|w r]]; simpl in H; try contradiction.
      destruct H as [H|[]]. inversion H. left. reflexivity.
    + exfalso. clear ND. induction vs as [|v vs IH]; [destruct H|]. simpl in H. apply in_app_or in H.
      destruct H as [H|H]; [|auto]. apply in_map_iff in H. destruct H as (w & E & _). discriminate.
    + exfalso. destruct vs as [|v [|w r]]; simpl in H; try contradiction.
      destruct H as [H|[]]. discriminate.
    + apply pairOps_in in H. tauto.
    + exfalso. destruct vs as [|v [|w r]]; simpl in H; try contradiction.
      destruct H as [H|[]]. discriminate.
    + apply pairOps_in in H. tauto.
  - intros H. destruct vs as [|v [|w r]]; [destruct H| |].
    + destruct H as [-> | []]. left. left. reflexivity.
    + right. assert (X : exists x, In x (v :: w :: r) /\ f <> x).
      { destruct (Nat.eq_dec f v) as [->|N]; [|exists v; simpl; auto].
        exists w. split; [simpl; auto|]. inversion ND; subst. simpl in *. intuition. }
      destruct X as (x & X & N). exists x.
      destruct (pairOps_conn _ f x H X N); [left|right]; apply in_or_app; right; assumption.
Qed.

Lemma graphOps_mentioned : forall vars fs x, (forall f, NoDup (vars f)) ->
  (mentioned (graphOps vars fs) x <-> exists f, In f fs /\ In x (vars f)).
Proof.
  intros vars fs x ND. unfold graphOps. split.
  - intros H.
    assert (X : exists f, In f fs /\ mentioned (formulaOps (vars f)) x).
    { destruct H as [H | (y & [H | H])]; apply in_flat_map in H; destruct H as (f & F & H); exists f; split; auto;
        [left|right; exists y|right; exists y]; auto. }
    destruct X as (f & F & M). exists f. split; [exact F|]. apply (formulaOps_mentioned _ _ (ND f)). exact M.
  - intros (f & F & X). apply (formulaOps_mentioned _ _ (ND f)) in X.
    destruct X as [H | (y & [H | H])]; [left|right; exists y; left|right; exists y; right];
      apply in_flat_map; exists f; auto.
Qed.

Lemma graphOps_connected : forall vars fs f a b, In f fs -> In a (vars f) -> In b (vars f) ->
  connected (graphOps vars fs) a b.
Proof.
  intros vars fs f a b F A B. destruct (Nat.eq_dec a b) as [->|N]; [apply rst_refl|].
  assert (X : forall u v, In (GConnect u v) (pairOps (vars f)) -> connected (graphOps vars fs) u v).
  { intros u v H. apply rst_step. apply in_flat_map. exists f. split; [exact F|].
    apply in_or_app. right. exact H. }
  destruct (pairOps_conn _ a b A B N) as [H|H]; [apply X; exact H|apply rst_sym; apply X; exact H].
Qed.

(* the map from variables to component numbers *)
Lemma lookup_app : forall a b k, lookupNat (a ++ b) k =
  match lookupNat a k with Some i => Some i | None => lookupNat b k end.
Proof. induction a as [|(x & y) a IH]; intros b k; simpl; [reflexivity|]. destruct (k =? x); auto. Qed.

Lemma lookup_block : forall c i k, lookupNat (rev (map (fun v => (v, i)) c)) k = if in_dec Nat.eq_dec k c then Some i else None.
Proof.
  intros c i k.
  assert (G : forall l, (forall p, In p l -> snd p = i) ->
            lookupNat l k = if in_dec Nat.eq_dec k (map fst l) then Some i else None).
  { induction l as [|(x & y) l IH]; intros H; simpl; [reflexivity|].
    destruct (Nat.eq_dec x k) as [->|N].
    - rewrite Nat.eqb_refl. f_equal. apply (H (k, y)). left. reflexivity.
    - replace (k =? x) with false by (symmetry; apply Nat.eqb_neq; congruence).
      rewrite IH by (intros p Hp; apply H; right; exact Hp).
      destruct (in_dec Nat.eq_dec k (map fst l)); reflexivity. }
  rewrite G.
  - assert (Q : In k (map fst (rev (map (fun v => (v, i)) c))) <-> In k c).
    { rewrite map_rev, <- in_rev, map_map. simpl. rewrite map_id. tauto. }
    destruct (in_dec Nat.eq_dec k (map fst (rev (map (fun v => (v, i)) c)))), (in_dec Nat.eq_dec k c); tauto.
  - intros p Hp. apply in_rev in Hp. apply in_map_iff in Hp. destruct Hp as (v & <- & _). reflexivity.
Qed.

Lemma varMap_ok : forall comps i m k, NoDup (concat comps) ->
  lookupNat (varMapFrom i comps m) k =
    match lookupNat (varMapFrom i comps []) k with Some c => Some c | None => lookupNat m k end /\
  (forall c, lookupNat (varMapFrom i comps []) k = Some c <->
     i <= c /\ exists comp, nth_error comps (c - i) = Some comp /\ In k comp).
Proof.
  induction comps as [|c0 comps IH]; intros i m k ND.
  - simpl. split; [reflexivity|]. intros c. split; [discriminate|]. intros (_ & comp & H & _).
    destruct (c - i); discriminate.
  - simpl in ND. assert (ND2 : NoDup (concat comps)).
    { clear - ND. induction c0 as [|x c0 IH]; [exact ND|]. inversion ND; subst. auto. }
    assert (DJ : In k c0 -> ~ In k (concat comps)).
    { clear - ND. intros A B. induction c0 as [|x c0 IH]; [destruct A|]. inversion ND; subst.
      destruct A as [-> | A]; [apply H1; apply in_or_app; right; exact B|auto]. }
    cbn [varMapFrom]. rewrite app_nil_r.
    destruct (IH (S i) (rev (map (fun v => (v, i)) c0) ++ m) k ND2) as [E1 E2].
    destruct (IH (S i) (rev (map (fun v => (v, i)) c0)) k ND2) as [F1 _].
    rewrite E1, F1, lookup_app, lookup_block. split.
    + destruct (lookupNat (varMapFrom (S i) comps []) k); [reflexivity|].
      destruct (in_dec Nat.eq_dec k c0); reflexivity.
    + intros c. destruct (lookupNat (varMapFrom (S i) comps []) k) as [c1|] eqn:L.
      * destruct (proj1 (E2 c1) eq_refl) as (A & comp & B & C). split.
        -- intros H. inversion H; subst c. split; [lia|]. exists comp.
           replace (c1 - i) with (S (c1 - S i)) by lia. auto.
        -- intros (A' & comp' & B' & C'). destruct (c - i) as [|d] eqn:D.
           ++ simpl in B'. inversion B'; subst comp'. exfalso. apply (DJ C'). apply in_concat.
              exists comp. split; [apply nth_error_In with (c1 - S i); exact B|exact C].
           ++ apply E2. split; [lia|]. exists comp'. replace (c - S i) with d by lia. auto.
      * destruct (in_dec Nat.eq_dec k c0) as [I|I].
        -- split.
           ++ intros H. inversion H; subst c. split; [lia|]. exists c0. rewrite Nat.sub_diag. auto.
           ++ intros (A' & comp' & B' & C'). destruct (c - i) as [|d] eqn:D; [f_equal; lia|].
              exfalso. apply (DJ I). apply in_concat. exists comp'. split; [apply nth_error_In with d; exact B'|exact C'].
        -- split; [discriminate|]. intros (A' & comp' & B' & C'). destruct (c - i) as [|d] eqn:D.
           ++ simpl in B'. inversion B'; subst. contradiction.
           ++ assert (X : None = Some c).
              { apply E2. split; [lia|]. exists comp'. replace (c - S i) with d by lia. auto. }
              discriminate.
Qed.

Lemma appendAt_ok : forall gs i f, i < length gs -> exists gs', appendAt gs i f = Some gs' /\
  length gs' = length gs /\ nth i gs' [] = nth i gs [] ++ [f] /\ forall j, j <> i -> nth j gs' [] = nth j gs [].
Proof.
  induction gs as [|g gs IH]; intros i f H; simpl in H; [lia|]. destruct i as [|i]; simpl.
  - eexists. split; [reflexivity|]. simpl. split; [reflexivity|]. split; [reflexivity|].
    intros [|j] N; [lia|reflexivity].
  - destruct (IH i f ltac:(lia)) as (gs' & E & L & A & B). rewrite E. eexists. split; [reflexivity|].
    simpl. split; [lia|]. split; [exact A|]. intros [|j] N; [reflexivity|apply B; lia].
Qed.

(* a formula belongs to a component if it has variables and they are all in it *)
Definition belongs (vars : nat -> list nat) (comp : list nat) (f : nat) : bool :=
  negb (match vars f with [] => true | _ => false end) &&
  forallb (fun v => if in_dec Nat.eq_dec v comp then true else false) (vars f).

Definition constantFalse (vars : nat -> list nat) (isNeg : nat -> bool) (f : nat) : bool :=
  match vars f with [] => isNeg f | _ => false end.

Lemma splitLoop_ok : forall vars isNeg falsum comps fs groups tail,
  NoDup (concat comps) ->
  (forall f, In f fs -> vars f <> [] -> exists c, In c comps /\ belongs vars c f = true) ->
  length groups = length comps ->
  exists groups', splitLoop vars isNeg falsum (varMapFrom 0 comps []) fs (groups ++ tail) =
      Some (groups' ++ tail ++ repeat [falsum] (length (filter (constantFalse vars isNeg) fs))) /\
    length groups' = length comps /\
    forall i, i < length comps ->
      nth i groups' [] = nth i groups [] ++ filter (belongs vars (nth i comps [])) fs.
Proof.
  intros vars isNeg falsum comps fs. induction fs as [|f fs IH]; intros groups tail ND H L; simpl.
  - exists groups. rewrite app_nil_r. split; [reflexivity|]. split; [exact L|]. intros. rewrite app_nil_r. reflexivity.
  - destruct (vars f) as [|v r] eqn:V.
    + assert (CF : constantFalse vars isNeg f = isNeg f) by (unfold constantFalse; rewrite V; reflexivity).
      rewrite CF.
      assert (BF : forall c, belongs vars c f = false) by (intros c; unfold belongs; rewrite V; reflexivity).
      assert (T : (if isNeg f then (groups ++ tail) ++ [[falsum]] else groups ++ tail) =
                  groups ++ (tail ++ (if isNeg f then [[falsum]] else []))).
      { destruct (isNeg f); [rewrite app_assoc; reflexivity|rewrite app_nil_r; reflexivity]. }
      rewrite T.
      destruct (IH groups (tail ++ (if isNeg f then [[falsum]] else [])) ND) as (g' & E & L' & G);
        [intros f' F'; apply H; right; exact F'|exact L|].
      exists g'. split.
      * rewrite E. f_equal. f_equal. rewrite <- app_assoc. f_equal. destruct (isNeg f); reflexivity.
      * split; [exact L'|]. intros i Hi. rewrite (G i Hi), BF. reflexivity.
    + assert (Q := H f ltac:(left; reflexivity)). rewrite V in Q.
      destruct (Q ltac:(discriminate)) as (c & C & B).
      assert (Bv : In v c).
      { unfold belongs in B. rewrite V in B. simpl in B. destruct (in_dec Nat.eq_dec v c); [assumption|discriminate]. }
      destruct (In_nth_error _ _ C) as (k & Kc).
      assert (LK : lookupNat (varMapFrom 0 comps []) v = Some k).
      { apply (proj2 (varMap_ok comps 0 [] v ND)). split; [lia|]. exists c. rewrite Nat.sub_0_r. auto. }
      rewrite LK. assert (Lk := ne_lt _ _ _ Kc).
      destruct (appendAt_ok groups k f ltac:(lia)) as (g1 & E1 & L1 & A1 & O1).
      assert (AP : appendAt (groups ++ tail) k f = Some (g1 ++ tail)).
      { clear - E1. revert k g1 E1. induction groups as [|g gs IHg]; intros k g1 E1; simpl in *; [discriminate|].
        destruct k as [|k]; [inversion E1; reflexivity|].
        destruct (appendAt gs k f) as [r|] eqn:R; [|discriminate]. rewrite (IHg k r R). inversion E1. reflexivity. }
      rewrite AP.
      assert (CF : constantFalse vars isNeg f = false) by (unfold constantFalse; rewrite V; reflexivity).
      rewrite CF.
      destruct (IH g1 tail ND) as (g' & E & L' & G); [intros f' F'; apply H; right; exact F'|lia|].
      exists g'. split; [exact E|]. split; [exact L'|]. intros i Hi. rewrite (G i Hi).
      destruct (Nat.eq_dec i k) as [->|N].
      * rewrite A1. rewrite (nth_error_nth comps k [] Kc), B. rewrite <- app_assoc. reflexivity.
      * rewrite (O1 i N). replace (belongs vars (nth i comps []) f) with false; [reflexivity|].
        symmetry. destruct (belongs vars (nth i comps []) f) eqn:B2; [exfalso|reflexivity].
        assert (Bv2 : In v (nth i comps [])).
        { unfold belongs in B2. rewrite V in B2. simpl in B2.
          destruct (in_dec Nat.eq_dec v (nth i comps [])); [assumption|discriminate]. }
        assert (X : lookupNat (varMapFrom 0 comps []) v = Some i).
        { apply (proj2 (varMap_ok comps 0 [] v ND)). split; [lia|]. exists (nth i comps []).
          rewrite Nat.sub_0_r. split; [apply nth_error_nth'; exact Hi|exact Bv2]. }
        rewrite LK in X. inversion X. lia.
Qed.

(* C44, splitting: for the constraint graph of a list of formulas, splitting the
   formulas by its components succeeds.  The result has one group per
   component, holding in their order exactly the formulas all of whose
   variables are in that component; every formula with variables belongs to
   one of them; formulas without variables appear as extra groups consisting
   of the falsum if they are false and are dropped if they are true. *)
Theorem C44_split : forall vars isNeg falsum fs, (forall f, NoDup (vars f)) ->
  exists g comps groups,
    constraintGraph vars fs = Some g /\ components g = Some comps /\
    split vars isNeg falsum fs comps =
      Some (groups ++ repeat [falsum] (length (filter (constantFalse vars isNeg) fs))) /\
    length groups = length comps /\
    (forall i, i < length comps -> nth i groups [] = filter (belongs vars (nth i comps [])) fs) /\
    (forall f, In f fs -> vars f <> [] -> exists c, In c comps /\ belongs vars c f = true) /\
    NoDup (concat comps) /\ (forall x, In x (concat comps) <-> exists f, In f fs /\ In x (vars f)).
Proof.
  intros vars isNeg falsum fs ND. unfold constraintGraph. rewrite constraintGraph_run.
  destruct (grun_inv (graphOps vars fs) [] newGraph ginv_new) as (g & E & I). simpl in I.
  destruct (components_inv _ g I) as (comps & C & P1 & P2 & P3).
  assert (BEL : forall f, In f fs -> vars f <> [] -> exists c, In c comps /\ belongs vars c f = true).
  { intros f F NE. destruct (vars f) as [|v r] eqn:V; [congruence|].
    assert (M : In v (concat comps)).
    { apply P2. apply (graphOps_mentioned vars fs v ND). exists f. rewrite V. simpl. auto. }
    apply in_concat in M. destruct M as (c & Hc & Hv). exists c. split; [exact Hc|].
    unfold belongs. rewrite V. simpl negb. rewrite andb_true_l. apply forallb_forall. intros w Hw.
    destruct (in_dec Nat.eq_dec w c) as [|N]; [reflexivity|]. exfalso. apply N.
    apply (proj2 (P3 c Hc) v w Hv). apply (graphOps_connected vars fs f); rewrite ?V; simpl; auto. }
  destruct (splitLoop_ok vars isNeg falsum comps fs (map (fun _ => []) comps) [] P1 BEL) as (groups & S & L & G).
  { apply map_length. }
  rewrite app_nil_r in S.
  exists g, comps, groups. split; [exact E|]. split; [exact C|]. split; [exact S|]. split; [exact L|].
  split; [|split; [exact BEL|split; [exact P1|]]].
  - intros i Hi. rewrite (G i Hi).
    replace (nth i (map (fun _ : list nat => []) comps) []) with (@nil nat); [reflexivity|].
    clear. revert i. induction comps as [|c comps IH]; intros [|i]; simpl; auto.
  - intros x. rewrite P2. apply graphOps_mentioned. exact ND.
Qed.

(* a graph with two components and an isolated node; formulas split accordingly *)
Example graph_example :
  (match grun newGraph [GConnect 1 2; GConnect 3 2; GAdd 9; GConnect 4 5] with
   | Some g => components g = Some [[1; 2; 3]; [9]; [4; 5]]
   | None => False
   end) /\
  (let vars := fun f => nth f [[1; 2]; [2; 3]; [9]; [4; 5]; []; []] [] in
   match constraintGraph vars [0; 1; 2; 3] with
   | Some g => match components g with
               | Some comps => split vars (fun f => f =? 5) 77 [3; 0; 5; 1; 4; 2] comps =
                               Some [[0; 1]; [2]; [3]; [77]]
               | None => False
               end
   | None => False
   end).
Proof. vm_compute. split; reflexivity. Qed.

Print Assumptions C44_components.
Print Assumptions C44_split.
