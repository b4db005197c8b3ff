(* Proofs about formula graphs and connected components. *)
From Coq Require Import List Arith Lia Bool Relations Sorted.
From Verif Require Import Queue HeapProofs Graph.
Import ListNotations.
Open Scope nat_scope.

(* --- adjacency lists --- *)
Lemma insertAsc_In : forall l x y, In y (insertAsc l x) <-> y = x \/ In y l.
Proof.
  induction l as [|a l IH]; intros x y; simpl; [intuition|].
  destruct (a <? x); [simpl; rewrite IH; intuition|].
  destruct (a =? x) eqn:E; simpl; [|intuition].
  apply Nat.eqb_eq in E. subst. intuition.
Qed.

(* the ascending order that slices.BinarySearch relies on is kept *)
Lemma insertAsc_sorted : forall l x, StronglySorted lt l -> StronglySorted lt (insertAsc l x).
Proof.
  induction l as [|a l IH]; intros x S; simpl; [constructor; constructor|].
  inversion S as [|b m S1 S2]; subst.
  destruct (Nat.ltb_spec a x) as [L|L].
  - constructor; [apply IH; exact S1|]. apply Forall_forall. intros y Hy. apply insertAsc_In in Hy.
    rewrite Forall_forall in S2. destruct Hy as [-> | Hy]; [exact L|apply S2; exact Hy].
  - destruct (a =? x) eqn:E; [exact S|]. apply Nat.eqb_neq in E.
    constructor; [exact S|]. constructor; [lia|]. rewrite Forall_forall in S2. apply Forall_forall.
    intros y Hy. apply S2 in Hy. lia.
Qed.

Definition adj (g : fgraph) (i j : nat) : Prop := exists l, nth_error (adjList g) i = Some l /\ In j l.

(* well-formed graphs *)
Record gok (g : fgraph) : Prop := {
  go_map : forall f i, lookupNat (nodeCache g) f = Some i <-> nth_error (nodes g) i = Some f;
  go_len : length (adjList g) = length (nodes g);
  go_rng : forall i j, adj g i j -> j < length (nodes g);
  go_sym : forall i j, adj g i j -> adj g j i;
  go_asc : forall i l, nth_error (adjList g) i = Some l -> StronglySorted lt l
}.

Lemma gok_inj : forall g i j f, gok g -> nth_error (nodes g) i = Some f -> nth_error (nodes g) j = Some f -> i = j.
Proof. intros g i j f K A B. apply (go_map g K) in A. apply (go_map g K) in B. congruence. Qed.

Lemma gok_NoDup : forall g, gok g -> NoDup (nodes g).
Proof.
  intros g K. apply NoDup_nth_error. intros i j Hi E. destruct (ne_ex _ _ Hi) as (f & F).
  rewrite F in E. symmetry in E. apply (gok_inj g i j f K F E).
Qed.

Lemma gok_new : gok newGraph.
Proof.
  constructor; simpl; try reflexivity.
  - intros f i. destruct i; split; discriminate.
  - intros i j (l & A & _). destruct i; discriminate.
  - intros i j (l & A & _). destruct i; discriminate.
  - intros i l A. destruct i; discriminate.
Qed.

Lemma nth_error_snoc : forall {A} (l : list A) a i x,
  nth_error (l ++ [a]) i = Some x <-> nth_error l i = Some x \/ (i = length l /\ x = a).
Proof.
  intros A l a i x. destruct (Nat.lt_ge_cases i (length l)) as [L|L].
  - rewrite nth_error_app1 by exact L. split; [auto|]. intros [H | [H _]]; [exact H|lia].
  - rewrite nth_error_app2 by exact L.
    assert (N : nth_error l i = None) by (apply nth_error_None; exact L). rewrite N.
    destruct (i - length l) as [|k] eqn:E; simpl.
    + split; [intros H; inversion H; right; split; [lia|reflexivity]|].
      intros [H | [_ ->]]; [discriminate|reflexivity].
    + split; [destruct k; discriminate|]. intros [H | [H _]]; [discriminate|lia].
Qed.

Lemma addNode_ok : forall g f, gok g ->
  gok (fst (addNode g f)) /\ nth_error (nodes (fst (addNode g f))) (snd (addNode g f)) = Some f /\
  (forall i h, nth_error (nodes g) i = Some h -> nth_error (nodes (fst (addNode g f))) i = Some h) /\
  (forall h, In h (nodes (fst (addNode g f))) <-> In h (nodes g) \/ h = f) /\
  (forall i j, adj (fst (addNode g f)) i j <-> adj g i j).
Proof.
  intros g f K. unfold addNode. destruct (lookupNat (nodeCache g) f) as [i|] eqn:E; cbn [fst snd].
  - assert (N := proj1 (go_map g K f i) E). split; [exact K|]. split; [exact N|]. split; [auto|].
    split; [|tauto]. intros h. split; [auto|]. intros [H | ->]; [exact H|]. apply nth_error_In with i. exact N.
  - assert (AE : forall i j, adj (mkGraph ((f, length (nodes g)) :: nodeCache g) (nodes g ++ [f]) (adjList g ++ [[]])) i j <-> adj g i j).
    { intros i j. unfold adj. simpl. split.
      - intros (l & A & B). apply nth_error_snoc in A. destruct A as [A | [_ ->]]; [exists l; auto|destruct B].
      - intros (l & A & B). exists l. split; [apply nth_error_snoc; left; exact A|exact B]. }
    split; [|split; [|split; [|split; [|exact AE]]]].
    + constructor.
      * intros h i. simpl. rewrite nth_error_snoc. destruct (h =? f) eqn:Q.
        -- apply Nat.eqb_eq in Q. subst h. split; [intros H; inversion H; auto|].
           intros [H | [-> _]]; [|reflexivity]. apply (go_map g K) in H. congruence.
        -- apply Nat.eqb_neq in Q. rewrite (go_map g K). split; [auto|]. intros [H | [_ ->]]; [exact H|congruence].
      * simpl. rewrite !app_length, (go_len g K). reflexivity.
      * intros i j H. apply AE in H. apply (go_rng g K) in H. simpl. rewrite app_length. lia.
      * intros i j H. apply AE. apply AE in H. apply (go_sym g K). exact H.
      * simpl. intros i l H. apply nth_error_snoc in H. destruct H as [H | [_ ->]]; [|constructor].
        apply (go_asc g K i l H).
    + simpl. apply nth_error_snoc. right. auto.
    + intros i h H. simpl. apply nth_error_snoc. left. exact H.
    + intros h. simpl. rewrite in_app_iff. simpl. intuition.
Qed.

Lemma addEdge_ok : forall g i j, i < length (adjList g) ->
  (forall i l, nth_error (adjList g) i = Some l -> StronglySorted lt l) ->
  exists g', addEdge g i j = Some g' /\ nodeCache g' = nodeCache g /\ nodes g' = nodes g /\
    length (adjList g') = length (adjList g) /\
    (forall a b, adj g' a b <-> adj g a b \/ (a = i /\ b = j)) /\
    (forall i l, nth_error (adjList g') i = Some l -> StronglySorted lt l).
Proof.
  intros g i j H AS. unfold addEdge. destruct (ne_ex _ _ H) as (l & L). rewrite L.
  rewrite setAt_upd by exact H. eexists. split; [reflexivity|]. cbn [nodeCache nodes adjList].
  split; [reflexivity|]. split; [reflexivity|]. split; [apply upd_length|]. split.
  - intros a b. unfold adj. cbn [adjList]. destruct (Nat.eq_dec a i) as [->|N].
    + rewrite upd_same by exact H. rewrite L. split.
      * intros (m & M & I). inversion M; subst m. apply insertAsc_In in I. destruct I as [-> | I]; [auto|].
        left. exists l. auto.
      * intros [(m & M & I) | [_ ->]]; eexists; (split; [reflexivity|]); apply insertAsc_In; [right|left; reflexivity].
        inversion M; subst. exact I.
    + rewrite upd_other by exact N. split; [auto|]. intros [X | [X _]]; [exact X|contradiction].
  - intros a m M. destruct (Nat.eq_dec a i) as [->|N].
    + rewrite upd_same in M by exact H. inversion M. apply insertAsc_sorted. apply (AS i l L).
    + rewrite upd_other in M by exact N. apply (AS a m M).
Qed.

Lemma connect_ok : forall g a b, gok g ->
  exists g', connect g a b = Some g' /\ gok g' /\
    (forall i h, nth_error (nodes g) i = Some h -> nth_error (nodes g') i = Some h) /\
    (forall h, In h (nodes g') <-> In h (nodes g) \/ h = a \/ h = b) /\
    (forall i j, adj g' i j <-> adj g i j \/
       (a <> b /\ ((nth_error (nodes g') i = Some a /\ nth_error (nodes g') j = Some b) \/
                   (nth_error (nodes g') i = Some b /\ nth_error (nodes g') j = Some a)))).
Proof.
  intros g a b K. unfold connect.
  destruct (addNode_ok g a K) as (K1 & N1 & P1 & I1 & A1).
  destruct (addNode g a) as (g1 & i). cbn [fst snd] in *.
  destruct (addNode_ok g1 b K1) as (K2 & N2 & P2 & I2 & A2).
  destruct (addNode g1 b) as (g2 & j). cbn [fst snd] in *.
  assert (Ni := P2 _ _ N1).
  assert (IN : forall h, In h (nodes g2) <-> In h (nodes g) \/ h = a \/ h = b).
  { intros h. rewrite I2, I1. tauto. }
  destruct (i =? j) eqn:E.
  - apply Nat.eqb_eq in E. subst j. exists g2. split; [reflexivity|]. split; [exact K2|]. split; [auto|].
    split; [exact IN|]. intros x y. rewrite A2, A1.
    assert (a = b) by congruence. split; [auto|]. intros [X | [X _]]; [exact X|contradiction].
  - apply Nat.eqb_neq in E.
    assert (Nab : a <> b) by (intros ->; apply E; apply (gok_inj g2 i j b K2 Ni N2)).
    assert (Li := ne_lt _ _ _ Ni). assert (Lj := ne_lt _ _ _ N2).
    destruct (addEdge_ok g2 i j) as (g3 & E3 & C3 & D3 & L3 & A3 & S3).
    { rewrite (go_len g2 K2). exact Li. } { apply (go_asc g2 K2). }
    rewrite E3.
    destruct (addEdge_ok g3 j i) as (g4 & E4 & C4 & D4 & L4 & A4 & S4).
    { rewrite L3, (go_len g2 K2). exact Lj. } { exact S3. }
    exists g4. split; [exact E4|].
    assert (DN : nodes g4 = nodes g2) by congruence.
    assert (AD : forall x y, adj g4 x y <-> adj g x y \/ (x = i /\ y = j) \/ (x = j /\ y = i)).
    { intros x y. rewrite A4, A3, A2, A1. tauto. }
    split; [|split; [|split]].
    + constructor.
      * rewrite C4, C3, DN. apply (go_map g2 K2).
      * rewrite L4, L3, DN. apply (go_len g2 K2).
      * intros x y H. rewrite DN. apply AD in H. destruct H as [H | [[_ ->] | [_ ->]]]; auto.
        apply (go_rng g2 K2 x). apply A2. apply A1. exact H.
      * intros x y H. apply AD. apply AD in H. destruct H as [H | [[-> ->] | [-> ->]]]; auto.
        left. apply (go_sym g K). exact H.
      * exact S4.
    + intros x h H. rewrite DN. auto.
    + intros h. rewrite DN. apply IN.
    + intros x y. rewrite AD, DN. split.
      * intros [H | [[-> ->] | [-> ->]]]; auto 6.
      * intros [H | [_ [[X Y] | [X Y]]]]; auto.
        -- right. left. split; [apply (gok_inj g2 x i a K2 X Ni)|apply (gok_inj g2 y j b K2 Y N2)].
        -- right. right. split; [apply (gok_inj g2 x j b K2 X N2)|apply (gok_inj g2 y i a K2 Y Ni)].
Qed.

(* --- depth-first search --- *)
Definition isMarked (m : list bool) (i : nat) : Prop := nth_error m i = Some true.
Definition unmarked (m : list bool) : nat := length (filter negb m).

Lemma unmarked_upd : forall m v, nth_error m v = Some false -> S (unmarked (upd m v true)) = unmarked m.
Proof.
  unfold unmarked. induction m as [|b m IH]; intros [|v] H; simpl in *; try discriminate.
  - inversion H; subst. reflexivity.
  - destruct b; simpl; [apply IH; exact H|]. f_equal. apply IH. exact H.
Qed.

(* marks only grow *)
Definition grows (m m' : list bool) : Prop :=
  length m' = length m /\ (forall i, isMarked m i -> isMarked m' i) /\ unmarked m' <= unmarked m.

Lemma grows_refl : forall m, grows m m.
Proof. intros m. repeat split; auto. Qed.

Lemma grows_trans : forall a b c, grows a b -> grows b c -> grows a c.
Proof. intros a b c (A1 & A2 & A3) (B1 & B2 & B3). split; [congruence|]. split; [auto|lia]. Qed.

Section DFS.
Variable g : fgraph.
Hypothesis K : gok g.
Notation n := (length (nodes g)).

Definition path := clos_refl_trans nat (adj g).

(* the nodes visited by a search: the indices l, in order *)
Record visits (c : list nat) (m : list bool) (c' : list nat) (m' : list bool) (l : list nat) : Prop := {
  vs_grow : grows m m';
  vs_comp : c' = c ++ map (fun i => nth i (nodes g) 0) l;
  vs_nodup : NoDup l;
  vs_new : forall i, isMarked m' i <-> isMarked m i \/ In i l;
  vs_fresh : forall i, In i l -> ~ isMarked m i;
  vs_closed : forall i j, In i l -> adj g i j -> isMarked m' j
}.

Lemma dfs_ok : forall fuel v c m, length m = n -> nth_error m v = Some false -> unmarked m <= fuel ->
  exists c' m' l, dfs fuel g v (c, m) = Some (c', m') /\ visits c m c' m' l /\ In v l /\
    (forall i, In i l -> path v i).
Proof.
  induction fuel as [|fuel IH]; intros v c m Lm Hv Hf.
  { assert (U := unmarked_upd m v Hv). lia. }
  assert (Lv : v < n) by (rewrite <- Lm; apply (ne_lt _ _ _ Hv)).
  destruct (ne_ex (nodes g) v Lv) as (node & Hn).
  destruct (ne_ex (adjList g) v ltac:(rewrite (go_len g K); exact Lv)) as (neighs & Hs).
  cbn [dfs snd fst]. rewrite Hn, Hs, setAt_upd by lia.
  assert (Hnode : node = nth v (nodes g) 0) by (symmetry; apply nth_error_nth; exact Hn).
  assert (G : forall ns c1 m1 l1, length m1 = n -> S (unmarked m1) <= S fuel ->
     (forall j, In j ns -> j < n /\ adj g v j) ->
     NoDup l1 -> In v l1 ->
     c1 = c ++ map (fun i => nth i (nodes g) 0) l1 ->
     grows m m1 ->
     (forall i, isMarked m1 i <-> isMarked m i \/ In i l1) ->
     (forall i, In i l1 -> ~ isMarked m i) ->
     (forall i j, In i l1 -> adj g i j -> isMarked m1 j \/ (i = v /\ In j ns)) ->
     (forall i, In i l1 -> path v i) ->
     exists c' m' l, (fix go (ns : list nat) (st : list nat * list bool) :=
         match ns with
         | [] => Some st
         | k :: r =>
           match nth_error (snd st) k with
           | None => None
           | Some true => go r st
           | Some false => match dfs fuel g k st with Some st' => go r st' | None => None end
           end
         end) ns (c1, m1) = Some (c', m') /\ visits c m c' m' l /\ In v l /\ (forall i, In i l -> path v i)).
  { induction ns as [|k ns IHns]; intros c1 m1 l1 L1 U1 R1 N1 V1 C1 G1 M1 F1 Cl1 P1.
    - exists c1, m1, l1. split; [reflexivity|]. split; [|split; [exact V1|exact P1]].
      constructor; auto. intros i j Hi Hj. destruct (Cl1 i j Hi Hj) as [X | [_ []]]. exact X.
    - destruct (R1 k ltac:(left; reflexivity)) as [Lk Ak].
      cbn [snd]. destruct (ne_ex m1 k ltac:(lia)) as (b & Hb). rewrite Hb. destruct b.
      + apply (IHns c1 m1 l1); auto.
        * intros j Hj. apply R1. right. exact Hj.
        * intros i j Hi Hj. destruct (Cl1 i j Hi Hj) as [X | [X [Y|Y]]]; auto. subst. left. exact Hb.
      + destruct (IH k c1 m1 L1 Hb ltac:(lia)) as (c2 & m2 & l2 & E & V2 & K2 & P2).
        rewrite E. destruct V2 as [Gr Cc Nd Nw Fr Cd].
        apply (IHns c2 m2 (l1 ++ l2)).
        * rewrite (proj1 Gr). exact L1.
        * destruct Gr as (_ & _ & Gr). lia.
        * intros j Hj. apply R1. right. exact Hj.
        * assert (DJ : forall x, In x l1 -> ~ In x l2).
          { intros x X1 X2. apply (Fr x X2). apply M1. right. exact X1. }
          clear - N1 Nd DJ. induction l1 as [|x l1 IH1]; simpl; [exact Nd|].
          inversion N1; subst. constructor.
          -- rewrite in_app_iff. intros [X|X]; [contradiction|]. apply (DJ x); [left; reflexivity|exact X].
          -- apply IH1; [assumption|]. intros y Y. apply DJ. right. exact Y.
        * apply in_or_app. left. exact V1.
        * rewrite Cc, C1, map_app, app_assoc. reflexivity.
        * apply (grows_trans _ m1); assumption.
        * intros i. rewrite Nw, M1, in_app_iff. tauto.
        * intros i Hi Hm. apply in_app_or in Hi. destruct Hi as [Hi|Hi]; [apply (F1 i Hi Hm)|].
          apply (Fr i Hi). apply M1. left. exact Hm.
        * intros i j Hi Hj. apply in_app_or in Hi. destruct Hi as [Hi|Hi].
          -- destruct (Cl1 i j Hi Hj) as [X | [X [Y|Y]]].
             ++ left. apply Nw. left. exact X.
             ++ subst j. left. apply Nw. right. exact K2.
             ++ right. auto.
          -- left. apply (Cd i j Hi Hj).
        * intros i Hi. apply in_app_or in Hi. destruct Hi as [Hi|Hi]; [apply P1; exact Hi|].
          apply rt_trans with k; [apply rt_step; exact Ak|apply P2; exact Hi]. }
  assert (U := unmarked_upd m v Hv).
  assert (Lmv : v < length m) by lia.
  apply (G neighs (c ++ [node]) (upd m v true) [v]).
  - rewrite upd_length. exact Lm.
  - lia.
  - intros j Hj. assert (A : adj g v j) by (exists neighs; auto). split; [apply (go_rng g K v j A)|exact A].
  - constructor; [intros []|constructor].
  - left. reflexivity.
  - rewrite Hnode. reflexivity.
  - split; [apply upd_length|]. split; [|lia]. intros i Hi. unfold isMarked in *.
    destruct (Nat.eq_dec i v) as [->|N]; [apply upd_same; exact Lmv|rewrite upd_other by exact N; exact Hi].
  - intros i. unfold isMarked. destruct (Nat.eq_dec i v) as [->|N].
    + rewrite upd_same by exact Lmv. simpl. intuition.
    + rewrite upd_other by exact N. simpl. intuition congruence.
  - intros i [<- | []] H. unfold isMarked in H. congruence.
  - intros i j [<- | []] (l & A & B). right. split; [reflexivity|]. congruence.
  - intros i [<- | []]. apply rt_refl.
Qed.

Definition closedM (m : list bool) : Prop := forall i j, isMarked m i -> adj g i j -> isMarked m j.

Lemma path_sym : forall i j, path i j -> path j i.
Proof.
  intros i j H. induction H.
  - apply rt_step. apply (go_sym g K). exact H.
  - apply rt_refl.
  - apply rt_trans with y; assumption.
Qed.

Lemma closed_path : forall m i j, closedM m -> isMarked m i -> path i j -> isMarked m j.
Proof. intros m i j C H P. induction P; eauto. Qed.

(* a search from an unmarked node of a closed marking finds its component *)
Lemma dfs_component : forall v m, length m = n -> nth_error m v = Some false -> closedM m ->
  exists m' l, dfs n g v ([], m) = Some (map (fun i => nth i (nodes g) 0) l, m') /\
    length m' = n /\ closedM m' /\ NoDup l /\ In v l /\ unmarked m' < unmarked m /\
    (forall i, In i l <-> path v i) /\ (forall i, isMarked m' i <-> isMarked m i \/ In i l) /\
    (forall i, In i l -> ~ isMarked m i).
Proof.
  intros v m Lm Hv C.
  assert (UN : unmarked m <= n).
  { rewrite <- Lm. unfold unmarked. clear. induction m as [|b m IH]; simpl; [lia|]. destruct b; simpl; lia. }
  destruct (dfs_ok n v [] m Lm Hv UN) as (c' & m' & l & E & V & Iv & P).
  destruct V as [Gr Cc Nd Nw Fr Cd].
  exists m', l. rewrite E, Cc. split; [reflexivity|]. split; [rewrite (proj1 Gr); exact Lm|].
  assert (C' : closedM m').
  { intros i j Hi Hj. apply Nw in Hi. destruct Hi as [Hi|Hi]; [apply Nw; left; apply (C i j Hi Hj)|apply (Cd i j Hi Hj)]. }
  split; [exact C'|]. split; [exact Nd|]. split; [exact Iv|].
  split.
  { (* v is now marked *)
    assert (Mv : isMarked m' v) by (apply Nw; right; exact Iv).
    destruct Gr as (G1 & G2 & G3).
    assert (X : forall (a b : list bool), length a = length b -> (forall i, isMarked a i -> isMarked b i) ->
       (exists v, nth_error a v = Some false /\ isMarked b v) -> unmarked b < unmarked a).
    { clear. unfold isMarked, unmarked. 
      assert (Y : forall (a b : list bool), length a = length b -> (forall i, nth_error a i = Some true -> nth_error b i = Some true) ->
         length (filter negb b) <= length (filter negb a)).
      { induction a as [|x a IH]; intros [|y b] L H; simpl in *; try discriminate; [lia|].
        assert (IHs := IH b ltac:(lia) (fun i => H (S i))). assert (H0 := H 0). simpl in H0.
        destruct x, y; simpl; try lia. discriminate (H0 eq_refl). }
      induction a as [|x a IH]; intros [|y b] L H (v & A & B); simpl in *; try discriminate; [destruct v; discriminate|].
      assert (H0 := H 0). simpl in H0. destruct v as [|v]; simpl in *.
      - inversion A; inversion B; subst. simpl. assert (Q := Y a b ltac:(lia) (fun i => H (S i))). lia.
      - assert (Q := IH b ltac:(lia) (fun i => H (S i)) (ex_intro _ v (conj A B))).
        destruct x, y; simpl; try lia. discriminate (H0 eq_refl). }
    apply X; [congruence|exact G2|]. exists v. auto. }
  split; [|split; [exact Nw|exact Fr]].
  intros i. split; [apply P|]. intros Pi.
  assert (Mi : isMarked m' i) by (apply (closed_path m' v i C'); [apply Nw; right; exact Iv|exact Pi]).
  apply Nw in Mi. destruct Mi as [Mi|Mi]; [|exact Mi]. exfalso.
  assert (Mv := closed_path m i v C Mi (path_sym _ _ Pi)). unfold isMarked in Mv. congruence.
Qed.

Lemma indexFalse_ok : forall m k, match indexFalse k m with
  | Some i => k <= i /\ nth_error m (i - k) = Some false
  | None => forall i b, nth_error m i = Some b -> b = true
  end.
Proof.
  induction m as [|b m IH]; intros k; simpl; [intros [|i] b H; discriminate|].
  destruct b.
  - assert (H := IH (S k)). destruct (indexFalse (S k) m) as [i|].
    + destruct H as [A B]. split; [lia|]. replace (i - k) with (S (i - S k)) by lia. exact B.
    + intros [|i] b Hb; simpl in Hb; [inversion Hb; reflexivity|apply (H i b Hb)].
  - split; [lia|]. rewrite Nat.sub_diag. reflexivity.
Qed.

(* the components as lists of indices *)
Lemma loop_ok : forall fuel idx m acc, length m = n -> nth_error m idx = Some false -> closedM m ->
  unmarked m <= fuel ->
  exists ls, componentsLoop fuel g idx m acc =
      Some (acc ++ map (map (fun i => nth i (nodes g) 0)) ls) /\
    NoDup (concat ls) /\
    (forall i, In i (concat ls) <-> i < n /\ ~ isMarked m i) /\
    (forall l, In l ls -> l <> [] /\ forall i j, In i l -> (In j l <-> path i j)).
Proof.
  induction fuel as [|fuel IH]; intros idx m acc Lm Hi C U.
  { assert (X := unmarked_upd m idx Hi). lia. }
  cbn [componentsLoop].
  destruct (dfs_component idx m Lm Hi C) as (m' & l & E & L' & C' & N & Iv & Un & P & Nw & Fr).
  rewrite E.
  assert (COMP : l <> [] /\ forall i j, In i l -> (In j l <-> path i j)).
  { split; [intros ->; destruct Iv|]. intros i j I. rewrite (P j). apply P in I. split; intros H.
    - apply rt_trans with idx; [apply path_sym; exact I|exact H].
    - apply rt_trans with i; assumption. }
  assert (RNG : forall i, In i l -> i < n).
  { intros i I. assert (M : isMarked m' i) by (apply Nw; right; exact I). rewrite <- L'. apply (ne_lt _ _ _ M). }
  assert (IF := indexFalse_ok m' 0). destruct (indexFalse 0 m') as [i2|].
  - destruct IF as [_ IF]. rewrite Nat.sub_0_r in IF.
    destruct (IH i2 m' (acc ++ [map (fun i => nth i (nodes g) 0) l]) L' IF C' ltac:(lia)) as (ls & R & N2 & I2 & P2).
    exists (l :: ls). split; [rewrite R, <- app_assoc; reflexivity|].
    split; [|split].
    + simpl. clear - N N2 I2 Nw. 
      assert (DJ : forall x, In x l -> ~ In x (concat ls)).
      { intros x X1 X2. apply I2 in X2. apply (proj2 X2). apply Nw. right. exact X1. }
      clear I2 Nw. induction l as [|x l IHl]; simpl; [exact N2|]. inversion N; subst. constructor.
      * rewrite in_app_iff. intros [X|X]; [contradiction|]. apply (DJ x); [left; reflexivity|exact X].
      * apply IHl; [assumption|]. intros y Y. apply DJ. right. exact Y.
    + intros i. simpl. rewrite in_app_iff, I2. split.
      * intros [H | [H1 H2]].
        -- split; [apply RNG; exact H|apply Fr; exact H].
        -- split; [exact H1|]. intros M. apply H2. apply Nw. left. exact M.
      * intros [H1 H2]. destruct (in_dec Nat.eq_dec i l) as [I|I]; [left; exact I|right].
        split; [exact H1|]. intros M. apply Nw in M. tauto.
    + intros l0 [<- | H]; [exact COMP|apply P2; exact H].
  - exists [l]. split; [reflexivity|]. simpl. rewrite app_nil_r. split; [exact N|]. split.
    + intros i. split.
      * intros H. split; [apply RNG; exact H|apply Fr; exact H].
      * intros [H1 H2]. destruct (ne_ex m' i ltac:(lia)) as (b & B). assert (B' := IF i b B). subst b.
        assert (M : isMarked m' i) by exact B. apply Nw in M. tauto.
    + intros l0 [<- | []]. exact COMP.
Qed.

Lemma components_idx : exists ls, components g = Some (map (map (fun i => nth i (nodes g) 0)) ls) /\
    NoDup (concat ls) /\ (forall i, In i (concat ls) <-> i < n) /\
    (forall l, In l ls -> l <> [] /\ forall i j, In i l -> (In j l <-> path i j)).
Proof.
  unfold components. destruct (nodes g) as [|f fs] eqn:E.
  - exists []. simpl. split; [reflexivity|]. split; [constructor|]. split; [intros; lia|intros l []].
  - rewrite <- E.
    assert (NM : forall i, ~ isMarked (repeat false n) i).
    { intros i H. unfold isMarked in H. apply nth_error_In in H. apply repeat_spec in H. discriminate. }
    destruct (loop_ok n 0 (repeat false n) []) as (ls & A & B & C & D).
    + apply repeat_length.
    + rewrite E. reflexivity.
    + intros i j H. exfalso. apply (NM i H).
    + unfold unmarked. clear. induction (length (nodes g)) as [|k IH]; simpl; lia.
    + exists ls. split; [exact A|]. split; [exact B|]. split; [|exact D].
      intros i. rewrite C. split; [tauto|]. intros H. split; [exact H|apply NM].
Qed.
End DFS.
