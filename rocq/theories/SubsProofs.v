(** * Proofs about the subsumption of clauses and terms *)
From Coq Require Import String Ascii List Bool ZArith NArith Lia Sorted.
From Verif Require Import Spec Factory FactoryProofs FactoryProofs2 FactoryProofs3 FactoryApi FactoryProps Assign NormalForm NfBase NfAssign NfNnf NfCnf NfFun Simplify SimpBase SimpProofs SubsTree.
Import ListNotations.
Local Open Scope N_scope.

(** the clauses of a CNF ([k] is [SAnd]), the terms of a DNF ([SOr]) *)
Definition clausesK (k : fsort) (t : tree) : list tree :=
  match k, t with
  | SAnd, TAnd ts => ts
  | SAnd, TTrue => []
  | SAnd, _ => [t]
  | _, TOr ts => ts
  | _, TFalse => []
  | _, _ => [t]
  end.
Lemma clausesK_mk k ts : dual k -> clausesK k (mk k ts) = ts. Proof. intros [-> | ->]; auto. Qed.
Lemma clausesK_ops k u : dual k -> u <> absorb k -> clausesK k u = opsOf k u.
Proof. intros [-> | ->] H; destruct u; simpl in *; auto; congruence. Qed.

(** [c] has no literal that [d] has not *)
Definition litsIn (c d : tree) : Prop := forall n, lit_occurs n c -> lit_occurs n d.
Record SubPost (k : fsort) (t u : tree) : Prop := {
  sp_kf : is_kf k u = true;
  sp_equiv : equiv t u;
  sp_narrow : narrow u t;
  sp_from : forall c, In c (clausesK k u) -> u = absorb k \/ exists d, In d (clausesK k t) /\ litsIn c d /\ litsIn d c;
  sp_min : forall i j c d, nth_error (clausesK k u) i = Some c -> nth_error (clausesK k u) j = Some d -> litsIn c d -> i = j;
  sp_cover : forall d, In d (clausesK k t) -> (forall b, eval b d = unit k) \/ exists c, In c (clausesK k u) /\ litsIn c d }.

Lemma SubPost_self k t : dual k -> is_kf k t = true -> (length (clausesK k t) <= 1)%nat -> SubPost k t t.
Proof.
  intros Hk Hf Hl. constructor; auto.
  - intros b; auto.
  - intros x; auto.
  - intros c Hc. right. exists c. unfold litsIn. auto.
  - intros i j c d Hi Hj _. assert (i < length (clausesK k t))%nat by (apply nth_error_Some; congruence).
    assert (j < length (clausesK k t))%nat by (apply nth_error_Some; congruence). lia.
  - intros d Hd. right. exists d. unfold litsIn. auto.
Qed.

(** ** Literals of a clause *)
Lemma clause_eval k d b : dual k -> flatK k d = true -> isConst d = false ->
  (eval b d = unit k <-> exists n, lit_occurs n d /\ eval b (TLit n) = unit k).
Proof.
  intros Hk Hf Hc.
  assert (G : forall ts, forallb is_lit ts = true -> (ev (flipSort k) b ts = unit k <-> exists n, (exists t, In t ts /\ lit_occurs n t) /\ eval b (TLit n) = unit k)).
  { intros ts Ht. unfold ev. induction ts as [|t ts IH]; simpl in *.
    - split; [destruct Hk as [-> | ->]; discriminate|intros (n & (t & [] & _) & _)].
    - apply andb_true_iff in Ht. destruct Ht as [Ht Hts]. specialize (IH Hts). destruct t as [| |m|t1|us|us|a1 b1|a1 b1|cc c r ls cs]; try discriminate.
      assert (E : conn (flipSort k) (eval b (TLit m)) (fold_right (fun t a => conn (flipSort k) (eval b t) a) (unit (flipSort k)) ts) = unit k <->
                  eval b (TLit m) = unit k \/ fold_right (fun t a => conn (flipSort k) (eval b t) a) (unit (flipSort k)) ts = unit k).
      { destruct Hk as [-> | ->]; simpl; [apply orb_true_iff|apply andb_false_iff]. }
      rewrite E, IH. split.
      + intros [H|(n & (t & Hin & Ho) & H)]; [exists m|exists n]; split; auto; [exists (TLit m); simpl; auto|exists t; simpl; auto].
      + intros (n & (t & [<-|Hin] & Ho) & H); [left; simpl in Ho; subst; auto|right; exists n; split; eauto]. }
  destruct Hk as [-> | ->]; destruct d as [| |m|t1|us|us|a1 b1|a1 b1|cc c r ls cs]; try discriminate.
  - simpl. split; [intros H; exists m; auto|intros (n & <- & H); auto].
  - change (eval b (TOr us)) with (eval b (mk SOr us)). rewrite eval_mk. rewrite (G us Hf). split; intros (n & Ho & H); exists n; split; auto; apply lit_occurs_list; auto.
  - simpl. split; [intros H; exists m; auto|intros (n & <- & H); auto].
  - change (eval b (TAnd us)) with (eval b (mk SAnd us)). rewrite eval_mk. rewrite (G us Hf). split; intros (n & Ho & H); exists n; split; auto; apply lit_occurs_list; auto.
Qed.
Lemma lits_eval k ns b : dual k -> (eval b (mk (flipSort k) (map TLit ns)) = unit k <-> exists n, In n ns /\ eval b (TLit n) = unit k).
Proof.
  intros Hk. rewrite eval_mk. unfold ev. induction ns as [|m ns IH]; simpl fold_right; simpl map.
  - split; [destruct Hk as [-> | ->]; discriminate|intros (n & [] & _)].
  - assert (E : forall x y, conn (flipSort k) x y = unit k <-> x = unit k \/ y = unit k).
    { intros x y. destruct Hk as [-> | ->]; simpl; [apply orb_true_iff|apply andb_false_iff]. }
    simpl fold_right. rewrite E, IH. split.
    + intros [H|(n & Hn & H)]; [exists m|exists n]; simpl; auto.
    + intros (n & [<-|Hn] & H); auto. right. eauto.
Qed.
Lemma lit_occurs_narrow c d : litsIn c d -> (forall x, occurs x c -> exists p, lit_occurs (x, p) c) -> narrow c d.
Proof.
  intros H Ho x Hx. destruct (Ho x Hx) as [p Hp]. apply H in Hp. clear -Hp. revert Hp. induction d using tree_ind'; simpl; try tauto.
  - intros ->. reflexivity.
  - intros Hp. apply lit_occurs_list in Hp. destruct Hp as (t & Ht & Hp). apply occurs_and. rewrite Forall_forall in H. eauto.
  - intros Hp. apply lit_occurs_list in Hp. destruct Hp as (t & Ht & Hp). apply occurs_or. rewrite Forall_forall in H. eauto.
  - intros Hin. exists p. auto.
Qed.

(** what the disjunction (conjunction) of the literals [ns] is *)
Definition clauseOf (k : fsort) (ns : list lit) (c : tree) : Prop :=
  flatK k c = true /\ equiv c (mk (flipSort k) (map TLit ns)) /\ narrow c (mk (flipSort k) (map TLit ns)) /\ (forall n, lit_occurs n c -> In n ns) /\ (c = neutral k \/ forall n, In n ns -> lit_occurs n c).

Lemma flatT_lits k ns : dual k -> flatT k (map TLit ns) = map TLit ns.
Proof. intros [-> | ->]; simpl; [unfold flatA|unfold flatO]; induction ns; simpl; auto; rewrite IHns; auto. Qed.
Lemma lit_occurs_ops k c n : dual k -> flatK k c = true -> (lit_occurs n c <-> In (TLit n) (opsOf (flipSort k) c)).
Proof.
  intros [-> | ->] Hf; destruct c as [| |m|t1|us|us|a1 b1|a1 b1|cc c r ls cs]; try discriminate; simpl.
  1-3,5-7: try tauto; (split; [intros ->; auto|intros [E|[]]; inversion E; auto]).
  all: simpl in Hf; rewrite forallb_forall in Hf; rewrite lit_occurs_list; split; [intros (t & Ht & Ho)|intros H; exists (TLit n); simpl; auto];
    specialize (Hf t Ht); destruct t; try discriminate; simpl in Ho; subst; auto.
Qed.
Lemma nary_clause k ns c : dual k -> flatK k c = true -> equiv c (mk (flipSort k) (map TLit ns)) -> narrow c (mk (flipSort k) (map TLit ns)) ->
  nary_res (flipSort k) (map TLit ns) c -> clauseOf k ns c.
Proof.
  intros Hk Hf He Hn (Hi & Ha & _). pose proof (dual_flip k Hk) as Hfk. rewrite flatT_lits in Hi, Ha; auto.
  split; auto. split; auto. split; auto. split.
  - intros n Ho. apply (proj1 (lit_occurs_ops k c n Hk Hf)) in Ho. apply Hi in Ho. apply in_map_iff in Ho. destruct Ho as (m & E & Hm). inversion E; subst; auto.
  - destruct Ha as [-> |Ha]; [left; destruct Hk as [-> | ->]; reflexivity|]. right. intros n Hin.
    apply (proj2 (lit_occurs_ops k c n Hk Hf)). destruct (Ha (TLit n)) as [E|]; auto. { apply in_map; auto. } destruct Hk as [-> | ->]; discriminate.
Qed.

Lemma flat_occurs k c x : dual k -> flatK k c = true -> occurs x c -> exists p, lit_occurs (x, p) c.
Proof.
  intros [-> | ->] Hf; destruct c as [| |[y q]|t1|us|us|a1 b1|a1 b1|cc c r ls cs]; try discriminate; simpl; try tauto.
  1,3: intros <-; exists q; auto.
  - intros Ho. apply occurs_or in Ho. destruct Ho as (t & Ht & Ho). simpl in Hf. rewrite forallb_forall in Hf. pose proof (Hf t Ht) as Hl.
    destruct t as [| |[y q]| | | | | |]; try discriminate. simpl in Ho. subst y. exists q. apply lit_occurs_list. exists (TLit (x, q)). simpl; auto.
  - intros Ho. apply occurs_and in Ho. destruct Ho as (t & Ht & Ho). simpl in Hf. rewrite forallb_forall in Hf. pose proof (Hf t Ht) as Hl.
    destruct t as [| |[y q]| | | | | |]; try discriminate. simpl in Ho. subst y. exists q. apply lit_occurs_list. exists (TLit (x, q)). simpl; auto.
Qed.

Lemma Forall2_nth_l {A B} (R : A -> B -> Prop) l m : Forall2 R l m -> forall i a, nth_error l i = Some a -> exists b, nth_error m i = Some b /\ R a b.
Proof. induction 1; intros [|i] a Hn; simpl in *; try discriminate; [inversion Hn; subst; eauto|eauto]. Qed.
Lemma Forall2_nth_r {A B} (R : A -> B -> Prop) l m : Forall2 R l m -> forall i b, nth_error m i = Some b -> exists a, nth_error l i = Some a /\ R a b.
Proof. induction 1; intros [|i] a Hn; simpl in *; try discriminate; [inversion Hn; subst; eauto|eauto]. Qed.

Lemma flatT_flat k cts : dual k -> forallb (flatK k) cts = true -> flatT k cts = cts.
Proof.
  intros [-> | ->]; simpl; [unfold flatA|unfold flatO]; induction cts as [|c cts IH]; simpl; auto; intros H; apply andb_true_iff in H; destruct H as [H1 H2];
  rewrite IH; auto; destruct c; try discriminate; auto.
Qed.
Lemma opsOf_const k s g u c : dual k -> wf s -> Den s g u -> In c (opsOf k u) -> isConst c = false.
Proof.
  intros Hk Hw D Hc.
  assert (G : forall us, u = mk k us -> In c us -> isConst c = false).
  { intros us -> H. destruct (Den_mk_inv k s g us Hk Hw D) as (_ & _ & _ & _ & _ & Hi). rewrite forallb_forall in Hi. apply (innerK_const k); auto. }
  destruct Hk as [-> | ->]; destruct u as [| |m|t1|us|us|a1 b1|a1 b1|cc cm r ls cs]; simpl in Hc; try (destruct Hc as [<-|[]]; reflexivity); try (destruct Hc; fail);
    eapply G; eauto; reflexivity.
Qed.

Lemma absorb_dec k u : u = absorb k \/ u <> absorb k.
Proof. destruct k, u; simpl; auto; right; discriminate. Qed.
Lemma neutral_dec k u : u = neutral k \/ u <> neutral k.
Proof. destruct k, u; simpl; auto; right; discriminate. Qed.

Lemma sub_core k s g u ts nss cts : dual k -> wf s -> Den s g u -> forallb (flatK k) ts = true -> (forall d, In d ts -> isConst d = false) ->
  Forall2 (clauseOf k) nss cts ->
  (forall ns, In ns nss -> exists d, In d ts /\ forall n, In n ns <-> lit_occurs n d) ->
  (forall d, In d ts -> exists ns, In ns nss /\ forall n, In n ns -> lit_occurs n d) ->
  (forall i j ns ms, nth_error nss i = Some ns -> nth_error nss j = Some ms -> incl ns ms -> i = j) ->
  is_kf k u = true -> equiv u (mk k cts) -> narrow u (mk k cts) -> nary_res k cts u -> SubPost k (mk k ts) u.
Proof.
  intros Hk Hw D Hft Hct HC F1 F2 F3 Hkf Eu Nu (Hi & Ha & Hd). rewrite forallb_forall in Hft.
  assert (Hfc : forallb (flatK k) cts = true).
  { clear -HC. induction HC as [|ns c nss cts (A & _) HC IH]; simpl; auto. rewrite A; auto. }
  rewrite flatT_flat in Hi, Ha; auto. rewrite forallb_forall in Hfc.
  constructor; auto.
  - intros b. rewrite (Eu b), !eval_mk. apply (unit_eq k). rewrite !ev_iff; auto. split; intros H.
    + intros c Hc. destruct (Forall2_in_rr _ _ _ HC _ Hc) as (ns & Hns & (_ & Ec & _)). rewrite (Ec b). apply lits_eval; auto.
      destruct (F1 ns Hns) as (d & Hd' & Hl). specialize (H d Hd'). apply clause_eval in H; auto. destruct H as (n & Hn & H). exists n. split; auto. apply Hl; auto.
    + intros d Hd'. destruct (F2 d Hd') as (ns & Hns & Hl). destruct (Forall2_in_ll _ _ _ HC _ Hns) as (c & Hc & (_ & Ec & _)).
      specialize (H c Hc). rewrite (Ec b) in H. apply lits_eval in H; auto. destruct H as (n & Hn & H). apply clause_eval; auto. exists n. split; auto.
  - intros x Hx. apply Nu in Hx. apply occurs_mk in Hx; auto. destruct Hx as (c & Hc & Ho).
    destruct (Forall2_in_rr _ _ _ HC _ Hc) as (ns & Hns & (Hf & _ & _ & Hl & _)). destruct (F1 ns Hns) as (d & Hd' & Hld).
    apply occurs_mk; auto. exists d. split; auto. revert Ho. apply (lit_occurs_narrow c d).
    + intros n Hn. apply Hld, Hl, Hn.
    + intros y. apply (flat_occurs k); auto.
  - intros c Hc. destruct (absorb_dec k u) as [|Hne]; auto. right. rewrite clausesK_ops in Hc; auto. rewrite clausesK_mk; auto.
    pose proof (opsOf_const k s g u c Hk Hw D Hc) as Hcc. destruct (Forall2_in_rr _ _ _ HC _ (Hi c Hc)) as (ns & Hns & (Hf & _ & _ & Hl & Hl2)).
    destruct (F1 ns Hns) as (d & Hd' & Hld). exists d. split; auto. destruct Hl2 as [-> |Hl2]; [destruct Hk as [-> | ->]; discriminate|].
    split; intros n Hn; [apply Hld, Hl, Hn|apply Hl2, Hld, Hn].
  - intros i j c d Hci Hdj Hcd. destruct (absorb_dec k u) as [->|Hne].
    { destruct Hk as [-> | ->]; destruct i as [|i], j as [|j]; simpl in *; auto; try destruct i; try destruct j; discriminate. }
    rewrite clausesK_ops in Hci, Hdj; auto.
    assert (Kc : forall e i, nth_error (opsOf k u) i = Some e -> isConst e = false /\ In e cts).
    { intros e i' He. apply nth_error_In in He. split; [eapply opsOf_const; eauto|auto]. }
    destruct (Kc _ _ Hci) as [Kc1 Kc2], (Kc _ _ Hdj) as [Kd1 Kd2].
    assert (G : forall p q, nth_error cts p = Some c -> nth_error cts q = Some d -> p = q).
    { intros p q Hp Hq. destruct (Forall2_nth_r _ _ _ HC _ _ Hp) as (ns & Hns & (_ & _ & _ & L1 & L2)).
      destruct (Forall2_nth_r _ _ _ HC _ _ Hq) as (ms & Hms & (_ & _ & _ & L3 & L4)). apply (F3 p q ns ms); auto.
      intros n Hn. apply L3, Hcd. destruct L2 as [-> |L2]; auto. destruct Hk as [-> | ->]; discriminate. }
    destruct Hd as [Hd|Hd]; [rewrite Hd in *; auto|].
    apply In_nth_error in Kc2. destruct Kc2 as [p Hp]. apply In_nth_error in Kd2. destruct Kd2 as [q Hq].
    assert (c = d) as -> by (rewrite (G p q Hp Hq) in Hp; congruence).
    eapply NoDup_nth_error; [exact Hd| |congruence]. apply nth_error_Some. congruence.
  - intros d Hd'. rewrite clausesK_mk in Hd'; auto. destruct (F2 d Hd') as (ns & Hns & Hld).
    destruct (Forall2_in_ll _ _ _ HC _ Hns) as (c & Hc & (Hf & Ec & _ & Hl & Hl2)).
    destruct (neutral_dec k c) as [->|Hne].
    + left. intros b. assert (E : eval b (mk (flipSort k) (map TLit ns)) = unit k) by (rewrite <- (Ec b); destruct Hk as [-> | ->]; reflexivity).
      apply lits_eval in E; auto. destruct E as (n & Hn & E). apply clause_eval; auto. exists n. auto.
    + right. destruct (absorb_dec k u) as [->|Hu].
      * exists (absorb k). split; [destruct Hk as [-> | ->]; simpl; auto|]. intros n Hn. destruct Hk as [-> | ->]; destruct Hn.
      * rewrite clausesK_ops; auto. exists c. destruct Ha as [|Ha]; [contradiction|]. destruct (Ha c Hc) as [|Hin]; [contradiction|]. split; auto.
        intros n Hn. apply Hld, Hl, Hn.
Qed.

(** ** Sorted sets *)
Lemma insF_length f l : length (insF f l) = S (length l).
Proof. induction l; simpl; auto. destruct (fleb f a); simpl; auto. Qed.
Lemma content_length l : length (content l) = length l.
Proof. unfold content. induction l; simpl; auto. rewrite insF_length, IHl. auto. Qed.
Lemma insF_asc f l : srt f = SLit -> Forall (fun x => srt x = SLit) l -> asc l -> ~ In (fid f) (map fid l) -> asc (insF f l).
Proof.
  intros Hf Hl Ha. induction Ha as [|g l Ha IH Hg]; simpl; intros Hn; [repeat constructor|].
  inversion Hl; subst. unfold fleb. rewrite Hf, H1. simpl. destruct (N.leb_spec (fid f) (fid g)) as [L|L].
  - constructor; [constructor; auto|]. rewrite Forall_forall in *. intros x [<-|Hx]; unfold flt in *.
    + destruct (N.eq_dec (fid f) (fid g)); [exfalso; auto|lia].
    + specialize (Hg x Hx). lia.
  - constructor; [apply IH; auto|]. rewrite Forall_forall in *. intros x Hx. apply insF_in in Hx. unfold flt in *. destruct Hx as [->|Hx]; auto.
Qed.
Lemma content_asc l : Forall (fun x => srt x = SLit) l -> NoDup (map fid l) -> asc (content l).
Proof.
  unfold content. induction l as [|f l IH]; simpl; intros Hs Hn; [constructor|]. inversion Hs; inversion Hn; subst. apply insF_asc; auto.
  - rewrite Forall_forall in *. intros x Hx. apply (proj1 (content_in l x)) in Hx. auto.
  - intros H. apply in_map_iff in H. destruct H as (x & E & Hx). apply (proj1 (content_in l x)) in Hx. apply H5. rewrite <- E. apply in_map; auto.
Qed.

Lemma insSize_in x l y : In y (insSize x l) <-> y = x \/ In y l.
Proof. induction l; simpl; [intuition|]. destruct (Nat.ltb _ _); simpl; [intuition|]. rewrite IHl. intuition. Qed.
Lemma bySize_in_gen l : forall a y, In y (fold_left (fun a x => insSize x a) l a) <-> In y l \/ In y a.
Proof. induction l as [|x l IH]; simpl; intros a y; [tauto|]. rewrite IH, insSize_in. intuition. Qed.
Lemma bySize_in l y : In y (bySize l) <-> In y l.
Proof. unfold bySize. rewrite bySize_in_gen. simpl. tauto. Qed.
Definition lle (x y : list formula) : Prop := (length x <= length y)%nat.
Lemma insSize_sorted x l : StronglySorted lle l -> StronglySorted lle (insSize x l).
Proof.
  induction 1 as [|y l H IH Hy]; simpl; [repeat constructor|]. unfold lle in *. destruct (Nat.ltb_spec (length x) (length y)) as [L|L].
  - constructor; [constructor; auto|]. rewrite Forall_forall in *. intros z [<-|Hz]; [lia|]. specialize (Hy z Hz). lia.
  - constructor; auto. rewrite Forall_forall in *. intros z Hz. apply (proj1 (insSize_in x l z)) in Hz. destruct Hz as [->|Hz]; auto.
Qed.
Lemma bySize_sorted l : StronglySorted lle (bySize l).
Proof.
  unfold bySize. assert (G : forall a, StronglySorted lle a -> StronglySorted lle (fold_left (fun a x => insSize x a) l a)).
  { induction l; simpl; auto. intros a' Ha. apply IHl, insSize_sorted, Ha. }
  apply G. constructor.
Qed.
Lemma map_content_sorted l : StronglySorted lle l -> StronglySorted lle (map content l).
Proof.
  induction 1 as [|x l H IH Hx]; simpl; constructor; auto. rewrite Forall_forall in *. intros y Hy. apply in_map_iff in Hy. destruct Hy as (z & <- & Hz).
  specialize (Hx z Hz). unfold lle in *. rewrite !content_length. auto.
Qed.

(** ** The loop with its handler *)
Definition plainStep (forest : list ubnode) (set : list formula) : list ubnode :=
  match ubFirst set forest with Some _ => forest | None => ubAdd set set forest end.
Section Handler.
Context {St : Type} (hd : shandler St) (bad : St -> bool).
(** [bad] says that the handler cancelled at some event *)
Definition records : Prop := forall e h, bad (snd (hd e h)) = bad h || negb (fst (hd e h)).
Lemma ubStep_fold l : forall forest h ok, let '(forest', h', ok') := fold_left (ubStep hd) l (forest, h, ok) in
  forest' = fold_left plainStep (map content l) forest /\ (records -> bad h = negb ok -> bad h' = negb ok').
Proof.
  induction l as [|x l IH]; intros forest h ok; simpl; [auto|]. unfold plainStep at 2. destruct (ubFirst (content x) forest) as [y|] eqn:E.
  - apply IH.
  - destruct (hd SubsumptionAdded h) as [b h1] eqn:Eh. specialize (IH (ubAdd (content x) (content x) forest) h1 (ok && b)).
    destruct (fold_left (ubStep hd) l _) as [[forest' h'] ok']. destruct IH as [A B]. split; auto. intros R Hb. apply B; auto.
    specialize (R SubsumptionAdded h). rewrite Eh in R. simpl in R. rewrite R, Hb. destruct ok, b; auto.
Qed.

Definition litSet (s : state) (x : list formula) (t : tree) : Prop := atomsOf s true t x.
Lemma litDen_sort s f n : litDen s f n -> srt f = SLit.
Proof. intros H. apply litDen_Den in H. apply Den_sort in H. auto. Qed.
Lemma litDen_known s f n : litDen s f n -> known s f.
Proof. intros H. apply litDen_Den in H. eapply Den_known; eauto. Qed.
Lemma litDen_inj s f g n : wf s -> litDen s f n -> litDen s g n -> f = g.
Proof. intros Hw A B. eapply (Den_inj s Hw (TLit n)); apply litDen_Den; auto. Qed.
Lemma litDen_fun s f n m : litDen s f n -> litDen s f m -> n = m.
Proof. intros A B. apply litDen_Den in A, B. pose proof (Den_fun _ _ _ _ A B) as E. inversion E; auto. Qed.
Lemma litDens_in s l ns : wf s -> Forall2 (litDen s) l ns -> forall f n, litDen s f n -> (In f l <-> In n ns).
Proof.
  intros Hw HF f n Hf. split; intros H.
  - destruct (Forall2_in_ll _ _ _ HF _ H) as (m & Hm & Hd). rewrite (litDen_fun _ _ _ _ Hf Hd). auto.
  - destruct (Forall2_in_rr _ _ _ HF _ H) as (g & Hg & Hd). rewrite (litDen_inj _ _ _ _ Hw Hf Hd). auto.
Qed.
Lemma litDens_NoDup s l ns : wf s -> Forall2 (litDen s) l ns -> NoDup ns -> NoDup (map fid l).
Proof.
  intros Hw HF. pose proof Hw as [W _]. induction HF as [|f n l ns Hf HF IH]; intros Hn; simpl; constructor; inversion Hn; subst; auto.
  intros Hin. apply in_map_iff in Hin. destruct Hin as (g & E & Hg). destruct (Forall2_in_ll _ _ _ HF _ Hg) as (m & Hm & Hd).
  assert (g = f) as -> by (apply (w_inj s W); eauto using litDen_known). apply H1. rewrite (litDen_fun _ _ _ _ Hf Hd). auto.
Qed.

Definition subOk (cnf : bool) (t : tree) (h : St) (r : subResult * St) (s : state) (V : asg -> Prop) : Prop :=
  let k := if cnf then SAnd else SOr in
  match fst r with
  | SubError => is_kf k t = false /\ snd r = h
  | SubCancelled => is_kf k t = true
  | SubOk g => is_kf k t = true /\ exists u, Den s g u /\ SubPost k t u
  end /\
  (records -> bad h = false -> (fst r = SubCancelled <-> bad (snd r) = true)).

Lemma kf_flat k ts : dual k -> is_kf k (mk k ts) = true -> forallb (flatK k) ts = true.
Proof.
  intros Hk H. destruct (kf_cases k (mk k ts) Hk H) as [F|(us & E & F)].
  - destruct Hk as [-> | ->]; discriminate.
  - assert (us = ts) as -> by (destruct Hk as [-> | ->]; inversion E; auto). auto.
Qed.

Lemma subsumption_ok cnf t s V f h : winv s V -> Den s f t ->
  wp (fun n => subsumption hd cnf n f h) s V (subOk cnf t h).
Proof.
  intros I D. unfold subsumption. set (k := if cnf then SAnd else SOr).
  assert (Hk : dual k) by (destruct cnf; [left|right]; reflexivity).
  eapply wp_bind.
  { instantiate (1 := fun b s' V' => b = is_kf k t). destruct cnf; [eapply wp_conseq; [apply (isCNF_ok t s V f I D)|]; intros b s' V' _ _ (_ & _ & E); exact E|].
    apply (isDNF_ok t s V f I D). }
  intros b s1 V1 I1 X1 ->. destruct (is_kf k t) eqn:Ek; simpl.
  2:{ apply wp_ret; auto. unfold subOk. fold k. simpl. split; auto. intros _ Hb. rewrite Hb. split; discriminate. }
  pose proof (wext_Den _ _ _ _ _ _ X1 D) as D1.
  destruct (match srt f with SFalse | STrue | SLit => true | _ => fsort_eqb (srt f) (flipSort k) end) eqn:Et.
  { apply wp_ret; auto. unfold subOk. fold k. simpl. split; [|intros _ Hb; rewrite Hb; split; discriminate]. split; auto. exists t. split; auto.
    apply SubPost_self; auto. rewrite (Den_sort _ _ _ D) in Et. clear -Hk Et. destruct Hk as [E|E]; rewrite E in *; destruct t; simpl in *; try lia; try discriminate. }
  assert (Es : srt f = k).
  { clear - Hk Et Ek D. rewrite (Den_sort _ _ _ D) in *. destruct Hk as [E|E]; rewrite E in *; destruct t; simpl in *; auto; try discriminate. }
  destruct (sort_mk s1 f t k Hk D1 Es) as [ts ->]. pose proof (kf_flat k ts Hk Ek) as Hft.
  destruct (Den_mk_inv k s1 f ts Hk (v_wf _ _ I1) D1) as (l & El & _ & HF & Hlen & Hinn).
  assert (Hct : forall d, In d ts -> isConst d = false).
  { intros d Hd. rewrite forallb_forall in Hinn. apply (innerK_const k); auto. }
  unfold generateUBTree. eapply wp_bind; [|].
  { instantiate (1 := fun r s' V' => (records -> bad h = false -> (fst r = None <-> bad (snd r) = true)) /\
      match fst r with None => True | Some forest => exists xs, Forall2 (litSet s') xs ts /\ forest = fold_left plainStep (map content (bySize xs)) [] end).
    apply wp_get. rewrite El. eapply wp_bind.
    - apply (wp_mapM (fun n a => literalsOf n a) (fun s' a d => Den s' a d) (fun s' V' x d => litSet s' x d)) with (cs := ts); auto.
      + intros; eapply wext_Den; eauto.
      + intros s2 V2 s3 V3 X x d (ns & A & B). exists ns. split; auto. eapply wext_litDens; eauto.
      + intros a d Ha Hd s2 V2 I2 X2 Da. eapply wp_conseq; [apply (atomSet_ok true d s2 V2 a I2 Da)|].
        intros x s3 V3 _ _ HP. apply (proj2 (atomsOf_spec s3 true d x)). exact HP.
    - intros xs s2 V2 I2 X2 HX. simpl in HX. destruct (hd SubsumptionStarting h) as [b0 h0] eqn:Eh. destruct b0.
      + pose proof (ubStep_fold (bySize xs) [] h0 true) as HU. destruct (fold_left (ubStep hd) (bySize xs) ([], h0, true)) as [[forest h'] ok]. destruct HU as [HU1 HU2].
        apply wp_ret; auto. simpl. split.
        * intros R Hb. rewrite HU2; auto; [destruct ok; simpl; split; congruence|]. specialize (R SubsumptionStarting h). rewrite Eh in R. simpl in R. rewrite R, Hb. auto.
        * destruct ok; auto. exists xs. auto.
      + apply wp_ret; auto. simpl. split; auto. intros R Hb. specialize (R SubsumptionStarting h). rewrite Eh in R. simpl in R. rewrite R, orb_true_r. tauto. }
  intros [[forest|] h'] s2 V2 I2 X2 [HB HX]; simpl in HB, HX |- *.
  2:{ apply wp_ret; auto. unfold subOk. fold k. simpl. split; auto. intros R Hb. specialize (HB R Hb). tauto. }
  destruct HX as (xs & HX & ->). pose proof (v_wf _ _ I2) as Hw2.
  set (U := fun x => exists n, litDen s2 x n).
  assert (HU : forall x y, U x -> U y -> fid x = fid y -> x = y).
  { intros x y [n Hx] [m Hy] E. destruct Hw2 as [W _]. apply (w_inj s2 W); eauto using litDen_known. }
  assert (Hts : forall x d, In x xs -> litSet s2 x d -> Forall U (content x) /\ asc (content x)).
  { intros x d Hx (ns & A & B & C). split.
    - apply Forall_forall. intros y Hy. apply (proj1 (content_in x y)) in Hy. destruct (Forall2_in_ll _ _ _ A _ Hy) as (n & _ & Hn). exists n; auto.
    - apply content_asc; [|eapply litDens_NoDup; eauto]. clear -A. induction A; constructor; auto. eapply litDen_sort; eauto. }
  assert (Hne : forall x d, In d ts -> litSet s2 x d -> content x <> []).
  { intros x d Hd (ns & A & B & C) E. assert (length x = 0)%nat by (rewrite <- content_length, E; auto). destruct x; [|discriminate]. inversion A; subst.
    assert (Hn : forall n, ~ lit_occurs n d) by (intros n Hn; apply C in Hn; destruct Hn). rewrite forallb_forall in Hft. specialize (Hft d Hd). specialize (Hct d Hd).
    destruct (Forall2_in_rr _ _ _ (wext_Dens _ _ _ _ _ _ X2 HF) _ Hd) as (g & _ & Dg).
    pose proof (dual_flip k Hk) as Hfk.
    assert (forall us, d = mk (flipSort k) us -> forallb is_lit us = true -> False).
    { intros us -> Hl. destruct (Den_mk_inv _ s2 g us Hfk Hw2 Dg) as (l' & _ & _ & HF' & Hl' & _). inversion HF' as [|? u ? ? ? HF'']; subst; [simpl in Hl'; lia|].
      simpl in Hl. apply andb_true_iff in Hl. destruct Hl as [Hl _]. destruct u as [| |n| | | | | |]; try discriminate. apply (Hn n).
      clear -Hfk. destruct Hfk as [E|E]; rewrite E; simpl; auto. }
    clear -Hk Hft Hct Hn H0. destruct Hk as [E|E]; rewrite E in *; destruct d as [| |n| | | | | |]; try discriminate; try (apply (Hn n); reflexivity); eapply H0; eauto; reflexivity. }
  assert (HX1 : forall x, In x xs -> exists d, In d ts /\ litSet s2 x d) by (intros x Hx; destruct (Forall2_in_ll _ _ _ HX _ Hx) as (d & A & B); eauto).
  assert (K : keeps_min U (map content (bySize xs)) (fold_left plainStep (map content (bySize xs)) [])).
  { apply (min_loop U HU (map content (bySize xs)) [] []).
    - apply min_start.
    - apply Forall_forall. intros y Hy. apply in_map_iff in Hy. destruct Hy as (x & <- & Hx). apply (proj1 (bySize_in xs x)) in Hx.
      destruct (HX1 x Hx) as (d & Hd & Hl). destruct (Hts x d Hx Hl). split; auto. split; auto. eapply Hne; eauto.
    - simpl. apply (map_content_sorted (bySize xs)), bySize_sorted. }
  set (forest := fold_left plainStep (map content (bySize xs)) []) in *.
  assert (Hnss : exists nss, Forall2 (Forall2 (litDen s2)) (flat_map ubSets forest) nss).
  { assert (Hall : forall y, In y (sets forest) -> exists ns, Forall2 (litDen s2) y ns).
    { intros y Hy. apply (m_from _ _ _ K) in Hy. apply in_map_iff in Hy. destruct Hy as (x & <- & Hx). apply (proj1 (bySize_in xs x)) in Hx.
      destruct (HX1 x Hx) as (d & Hd & Hl). destruct (Hts x d Hx Hl) as [HUx _]. clear -HUx. induction HUx as [|y l [n Hn] _ (ns & IH)]; [exists []; constructor|].
      exists (n :: ns). constructor; auto. }
    fold (sets forest). clear -Hall. induction (sets forest) as [|y l IH]; [exists []; constructor|]. destruct (Hall y) as [ns Hns]; simpl; auto.
    destruct IH as [nss Hnss]; [intros; apply Hall; simpl; auto|]. exists (ns :: nss). constructor; auto. }
  destruct Hnss as (nss & Hnss). fold (sets forest) in *.
  eapply wp_bind.
  { apply (wp_mapM (fun _ set => naryOp (flipSort k) set) (fun s' a ns => Forall2 (litDen s') a ns)
      (fun s' V' g ns => exists c, Den s' g c /\ clauseOf k ns c)) with (cs := nss); auto.
    - intros; eapply wext_litDens; eauto.
    - intros s3 V3 s4 V4 X g ns (c & A & B). exists c. split; auto. eapply wext_Den; eauto.
    - intros a ns Ha Hns s3 V3 I3 X3 HL.
      assert (HD : Forall2 (Den s3) a (map TLit ns)) by (clear -HL; induction HL; simpl; constructor; auto; apply litDen_Den; auto).
      eapply wp_conseq; [apply (wp_nary (flipSort k) s3 V3 a (map TLit ns)); auto using dual_flip|].
      intros g s4 V4 _ _ (_ & c & Dc & Ec & Nc & Rc & Sc). exists c. split; auto. apply nary_clause; auto.
      assert (Hfl : forallb (flatK k) (map TLit ns) = true). { clear -Hk. induction ns; simpl; auto. rewrite IHns. destruct Hk as [-> | ->]; auto. }
      clear -Hk Sc Ec Hfl. destruct Hk as [E|E]; rewrite E in *; simpl in *; [eapply or_shape_flat; eauto|eapply and_shape_flat; eauto]. }
  intros gs s3 V3 I3 X3 HG. simpl in HG.
  assert (exists cts, Forall2 (Den s3) gs cts /\ Forall2 (clauseOf k) nss cts) as (cts & HDc & HCc).
  { clear -HG. induction HG as [|g ns gs nss (c & A & B) HG (cts & C & E)]; [exists []; split; constructor|]. exists (c :: cts). split; constructor; auto. }
  eapply wp_bind; [apply (wp_nary k s3 V3 gs cts); auto|]. intros g s4 V4 I4 X4 (_ & u & Du & Eu & Nu & Ru & Su). apply wp_ret; auto.
  unfold subOk. fold k. simpl. split; [|intros R Hb; specialize (HB R Hb); split; [discriminate|intros Hc; apply HB in Hc; discriminate]].
  split; auto. exists u. split; auto.
  assert (Hkf : is_kf k u = true).
  { assert (Hfc : forallb (is_kf k) cts = true).
    { clear -HCc Hk. induction HCc as [|ns c nss cts (A & _) HC IH]; simpl; auto. rewrite (flatK_kf k c Hk A). auto. }
    clear -Hk Su Eu Hfc. destruct Hk as [E|E]; rewrite E in *; simpl in *; [eapply and_shape_cnf; eauto|eapply or_shape_dnf; eauto]. }
  apply (sub_core k s4 g u ts nss cts); auto; try apply I4.
  - (* every set comes from a clause *)
    intros ns Hns. destruct (Forall2_in_rr _ _ _ Hnss _ Hns) as (y & Hy & Hyn). apply (m_from _ _ _ K) in Hy. apply in_map_iff in Hy.
    destruct Hy as (x & <- & Hx). apply (proj1 (bySize_in xs x)) in Hx. destruct (HX1 x Hx) as (d & Hd & (ms & A & B & C)). exists d. split; auto.
    intros n. change (lit_occurs n d) with (atomIn true d n). rewrite <- C. split; intros Hin.
    + destruct (Forall2_in_rr _ _ _ Hyn _ Hin) as (z & Hz & Hdz). apply (proj1 (content_in x z)) in Hz. apply (litDens_in s2 x ms Hw2 A z n Hdz). auto.
    + destruct (Forall2_in_rr _ _ _ A _ Hin) as (z & Hz & Hdz). apply (litDens_in s2 _ ns Hw2 Hyn z n Hdz). apply (proj2 (content_in x z)). auto.
  - (* every clause contains a set *)
    intros d Hd. destruct (Forall2_in_rr _ _ _ HX _ Hd) as (x & Hx & (ms & A & B & C)).
    destruct (m_cover _ _ _ K (content x)) as (y & Hy & Hi). { apply in_map, (proj2 (bySize_in xs x)), Hx. }
    destruct (Forall2_in_ll _ _ _ Hnss _ Hy) as (ns & Hns & Hyn). exists ns. split; auto. intros n Hin. apply C.
    destruct (Forall2_in_rr _ _ _ Hyn _ Hin) as (z & Hz & Hdz). apply Hi in Hz. apply (proj1 (content_in x z)) in Hz. apply (litDens_in s2 x ms Hw2 A z n Hdz). auto.
  - (* no set is contained in another *)
    intros i j ns ms Hi Hj Hin. destruct (Forall2_nth_r _ _ _ Hnss _ _ Hi) as (y & Hy & Hyn). destruct (Forall2_nth_r _ _ _ Hnss _ _ Hj) as (z & Hz & Hzn).
    assert (y = z) as ->.
    { apply (m_min _ _ _ K); [eapply nth_error_In; eauto|eapply nth_error_In; eauto|]. intros w Hw. destruct (Forall2_in_ll _ _ _ Hyn _ Hw) as (n & Hn & Hdn).
      apply (litDens_in s2 z ms Hw2 Hzn w n Hdn). auto. }
    pose proof (sets_NoDup U _ _ (m_ok _ _ _ K)) as Hnd. eapply NoDup_nth_error; [exact Hnd| |congruence]. apply nth_error_Some. congruence.
Qed.
End Handler.
