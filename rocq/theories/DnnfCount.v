(** * The structural count is the number of models of a deterministic decomposable formula *)
From Coq Require Import String List Bool ZArith Lia Permutation.
From Verif Require Import Spec DnnfSpec.
Import ListNotations.
Local Open Scope Z_scope.

Lemma assign_same b x v : assign b x v x = v.
Proof. unfold assign. now rewrite String.eqb_refl. Qed.
Lemma assign_other b x v y : y <> x -> assign b x v y = b y.
Proof. intros H. unfold assign. apply String.eqb_neq in H. now rewrite H. Qed.

(** [g] depends on the variables in [P] only *)
Definition supp (P : string -> Prop) (g : asg -> bool) : Prop := forall b b', (forall x, P x -> b x = b' x) -> g b = g b'.

Lemma ways_ext xs : forall g h b b' (P : string -> Prop), supp P g -> (forall a, g a = h a) -> (forall x, P x -> In x xs \/ b x = b' x) -> ways xs g b = ways xs h b'.
Proof.
  induction xs as [|y xs IH]; intros g h b b' P S E H; cbn [ways].
  - rewrite <- E. rewrite (S b b'); auto. intros x Px. destruct (H x Px) as [[]|]; auto.
  - f_equal; apply (IH g h _ _ P S E); intros x Px; (destruct (string_dec x y) as [->|N];
      [right; now rewrite !assign_same|rewrite !assign_other by auto; destruct (H x Px) as [[->|]|]; auto; congruence]).
Qed.
Lemma all_supp g : (forall b b', (forall x, b x = b' x) -> g b = g b') -> supp (fun _ => True) g.
Proof. intros H b b' E. apply H. auto. Qed.
Definition extl (g : asg -> bool) : Prop := supp (fun _ => True) g.
Lemma supp_extl P g : supp P g -> extl g.
Proof. intros H b b' E. apply H. auto. Qed.
Lemma supp_mono (P Q : string -> Prop) g : (forall x, P x -> Q x) -> supp P g -> supp Q g.
Proof. intros H S b b' E. apply S. auto. Qed.

Lemma ways_perm xs ys : Permutation xs ys -> forall g b, extl g -> NoDup xs -> ways xs g b = ways ys g b.
Proof.
  induction 1 as [|x l l' HP IH|x y l|l l' l'' H1 IH1 H2 IH2]; intros g b E N; cbn [ways].
  - reflexivity.
  - inversion N; subst. rewrite !IH by auto. reflexivity.
  - assert (Hne : x <> y) by (inversion N as [|? ? H1 _]; intros ->; apply H1; left; auto).
    assert (G : forall u v, ways l g (assign (assign b y u) x v) = ways l g (assign (assign b x v) y u)).
    { intros u v. apply (ways_ext l g g _ _ (fun _ => True)); auto. intros z _. right.
      unfold assign. destruct (String.eqb_spec z x), (String.eqb_spec z y); subst; congruence. }
    rewrite !G. lia.
  - rewrite IH1, IH2; auto. eapply Permutation_NoDup; eauto.
Qed.
(** a variable without influence doubles the number *)
Lemma ways_free x xs g b P : supp P g -> ~ P x -> ways (x :: xs) g b = 2 * ways xs g b.
Proof.
  intros S H. cbn [ways]. assert (G : forall v, ways xs g (assign b x v) = ways xs g b).
  { intros v. apply (ways_ext xs g g _ _ P S); auto. intros y Py. right. apply assign_other. intros ->. auto. }
  rewrite !G. lia.
Qed.
Lemma ways_free_app ys : forall xs g b P, supp P g -> (forall y, In y ys -> ~ P y) -> ways (ys ++ xs) g b = 2 ^ Z.of_nat (length ys) * ways xs g b.
Proof.
  induction ys as [|y ys IH]; intros xs g b P S H; cbn [app length].
  - change (2 ^ Z.of_nat 0) with 1. lia.
  - rewrite (ways_free y (ys ++ xs) g b P S) by (apply H; left; auto). rewrite (IH xs g b P S) by (intros; apply H; right; auto).
    rewrite Nat2Z.inj_succ, Z.pow_succ_r by lia. ring.
Qed.
Lemma ways_false xs : forall b, ways xs (fun _ => false) b = 0.
Proof. induction xs; intros b; cbn [ways]; auto. rewrite !IHxs. auto. Qed.
(** a smaller list of variables *)
Lemma ways_sub xs ys g b (P : string -> Prop) : supp P g -> NoDup xs -> NoDup ys -> incl ys xs -> (forall x, P x -> In x ys) ->
  ways xs g b = 2 ^ (Z.of_nat (length xs) - Z.of_nat (length ys)) * ways ys g b.
Proof.
  intros S N N' I H. set (zs := filter (fun x => if in_dec string_dec x ys then false else true) xs).
  assert (Iz : forall x, In x zs <-> In x xs /\ ~ In x ys).
  { intros x. unfold zs. rewrite filter_In. destruct (in_dec string_dec x ys); split; intros [A B]; split; auto; try discriminate; try contradiction. }
  assert (Pm : Permutation xs (zs ++ ys)).
  { apply NoDup_Permutation; auto.
    - assert (Nz : NoDup zs) by (apply NoDup_filter; auto). assert (D : forall x, In x zs -> ~ In x ys) by (intros x Hx; apply Iz in Hx; tauto).
      clear -Nz N' D. induction Nz; cbn; auto. constructor; [rewrite in_app_iff; intros [?|?]; auto; eapply D; eauto; left; auto|apply IHNz; intros; apply D; right; auto].
    - intros x. rewrite in_app_iff, Iz. split; [intros Hx; destruct (in_dec string_dec x ys); auto|intros [[? _]|?]; auto]. }
  rewrite (ways_perm _ _ Pm g b (supp_extl _ _ S) N). rewrite (ways_free_app zs ys g b P S) by (intros y Hy Py; apply Iz in Hy; destruct Hy; auto).
  apply Permutation_length in Pm. rewrite app_length in Pm. do 2 f_equal. lia.
Qed.
(** independent conjunction *)
Lemma ways_const xs : forall g (c : bool) b, ways xs (fun a => c && g a) b = if c then ways xs g b else 0.
Proof. intros g [] b; [|apply ways_false]. revert b. induction xs; intros b; cbn [ways andb]; [|rewrite !IHxs]; reflexivity. Qed.
Lemma ways_and xs : forall ys g h b P Q, supp P g -> supp Q h -> (forall y, In y ys -> ~ P y) -> (forall x, In x xs -> ~ Q x) ->
  ways (xs ++ ys) (fun a => g a && h a) b = ways xs g b * ways ys h b.
Proof.
  induction xs as [|x xs IH]; intros ys g h b P Q Sg Sh Hy Hx; cbn [app].
  - cbn [ways]. transitivity (ways ys (fun a => g b && h a) b).
    + assert (G : forall ys b', (forall y, In y ys -> ~ P y) -> (forall z, P z -> b' z = b z) -> ways ys (fun a => g a && h a) b' = ways ys (fun a => g b && h a) b').
      { clear ys Hy. induction ys as [|y ys IH]; intros b' Hy Hb; cbn [ways].
        - rewrite (Sg b' b); auto.
        - assert (K : forall v z, P z -> assign b' y v z = b z) by (intros v z Pz; rewrite assign_other; [auto|intros E; subst; apply (Hy y (or_introl eq_refl)); auto]).
          rewrite !IH; auto; intros; apply Hy; right; auto. }
      apply G; auto.
    + rewrite ways_const. destruct (g b); lia.
  - cbn [ways]. rewrite !(IH ys g h _ P Q Sg Sh Hy) by (intros; apply Hx; right; auto).
    assert (G : forall v, ways ys h (assign b x v) = ways ys h b).
    { intros v. apply (ways_ext ys h h _ _ Q Sh); auto. intros z Qz. right. apply assign_other. intros ->. apply (Hx x); [left|]; auto. }
    rewrite !G. ring.
Qed.
(** exclusive disjunction *)
Lemma ways_or xs : forall g h b, (forall a, g a = true -> h a = false) -> ways xs (fun a => g a || h a) b = ways xs g b + ways xs h b.
Proof.
  induction xs as [|x xs IH]; intros g h b H; cbn [ways].
  - specialize (H b). destruct (g b); cbn; [rewrite H; auto|destruct (h b); auto].
  - rewrite !IH by auto. lia.
Qed.

(** ** Variables *)
Lemma occurs_go x ts : (fix go (l : list tree) : Prop := match l with [] => False | t :: r => occurs x t \/ go r end) ts <-> exists t, In t ts /\ occurs x t.
Proof.
  induction ts; cbn; [split; [tauto|intros (t & [] & _)]|]. rewrite IHts. split.
  - intros [H|(t & H & H')]; eauto.
  - intros (t & [->|H] & H'); eauto.
Qed.
Lemma occList_ok x : forall t, In x (occList t) <-> occurs x t.
Proof.
  assert (L : forall ts, Forall (fun t => In x (occList t) <-> occurs x t) ts -> (In x (flat_map occList ts) <-> exists t, In t ts /\ occurs x t)).
  { intros ts HF. rewrite in_flat_map. rewrite Forall_forall in HF. split; intros (t & H1 & H2); exists t; split; auto; apply (HF t H1); auto. }
  induction t using tree_ind'; cbn [occList occurs].
  - cbn; tauto.
  - cbn; tauto.
  - cbn. tauto.
  - auto.
  - rewrite occurs_go. auto.
  - rewrite occurs_go. auto.
  - rewrite in_app_iff. tauto.
  - rewrite in_app_iff. tauto.
  - rewrite in_map_iff. split; [intros ([y p] & <- & H); eauto|intros (p & H); exists (x, p); auto].
Qed.
Lemma treeVars_in x t : In x (treeVars t) <-> occurs x t.
Proof. unfold treeVars. rewrite nodup_In. apply occList_ok. Qed.
Lemma treeVars_nodup t : NoDup (treeVars t).
Proof. apply NoDup_nodup. Qed.
Lemma eval_supp t : supp (fun x => occurs x t) (fun b => eval b t).
Proof.
  intros b b'. induction t using tree_ind'; intros H'; cbn [eval]; auto.
  - destruct l as [n p]. unfold eval_lit; cbn in *. rewrite (H' n); auto.
  - f_equal. apply IHt; auto.
  - cbn in H'. induction H; cbn in *; auto. rewrite H; auto. f_equal. apply IHForall. auto.
  - cbn in H'. induction H; cbn in *; auto. rewrite H; auto. f_equal. apply IHForall. auto.
  - cbn in H'. rewrite IHt1, IHt2; auto.
  - cbn in H'. rewrite IHt1, IHt2; auto.
  - f_equal. cbn in H'. revert cs. induction ls as [|[n p] ls IH]; intros [|d cs]; cbn; auto.
    rewrite IH; [|intros x [q Hq]; apply H'; exists q; right; auto].
    unfold eval_lit; cbn. rewrite (H' n); auto. exists p; left; auto.
Qed.

Lemma models_sub xs t : NoDup xs -> incl (treeVars t) xs -> models xs t = 2 ^ (Z.of_nat (length xs) - nvars t) * models (treeVars t) t.
Proof.
  intros N I. unfold models, nvars. apply (ways_sub xs (treeVars t) _ _ (fun x => occurs x t)); auto using treeVars_nodup, eval_supp.
  intros x Hx. apply treeVars_in; auto.
Qed.

Lemma and_supp ts : supp (fun x => exists u, In u ts /\ occurs x u) (fun a => forallb (eval a) ts).
Proof. intros b b' H. apply (eval_supp (TAnd ts) b b'). intros x Hx. apply H. cbn in Hx. now rewrite occurs_go in Hx. Qed.

Lemma nodup_app {A} (xs ys : list A) : NoDup xs -> NoDup ys -> (forall x, In x xs -> ~ In x ys) -> NoDup (xs ++ ys).
Proof. induction 1; cbn; intros N D; auto. constructor; [rewrite in_app_iff; intros [?|?]; auto; eapply D; eauto; left; auto|apply IHNoDup; auto; intros; apply D; right; auto]. Qed.

Lemma count_and ts : pairwise disjoint_vars ts -> Forall (fun t => dcount t = models (treeVars t) t) ts ->
  fold_right Z.mul 1 (map dcount ts) = models (treeVars (TAnd ts)) (TAnd ts).
Proof.
  intros PW HF.
  assert (G : exists xs, NoDup xs /\ (forall x, In x xs <-> exists u, In u ts /\ occurs x u) /\
     forall b, fold_right Z.mul 1 (map dcount ts) = ways xs (fun a => forallb (eval a) ts) b).
  { induction HF as [|t ts Ht HF IH]; cbn [map fold_right].
    - exists []. split; [constructor|]. split; [intros x; split; [intros []|intros (u & [] & _)]|]. intros b. reflexivity.
    - destruct PW as [P1 P2]. destruct (IH P2) as (xs & N & Hx & E). rewrite Forall_forall in P1. exists (treeVars t ++ xs).
      split; [apply nodup_app; auto using treeVars_nodup; intros x H1 H2; apply treeVars_in in H1; apply Hx in H2 as (u & Iu & Ou); apply (P1 u Iu x); auto|].
      split.
      + intros x. rewrite in_app_iff, treeVars_in, Hx. split; [intros [H|(u & Iu & Ou)]; [exists t|exists u]; split; auto; [left|right]; auto|intros (u & [->|Iu] & Ou); eauto].
      + intros b. cbn [forallb]. rewrite (ways_and (treeVars t) xs (fun a => eval a t) (fun a => forallb (eval a) ts) b (fun x => occurs x t) (fun x => exists u, In u ts /\ occurs x u)).
        * rewrite <- E. f_equal. rewrite Ht. unfold models. apply (ways_ext _ _ _ _ _ (fun x => occurs x t)); auto using eval_supp. intros x Ox. left. apply treeVars_in; auto.
        * apply eval_supp.
        * apply and_supp.
        * intros y Hy Oy. apply Hx in Hy as (u & Iu & Ou). apply (P1 u Iu y); auto.
        * intros x H1 (u & Iu & Ou). apply treeVars_in in H1. apply (P1 u Iu x); auto. }
  destruct G as (xs & N & Hx & E). rewrite (E (fun _ => false)). unfold models. cbn [eval]. apply ways_perm; auto.
  - apply NoDup_Permutation; auto using treeVars_nodup. intros x. rewrite Hx, treeVars_in. cbn [occurs]. now rewrite occurs_go.
  - apply (supp_extl _ _ (and_supp ts)).
Qed.
Lemma count_or ts : pairwise exclusive ts -> Forall (fun t => dcount t = models (treeVars t) t) ts ->
  dcount (TOr ts) = models (treeVars (TOr ts)) (TOr ts).
Proof.
  intros PW HF. change (dcount (TOr ts)) with (fold_right Z.add 0 (map (fun u => dcount u * 2 ^ (Z.of_nat (length (treeVars (TOr ts))) - nvars u)) ts)).
  assert (NV : NoDup (treeVars (TOr ts))) by apply treeVars_nodup.
  assert (I : forall u, In u ts -> incl (treeVars u) (treeVars (TOr ts))).
  { intros u Iu x Hx. apply treeVars_in. cbn [occurs]. rewrite occurs_go. apply treeVars_in in Hx. eauto. }
  revert NV I. generalize (treeVars (TOr ts)) as xs. intros xs NV I. unfold models at 1. cbn [eval].
  induction HF as [|t ts Ht HF IH]; cbn [map fold_right existsb].
  - symmetry. apply ways_false.
  - destruct PW as [P1 P2]. rewrite Forall_forall in P1.
    rewrite (ways_or xs (fun a => eval a t) (fun a => existsb (eval a) ts)).
    + rewrite IH; auto; [|intros u Iu; apply I; right; auto]. f_equal. rewrite Ht, Z.mul_comm. rewrite <- models_sub; auto. apply I. left; auto.
    + intros a Ha. destruct (existsb (eval a) ts) eqn:E; auto. apply existsb_exists in E as (u & Iu & Eu). specialize (P1 u Iu a Ha). congruence.
Qed.
Lemma dcount_models : forall t, ddnnf t -> dcount t = models (treeVars t) t.
Proof.
  induction t using tree_ind'; intros D; inversion D; subst; try reflexivity.
  - destruct l as [x p]. unfold models, treeVars. cbn. unfold eval_lit; cbn. rewrite !assign_same. destruct p; reflexivity.
  - cbn [dcount]. apply count_and; auto. rewrite Forall_forall in *. auto.
  - apply count_or; auto. rewrite Forall_forall in *. auto.
Qed.
