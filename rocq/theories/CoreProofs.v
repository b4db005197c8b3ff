(** * The propositions of an unsat core *)
From Coq Require Import List Bool Arith ZArith Lia Permutation.
From Verif Require Import Sat SatInv SatProp Drup DrupProofs DrupSound Trace TraceProofs.
Import ListNotations.

Lemma lits_eqb_eq : forall ls ms, lits_eqb ls ms = true <-> ls = ms.
Proof.
  induction ls as [|l ls IH]; intros [|m ms]; cbn; split; try congruence; auto.
  - intros H. apply andb_true_iff in H as (H1 & H2). apply slit_eqb_eq in H1. apply IH in H2. congruence.
  - intros H. injection H as -> ->. apply andb_true_iff. split; [apply slit_eqb_eq; auto|apply IH; auto].
Qed.
Lemma cprop_eqb_eq : forall p q, cprop_eqb p q = true <-> p = q.
Proof.
  intros [p|ls] [q|ms]; cbn; split; try congruence; intros H.
  - apply Nat.eqb_eq in H. congruence.
  - injection H as ->. apply Nat.eqb_refl.
  - apply lits_eqb_eq in H. congruence.
  - injection H as ->. apply lits_eqb_eq. auto.
Qed.
Lemma in_addProp : forall p l q, In q (addProp p l) <-> q = p \/ In q l.
Proof.
  induction l as [|r l IH]; intros q; cbn; [intuition|]. destruct (cprop_eqb p r) eqn:E; cbn.
  - apply cprop_eqb_eq in E. subst r. intuition congruence.
  - rewrite IH. intuition congruence.
Qed.
Lemma insertN_perm : forall l ls, Permutation (insertN l ls) (l :: ls).
Proof. induction ls as [|m ls IH]; cbn; auto. destruct (num l <=? num m)%Z; auto. rewrite IH. constructor. Qed.
Lemma sortN_perm : forall ls, Permutation (sortN ls) ls.
Proof. induction ls as [|l ls IH]; cbn; auto. rewrite insertN_perm. auto. Qed.
Lemma in_dedupN : forall ls l, In l (dedupN ls) <-> In l ls.
Proof.
  induction ls as [|m ls IH]; intros l; cbn; [tauto|]. destruct (inL m ls) eqn:E; cbn; rewrite IH; [|tauto]. apply inL_in in E. intuition congruence.
Qed.
Lemma form_eqb_tr : forall a c d, form_eqb (formulaOf c) (formulaOf d) = true -> tr a c -> tr a d.
Proof.
  intros a c d H (l & Hl & T). unfold formulaOf in H. destruct (existsb (fun l => inL (neg l) d) d) eqn:D.
  - apply existsb_exists in D as (m & M & N). apply inL_in in N. destruct (alit a m) eqn:E; [exists m; auto|]. exists (neg m). split; auto. rewrite alit_neg, E. auto.
  - destruct (existsb (fun l => inL (neg l) c) c); [discriminate|]. cbn in H. apply lits_eqb_eq in H. exists l. split; auto.
    apply (Permutation_in _ (sortN_perm d)), in_dedupN. rewrite <- H. apply in_dedupN, (Permutation_in _ (Permutation_sym (sortN_perm c))). auto.
Qed.
Lemma lookupF_in : forall f is r p, lookupF f is r = Some p -> (exists i, In i is /\ propOf i = p /\ form_eqb (formulaOf (fst i)) f = true) \/ r = Some p.
Proof.
  induction is as [|i is IH]; intros r p H; cbn in H; auto. apply IH in H as [(j & A & B)|H]; [left; exists j; split; [right|]; auto|].
  destruct (form_eqb (formulaOf (fst i)) f) eqn:E; auto. injection H as <-. left. exists i. split; [left|]; auto.
Qed.
Lemma trivialCore_ok : forall is ps, trivialCore is = Some ps -> exists i j l, In i is /\ In j is /\ fst i = [l] /\ fst j = [neg l] /\ ps = addProp (propOf j) [propOf i].
Proof.
  induction is as [|i is IH]; intros ps H; cbn in H; [discriminate|]. destruct (find (opposite i) is) as [j|] eqn:F.
  - injection H as <-. apply find_some in F as (F & O). unfold opposite in O. destruct (fst i) as [|l [|? ?]] eqn:Fi; try discriminate. destruct (fst j) as [|m [|? ?]] eqn:Fj; try discriminate.
    apply slit_eqb_eq in O. subst m. exists i, j, l. repeat split; auto; [left|right]; auto.
  - destruct (IH _ H) as (a & b & l & A & B & C). exists a, b, l. split; [right; auto|]. split; [right; auto|auto].
Qed.
Lemma coreProps_ok : forall cs is acc ps, coreProps cs is acc = Some ps ->
  (forall q, In q ps -> In q acc \/ exists i, In i is /\ q = propOf i) /\ (forall q, In q acc -> In q ps) /\
  (forall c, In c cs -> exists i, In i is /\ In (propOf i) ps /\ form_eqb (formulaOf (fst i)) (formulaOf c) = true).
Proof.
  induction cs as [|c cs IH]; intros is acc ps H; cbn in H.
  - injection H as <-. split; auto. split; auto. intros ? [].
  - destruct (lookupF (formulaOf c) is None) as [p|] eqn:L; [|discriminate]. apply lookupF_in in L as [(i & I1 & I2 & I3)|L]; [|discriminate].
    apply IH in H as (H1 & H2 & H3). repeat split.
    + intros q Q. apply H1 in Q as [Q|Q]; auto. apply in_addProp in Q as [? | Q]; [subst q|auto]. right. exists i. auto.
    + intros q Q. apply H2, in_addProp. auto.
    + intros d [<-|D]; auto. exists i. split; auto. split; auto. apply H2, in_addProp. auto.
Qed.

Lemma computeCore_ok : forall hash n t core u, computeCore hash n t = TRet core u ->
  u = t /\ (forall q, In q core -> exists i, In i (t_orig t) /\ q = propOf i) /\
  (forall (true_ : cprop -> Prop) a, (forall i, In i (t_orig t) -> true_ (propOf i) -> tr a (fst i)) -> (forall q, In q core -> true_ q) -> False).
Proof.
  intros hash n t core u H. unfold computeCore in H. destruct (containsEmpty (t_orig t)) eqn:Ce.
  - destruct (lookupF (Some []) (t_orig t) None) as [p|] eqn:L; [|discriminate]. injection H as <- <-. split; auto. apply lookupF_in in L as [(i & I1 & I2 & I3)|L]; [|discriminate]. split.
    + intros q [<-|[]]. exists i. auto.
    + intros tv a A C. specialize (A i I1). rewrite I2 in A. destruct (A (C _ (or_introl eq_refl))) as (l & Hl & _). unfold formulaOf in I3. destruct (existsb _ _); [discriminate|]. cbn in I3.
      apply lits_eqb_eq in I3. assert (In l (dedupN (sortN (fst i)))) as X by (apply in_dedupN, (Permutation_in _ (Permutation_sym (sortN_perm _))); auto). rewrite I3 in X. destruct X.
  - destruct (drupCompute hash n _ (t_proof t)) as [|cs| |] eqn:D; try discriminate.
    + destruct (trivialCore (t_orig t)) as [ps|] eqn:E; [|discriminate]. injection H as <- <-. split; auto. apply trivialCore_ok in E as (i & j & l & E1 & E2 & E3 & E4 & ->). split.
      * intros q Q. apply in_addProp in Q as [? | [? | []]]; subst q; eauto.
      * intros tv a A C. assert (X1 : tr a (fst i)) by (apply A; auto; apply C, in_addProp; right; left; auto). assert (X2 : tr a (fst j)) by (apply A; auto; apply C, in_addProp; auto).
        rewrite E3 in X1. rewrite E4 in X2. destruct X1 as (x & [<-|[]] & T1), X2 as (y & [<-|[]] & T2). rewrite alit_neg, T1 in T2. discriminate.
    + destruct (coreProps cs (t_orig t) []) as [ps|] eqn:E; [|discriminate]. injection H as <- <-. split; auto. apply coreProps_ok in E as (E1 & _ & E3). split.
      * intros q Q. apply E1 in Q as [[]|Q]. auto.
      * intros tv a A C. apply drupCompute_ok in D as (_ & D). apply (D a). intros c Hc. destruct (E3 c Hc) as (i & I1 & I2 & I3). eapply form_eqb_tr; eauto.
Qed.
