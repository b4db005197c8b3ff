(** * The clauses returned by the unsat core computation *)
From Coq Require Import List Bool Arith ZArith Lia Permutation.
From Verif Require Import Sat SatInv SatProp Drup DrupProofs DrupVerify.
Import ListNotations.

Definition actOf (P : nat) (x : dr) : nat -> bool := fun c => (c <? P) && (2 <=? length (litsOf x c)).
Lemma litsOf_add : forall ls x c, litsOf (addClauseX ls x) c = if c =? length (x_db x) then ls else litsOf x c.
Proof.
  intros ls x c. unfold litsOf. cbn. destruct (Nat.eqb_spec c (length (x_db x))) as [->|Ne].
  - rewrite nth_error_app2, Nat.sub_diag by auto. auto.
  - destruct (Nat.lt_ge_cases c (length (x_db x))) as [L|L]; [rewrite nth_error_app1 by auto; auto|].
    rewrite (proj2 (nth_error_None (x_db x) c)) by auto. rewrite (proj2 (nth_error_None (x_db x ++ [Dcl ls false]) c)); auto. rewrite app_length. cbn. lia.
Qed.
Lemma mark_add : forall ls x c, mark (addClauseX ls x) c = mark x c.
Proof.
  intros ls x c. unfold mark. cbn. destruct (Nat.lt_ge_cases c (length (x_db x))) as [L|L]; [rewrite nth_error_app1 by auto; auto|].
  rewrite (proj2 (nth_error_None (x_db x) c)) by auto. rewrite nth_error_app2 by auto. destruct (c - length (x_db x)) as [|j]; cbn; auto. destruct j; auto.
Qed.
Lemma Inv_add : forall act P B ls x, Inv act P B x -> P <= length (x_db x) -> Inv act P B (addClauseX ls x).
Proof.
  intros act P B ls x I L. split; try apply I.
  - intros c l. rewrite litsOf_add. pose proof (i_w _ _ _ _ I c l) as W. cbn [addClauseX set_ad set_db x_wl]. destruct (Nat.eqb_spec c (length (x_db x))) as [->|]; auto.
    destruct (act (length (x_db x))) eqn:A; auto. apply I in A. lia.
  - intros k f N. pose proof (i_r _ _ _ _ I _ _ N) as J. cbn [addClauseX set_ad set_db x_rsn x_stack x_forced]. destruct (x_rsn x (fst f)) as [c|]; auto. rewrite litsOf_add.
    destruct J as (J & K). destruct (Nat.eqb_spec c (length (x_db x))); [lia|auto].
Qed.

(** the state while the clauses of the problem are read *)
Record RP (cs : list (list slit)) (x : dr) : Prop := {
  r_db : map q_lits (x_db x) = cs;
  r_inv : Inv (actOf (length cs) x) (length cs) [] x;
  r_forced : x_forced x = 0;
  r_proc : x_proc x = 0;
  r_mark : forall c, mark x c = false;
  r_ad : ~ In None (x_ad x);
  r_rsn : forall v c, x_rsn x v = Some c -> exists f, In f (x_stack x) /\ fst f = v;
  r_unit : forall f, In f (x_stack x) -> In [neg f] cs }.
Lemma readClause_ok : forall cs ls x y, RP cs x -> readClause ls x = Some y -> RP (cs ++ [ls]) y.
Proof.
  intros cs ls x y [R1 R2 R3 R4 R5 R6 R7 R8] H.
  assert (R8' : forall f, In f (x_stack x) -> In [neg f] (cs ++ [ls])) by (intros; apply in_or_app; auto).
  assert (Lc : length (x_db x) = length cs) by (rewrite <- R1, map_length; auto).
  set (x1 := addClauseX ls x). assert (I1 : Inv (actOf (length cs) x) (length cs) [] x1) by (apply Inv_add; auto; lia).
  assert (L1 : length (cs ++ [ls]) = S (length cs)) by (rewrite app_length; cbn; lia).
  assert (Db : map q_lits (x_db x1) = cs ++ [ls]) by (cbn; rewrite map_app; cbn; rewrite R1; auto).
  assert (A1 : ~ In None (x_ad x1)) by (cbn; intros A; apply in_app_or in A; destruct A as [A|[A|[]]]; [auto|discriminate]).
  assert (M1 : forall c, mark x1 c = false) by (intros; unfold x1; rewrite mark_add; auto).
  assert (I2 : Inv (actOf (length cs) x) (S (length cs)) [] x1) by (eapply Inv_P; [|exact I1]; lia).
  assert (An : forall c, actOf (S (length cs)) x1 c = if c =? length cs then 2 <=? length ls else actOf (length cs) x c).
  { intros c. unfold actOf. unfold x1. rewrite litsOf_add, Lc. destruct (Nat.eqb_spec c (length cs)) as [->|Ne].
    - rewrite (proj2 (Nat.ltb_lt (length cs) (S (length cs)))) by lia. auto.
    - f_equal. apply eq_iff_eq_true. rewrite !Nat.ltb_lt. lia. }
  assert (An0 : actOf (length cs) x (length cs) = false) by (unfold actOf; rewrite Nat.ltb_irrefl; auto).
  unfold readClause in H. destruct ls as [|l0 [|l1 r]]; [discriminate| |].
  - destruct (isFalse x l0) eqn:F0; [discriminate|]. injection H as <-. fold x1.
    assert (I3 : Inv (actOf (S (length cs)) x1) (S (length cs)) [] x1).
    { eapply Inv_ext; [|exact I2]. intros c. rewrite An. destruct (Nat.eqb_spec c (length cs)) as [->|]; auto. }
    change (isFalse x l0) with (isFalse x1 l0) in F0. apply (isFalse_f _ _ _ _ _ I2) in F0.
    change (isFalse (addClauseX [l0] x) (neg l0)) with (isFalse x1 (neg l0)). destruct (isFalse x1 (neg l0)) eqn:F1.
    + split; auto. rewrite L1. auto.
    + apply (isFalse_f _ _ _ _ _ I2) in F1. split; auto.
      * rewrite L1. eapply Inv_assign with (r := []); eauto.
        -- unfold x1. rewrite litsOf_add, Nat.eqb_refl. auto.
        -- intros ? [].
        -- lia.
      * intros v c. cbn. unfold upd. destruct (Nat.eqb_spec v (fst l0)) as [->|].
        -- intros _. exists (neg l0). split; [apply in_or_app; right; left; auto|apply neg_fst].
        -- intros Q. destruct (R7 _ _ Q) as (f & F & ?). exists f. split; auto. apply in_or_app; auto.
      * intros f. cbn. intros Q. apply in_app_or in Q. destruct Q as [Q|[<-|[]]]; auto. rewrite neg_neg. apply in_or_app. right. left. auto.
  - injection H as <-. fold x1.
    assert (E : addWatches (length (x_db x)) x1 = RRet tt (addWatch (length (x_db x)) l1 (addWatch (length (x_db x)) l0 x1))).
    { unfold addWatches, xbind, getLits, xmod. cbn [x1 addClauseX set_ad set_db x_db]. rewrite nth_error_app2, Nat.sub_diag by auto. auto. }
    apply (addWatches_ok _ _ _ _ _ _ I2) in E; rewrite ?Lc; auto. destruct E as (I3 & _). rewrite Lc in I3.
    split; auto. rewrite L1. eapply Inv_ext; [|exact I3]. intros c. change (actOf (S (length cs)) (addWatch _ _ _) c) with (actOf (S (length cs)) x1 c).
    rewrite An. unfold upd. destruct (Nat.eqb_spec c (length cs)); auto.
Qed.
Lemma readClauses_ok : forall hash cs ds t x t' y, RP ds x -> readClauses hash cs t x = Some (t', y) -> RP (ds ++ cs) y.
Proof.
  intros hash. induction cs as [|c cs IH]; intros ds t x t' y R H; cbn in H; [injection H as <- <-; rewrite app_nil_r; auto|].
  destruct (readClause c x) as [z|] eqn:E; [|discriminate]. apply (readClause_ok _ _ _ _ R) in E. eapply IH in H; eauto. rewrite <- app_assoc in H. auto.
Qed.
Lemma RP_empty : RP [] empty.
Proof.
  split; auto; try discriminate; try (cbn; tauto).
  - split.
    + intros c l. cbn. lia.
    + intros c. unfold actOf. cbn. discriminate.
    + intros f. cbn. split; [congruence|contradiction].
    + cbn. auto.
    + intros k f H. destruct k; discriminate.
  - intros c. unfold mark. destruct c; auto.
Qed.

(** the state while the proof is read *)
Record RQ (act : nat -> bool) (cs : list (list slit)) (x : dr) : Prop := {
  q_db : exists ds, map q_lits (x_db x) = cs ++ ds;
  q_inv : Inv act (length cs) [] x;
  q_forced : x_forced x = 0;
  q_proc : x_proc x = 0;
  q_m : forall c, mark x c = false;
  q_ad : ~ In None (x_ad x);
  q_rsn : forall v c, x_rsn x v = Some c -> exists f, In f (x_stack x) /\ fst f = v }.
Lemma readProof_ok : forall act cs hash nv ps t first x r y, RQ act cs x ->
  match first with Some p => fst p = length cs | None => length (x_db x) = length cs end ->
  readProof hash nv ps t first x = RRet r y -> RQ act cs y /\ length cs <= fst r /\ (fst r = length cs \/ fst r = length (x_db y)).
Proof.
  intros act cs hash nv. induction ps as [|(del, ls) ps IH]; intros t first x r y Q F H; cbn in H.
  - injection H as <- <-. cbn. split; auto. split; auto. destruct (q_db _ _ _ Q) as (ds & E). apply (f_equal (@length _)) in E. rewrite map_length, app_length in E. lia.
  - destruct (existsb (fun l : nat * bool => nv <=? fst l) ls); [discriminate|]. destruct del.
    + destruct (matchClause x ls (t (hash ls)) 0) as [i|]; [|discriminate]. apply IH in H; auto. destruct Q as [Q1 Q2 Q3 Q4 Q5 Q6 Q7]. split; auto.
      * split; apply Q2.
      * cbn. intros A. apply in_app_or in A. destruct A as [A|[A|[]]]; [auto|discriminate].
    + assert (Qy : RQ act cs (addClauseX ls x)).
      { destruct Q as [(ds & Q1) Q2 Q3 Q4 Q5 Q6 Q7]. split; auto.
        - exists (ds ++ [ls]). cbn. rewrite map_app, Q1, app_assoc. auto.
        - apply Inv_add; auto. apply (f_equal (@length _)) in Q1. rewrite map_length, app_length in Q1. lia.
        - intros c. rewrite mark_add. auto.
        - cbn. intros A. apply in_app_or in A. destruct A as [A|[A|[]]]; [auto|discriminate]. }
      assert (Fy : match (match first with Some p => Some p | None => Some (length (x_db x), length (x_ad x)) end) with Some p => fst p = length cs | None => length (x_db (addClauseX ls x)) = length cs end).
      { destruct first; auto. }
      destruct ls as [|l ls].
      * injection H as <- <-. split; auto. destruct first; cbn in Fy |- *; rewrite Fy; auto.
      * apply IH in H; auto.
Qed.

Lemma nth_error_nth_lits : forall x c ds, map q_lits (x_db x) = ds -> litsOf x c = nth c ds [].
Proof. intros x c ds <-. unfold litsOf. revert c. induction (x_db x) as [|d l IH]; intros [|c]; cbn; auto. Qed.
Lemma in_marked : forall first x ls, In ls (marked first x) <-> exists c, c < first /\ c < length (x_db x) /\ mark x c = true /\ litsOf x c = ls.
Proof.
  intros first x ls. unfold marked. rewrite in_map_iff. split.
  - intros (d & <- & H). apply filter_In in H as (H & M). destruct (In_nth _ _ _ H) as (c & L & N). exists c. split; auto. split; [apply nth_error_Some; congruence|].
    unfold mark, litsOf. rewrite N. auto.
  - intros (c & L & L' & M & <-). unfold mark, litsOf in *. destruct (nth_error (x_db x) c) as [d|] eqn:N; [|discriminate]. exists d. split; auto. apply filter_In. split; auto.
    eapply nth_error_firstn; eauto.
Qed.

Lemma verify_ok : forall act cs n first k x core y, RQ act cs x -> (forall c, act c = true -> c < length cs) -> length cs <= first -> first = length cs \/ first = length (x_db x) ->
  verify n first k x = RRet core y ->
  (forall ls, In ls core -> exists c, In c cs /\ Permutation ls c) /\ (forall a, (forall ls, In ls core -> tr a ls) -> False).
Proof.
  intros act cs n first k x core y [(ds & Q1) Q2 Q3 Q4 Q5 Q6 Q7] Ha Lf Fd H. set (D := litsOf x). unfold verify in H.
  assert (PD : Perm D x) by (intros c; apply Permutation_refl).
  assert (Dc : forall c, c < length cs -> In (D c) cs).
  { intros c L. unfold D. rewrite (nth_error_nth_lits _ _ _ Q1), app_nth1 by auto. apply nth_In. auto. }
  assert (Fin : forall P z, K D P z -> Perm D z -> P <= first -> (forall c, c < first -> mark z c = true -> c < length cs) ->
     (forall ls, In ls (marked first z) -> exists c, In c cs /\ Permutation ls c) /\ (forall a, (forall ls, In ls (marked first z) -> tr a ls) -> False)).
  { intros P z Kz Pz LP Mz. split.
    - intros ls Hl. apply in_marked in Hl as (c & L1 & L2 & M & <-). exists (D c). split; auto.
    - intros a A. apply (Kz a). intros c Hc Mc. eapply tr_perm; [apply Pz|]. apply A. apply in_marked. exists c. split; [lia|]. split; auto.
      unfold mark in Mc. apply nth_error_Some. destruct (nth_error (x_db z) c); congruence. }
  xb H. xb H. injection E0 as <- <-. xb H. destruct a0. injection H as <- <-.
  assert (Init : if a then Inv act (length cs) [] y0 /\ Ext x y0 /\ x_proc y0 = length (x_stack y0) else Conf act (length cs) [] x y0).
  { destruct (x_proc x <? length (x_stack x)) eqn:L.
    - eapply propagateD_ok; eauto.
    - injection E as <- <-. split; auto. split; [apply Ext_refl|]. apply Nat.ltb_ge in L. lia. }
  destruct a.
  - destruct Init as (I1 & X1 & Pr). xb E0. destruct a as (e, k'). xb E0. injection E2 as <- <-. cbn [fst snd] in E0.
    set (xf := set_forced (x_proc y0) y0) in *.
    set (gs := map (fun f => (f, match x_rsn xf (fst f) with Some d => d | None => 0 end)) (x_stack xf)).
    assert (Gr : forall f d, In (f, d) gs -> x_rsn xf (fst f) = Some d /\ d < length cs).
    { intros f d Q. unfold gs in Q. apply in_map_iff in Q as (f' & Q & Ft). injection Q as -> <-. apply In_nth_error in Ft as (j & Nj). pose proof (i_r _ _ _ _ I1 _ _ Nj) as J.
      change (x_rsn xf) with (x_rsn y0). destruct (x_rsn y0 (fst f)) as [d|]; [|destruct J as ([] & _)]. split; auto. apply J. }
    assert (Gs : gstk gs xf) by (split; [unfold gs; rewrite map_map; cbn; rewrite map_id; auto|intros; apply Gr; auto]).
    apply (forward_ok D first k n first k gs act []) in E1.
    + assert (Fo := E1). destruct E1 as [(kk & gs1 & act1 & s1 & c & a & -> & F2 & F3 & F4 & F5 & F6 & F7 & F8 & F9 & F10 & F11 & F12)].
      destruct (Hist_lt _ _ _ _ _ _ _ _ _ F2) as (Fe & _).
      assert (first = length cs).
      { destruct Fd as [|Fd]; auto. exfalso. assert (D e = []) as De by (unfold D, litsOf; rewrite (proj2 (nth_error_None (x_db x) e)) by lia; auto).
        unfold freeD in F5. rewrite De in F5. discriminate. }
      subst first. apply (backward_ok D (length cs) k) in E0; auto.
      * destruct E0 as (E0 & E0'). apply (Fin (length cs)); auto.
      * intros kk' e' z A. cbn in A. rewrite F3 in A. injection A as <- <- <-.
        exists gs1, act1, s1. split; auto.
        -- apply Inv_forced; auto. rewrite F9. auto.
        -- apply F6.
        -- exists []. rewrite app_nil_r. split; [apply F6|]. split; auto. right. exists a. auto.
    + split; auto.
      * constructor; [|intros; apply Ha in H; lia]. apply Forall_forall. intros (f, d) Hd. apply Gr in Hd. cbn. lia.
      * eapply Inv_P; [exact Lf|]. apply Inv_forced; auto. cbn. lia.
      * intros c. etransitivity; [apply X1|]. apply PD.
      * intros j _ A. apply nth_error_In in A. change (x_ad xf) with (x_ad y0) in A. rewrite (e_ad _ _ X1) in A. auto.
      * intros c. change (mark xf c) with (mark y0 c). rewrite (e_mark _ _ X1). auto.
      * intros v c Hv. destruct (e_new _ _ X1 v) as [Q|(f & Q & <-)].
        -- change (x_rsn y0 v = Some c) in Hv. rewrite Q in Hv. destruct (Q7 _ _ Hv) as (f & F & <-). assert (In f (x_stack xf)) as F' by (apply (Ext_in _ _ _ X1 F)).
           destruct (gstk_in _ _ _ Gs F') as (d & D1 & D2). exists f. split; auto. change (x_rsn xf (fst f)) with (x_rsn y0 (fst f)) in D2. rewrite Q, Hv in D2. injection D2 as <-. auto.
        -- destruct (gstk_in _ _ _ Gs Q) as (d & D1 & D2). exists f. split; auto. rewrite Hv in D2. injection D2 as <-. auto.
  - injection E0 as <-. apply (Fin (length cs)); auto.
    + intros a A. eapply (c_sem _ _ _ _ _ Init a); [|intros ? []]. intros c Hc Mc. eapply tr_perm; [symmetry; apply (c_lits _ _ _ _ _ Init)|]. apply A; auto.
    + intros c. apply (c_lits _ _ _ _ _ Init).
    + intros c _ Mc. destruct (c_mark _ _ _ _ _ Init c Mc) as [M|(M & _)]; auto. rewrite Q5 in M. discriminate.
Qed.

(** ** drupCompute *)
Lemma drupCompute_ok : forall hash n cs proof core, drupCompute hash n cs proof = DCore core ->
  (forall ls, In ls core -> exists c, In c cs /\ Permutation ls c) /\ (forall a, (forall ls, In ls core -> tr a ls) -> False).
Proof.
  intros hash n cs proof core H. unfold drupCompute in H. destruct (readClauses hash cs (fun _ => []) empty) as [(t, x)|] eqn:E; [|discriminate].
  apply (readClauses_ok _ _ _ _ _ _ _ RP_empty) in E. cbn [app] in E. destruct E as [R1 R2 R3 R4 R5 R6 R7 R8].
  assert (Q : RQ (actOf (length cs) x) cs x) by (split; auto; exists []; rewrite app_nil_r; auto).
  assert (L : length (x_db x) = length cs) by (rewrite <- R1, map_length; auto).
  match type of H with context [xbind ?m ?k x] => set (m0 := m) in H; unfold xbind in H; destruct (m0 x) as [p y| |] eqn:E; try discriminate end.
  destruct (verify n (fst p) (snd p) y) as [c z| |] eqn:V; try discriminate. injection H as <-.
  assert (RQ (actOf (length cs) x) cs y /\ length cs <= fst p /\ (fst p = length cs \/ fst p = length (x_db y))) as (Q' & L' & F).
  { destruct cs as [|c0 cs]; [injection E as <- <-; auto|]. eapply (readProof_ok _ _ _ _ _ _ None) in E; eauto. }
  eapply verify_ok in V; eauto. intros d Hd. unfold actOf in Hd. apply andb_true_iff in Hd as (Hd & _). apply Nat.ltb_lt in Hd. auto.
Qed.
Lemma readClauses_trivial : forall hash cs ds t x, RP ds x -> readClauses hash cs t x = None -> In [] cs \/ exists l, In [l] (ds ++ cs) /\ In [neg l] (ds ++ cs).
Proof.
  intros hash. induction cs as [|c cs IH]; intros ds t x R H; cbn in H; [discriminate|]. destruct (readClause c x) as [y|] eqn:E.
  - apply (readClause_ok _ _ _ _ R) in E. destruct (IH _ _ _ E H) as [?|(l & A)]; [left; right; auto|]. right. exists l. rewrite <- app_assoc in A. auto.
  - unfold readClause in E. destruct c as [|l [|l1 r]]; [left; left; auto| |discriminate]. destruct (isFalse x l) eqn:F; [|discriminate]. right. exists l.
    apply (isFalse_t _ _ _ _ _ (r_inv _ _ R)) in F. apply (r_unit _ _ R) in F. split; apply in_or_app; [right; left; auto|left; auto].
Qed.
Lemma drupCompute_trivial : forall hash n cs proof, drupCompute hash n cs proof = DTrivial -> In [] cs \/ exists l, In [l] cs /\ In [neg l] cs.
Proof.
  intros hash n cs proof H. unfold drupCompute in H. destruct (readClauses hash cs (fun _ => []) empty) as [(t, x)|] eqn:E.
  - destruct (xbind _ _ x); discriminate.
  - apply (readClauses_trivial _ _ _ _ _ RP_empty) in E. auto.
Qed.
