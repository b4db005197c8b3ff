(** * MaxSAT: relaxation variables, costs and saved models *)
From Coq Require Import List Bool Arith Lia Permutation.
From Verif Require Import SatSpec Sat SatProps MaxSpec MaxSat MaxBase MaxTot.
Import ListNotations.

(** the soft clauses as the user adds them, and with their relaxation variables *)
Definition clean (ss : list (nat * list slit)) : list softc := map (fun wc => Soft (snd wc) [] (fst wc) None) ss.
Fixpoint relaxed (asm : bool) (k : nat) (ss : list (nat * list slit)) : list softc :=
  match ss with [] => [] | wc :: r => Soft (snd wc) [(k, false)] (fst wc) (if asm then Some (k, false) else None) :: relaxed asm (S k) r end.
Lemma len_relaxed : forall asm ss k, length (relaxed asm k ss) = length ss.
Proof. induction ss; intros; cbn; auto. Qed.
Lemma initRelax_ok : forall asm ss x, wpM (initRelax asm (clean ss)) x (fun p y => p = (relaxed asm (nbVars x) ss, map (fun i => (i, false)) (seq (nbVars x) (length ss))) /\ y = set_nbVars (nbVars x + length ss) x).
Proof.
  intros asm ss. induction ss as [|wc r IH]; intros x; cbn [initRelax clean map].
  - apply wpM_ret. split; auto. rewrite Nat.add_0_r. destruct x; reflexivity.
  - apply wpM_bind. unfold newLiteral, wpM at 1. apply wpM_bind. eapply wpM_mono; [apply IH|]. cbv beta. cbn [nbVars set_nbVars]. intros p y [-> ->]. apply wpM_ret. cbn [fst snd length seq map relaxed sc_lits sc_relax sc_weight sc_asm app]. split; auto.
    replace (nbVars x + S (length r)) with (S (nbVars x) + length r) by lia. destruct x; reflexivity.
Qed.
Lemma meach_map : forall {A B} (f : A -> B) (g : B -> M unit) l, meach (map f l) g = meach l (fun a => g (f a)).
Proof. intros A B f g l. induction l as [|a r IH]; cbn; auto. rewrite IH. auto. Qed.

Definition wfP (nv : nat) (P : problem) : Prop := (forall c, In c (p_hard P) -> below nv c) /\ forall wc, In wc (p_soft P) -> below nv (snd wc).
Lemma feasible_agree : forall nv P a b, wfP nv P -> agree nv a b -> feasible P a -> feasible P b.
Proof. intros nv P a b [W _] A H c I. rewrite <- (true_in_agree nv a b); auto. Qed.
Lemma costs_agree : forall nv ss a b, (forall wc, In wc ss -> below nv (snd wc)) -> agree nv a b -> costs ss a = costs ss b.
Proof. intros nv ss a b W A. unfold costs. f_equal. apply map_ext_in. intros wc I. rewrite (true_in_agree nv a b); auto. Qed.
Lemma cost_agree : forall nv P a b, wfP nv P -> agree nv a b -> cost P a = cost P b.
Proof. intros nv P a b [_ W] A. unfold cost. eapply costs_agree; eauto. Qed.
Lemma of_firstn : forall k m, agree k (of_list m) (of_list (firstn k m)).
Proof.
  intros k m v Hv. unfold of_list. revert k v Hv. induction m as [|b m IH]; intros k v Hv; [rewrite firstn_nil; auto|]. destruct k; [lia|]. destruct v; cbn; auto. apply IH. lia.
Qed.

(** ** The problem with relaxation variables *)
Section Problem.
Variables (nv0 : nat) (P : problem).
Hypothesis HW : wfP nv0 P.
Definition ns : nat := length (p_soft P).
Definition rv (i : nat) : slit := (nv0 + i, false).
Definition allR : list slit := map rv (seq 0 ns).
Definition viol (a : assignment) (i : nat) : bool := match nth_error (p_soft P) i with Some wc => negb (true_in a (snd wc)) | None => false end.
Definition P0 (a : assignment) : Prop := feasible P a /\ forall i, viol a i = true -> a (nv0 + i) = true.
Definition setR (a : assignment) : assignment := fun v => if v <? nv0 then a v else viol a (v - nv0).

Lemma viol_agree : forall a b i, agree nv0 a b -> viol a i = viol b i.
Proof. intros a b i A. unfold viol. destruct (nth_error (p_soft P) i) as [wc|] eqn:E; auto. rewrite (true_in_agree nv0 a b); auto. apply HW. eapply nth_error_In; eauto. Qed.
Lemma viol_lt : forall a i, viol a i = true -> i < ns.
Proof. intros a i H. unfold viol in H. destruct (nth_error (p_soft P) i) eqn:E; [|discriminate]. apply nth_error_Some. congruence. Qed.
Lemma setR_agree : forall a, agree nv0 a (setR a).
Proof. intros a v H. unfold setR. apply Nat.ltb_lt in H. rewrite H. auto. Qed.
Lemma setR_val : forall a i, setR a (nv0 + i) = viol a i.
Proof. intros a i. unfold setR. destruct (Nat.ltb_spec (nv0 + i) nv0); [lia|]. f_equal. lia. Qed.
Lemma setR_P0 : forall a, feasible P a -> P0 (setR a).
Proof. intros a F. split; [eapply feasible_agree; eauto; apply setR_agree|]. intros i V. rewrite setR_val. rewrite (viol_agree a (setR a)); auto. apply setR_agree. Qed.
Lemma P0_local : local (nv0 + ns) P0.
Proof.
  intros a b A [F V]. assert (A0 : agree nv0 a b) by (eapply agree_le; [|exact A]; lia). split; [eapply feasible_agree; eauto|]. intros i Vi. rewrite <- A; [apply V; rewrite (viol_agree a b); auto|]. apply viol_lt in Vi. lia.
Qed.
(** how many of the soft clauses [l] are violated *)
Definition nviol (a : assignment) (l : list nat) : nat := length (filter (viol a) l).
Lemma nviol_agree : forall a b l, agree nv0 a b -> nviol a l = nviol b l.
Proof. intros a b l A. unfold nviol. f_equal. apply filter_ext. intros i. apply viol_agree; auto. Qed.
Lemma count_rv : forall a l, count a (map rv l) = length (filter (fun i => a (nv0 + i)) l).
Proof. intros a l. induction l as [|i r IH]; cbn [map]; auto. rewrite count_cons, IH. cbn. destruct (a (nv0 + i)); auto. Qed.
Lemma P0_count : forall a l, P0 a -> nviol a l <= count a (map rv l).
Proof.
  intros a l [_ V]. rewrite count_rv. unfold nviol. induction l as [|i r IH]; cbn; auto. destruct (viol a i) eqn:E; [rewrite (V i E); cbn; lia|]. destruct (a (nv0 + i)); cbn; lia.
Qed.
Lemma setR_count : forall a l, count (setR a) (map rv l) = nviol a l.
Proof. intros a l. rewrite count_rv. unfold nviol. f_equal. apply filter_ext. intros i. apply setR_val. Qed.
Definition ones : Prop := forall wc, In wc (p_soft P) -> fst wc = 1.
Lemma costs_viol : forall ss a, (forall wc, In wc ss -> fst wc = 1) -> costs ss a = length (filter (fun i => match nth_error ss i with Some wc => negb (true_in a (snd wc)) | None => false end) (seq 0 (length ss))).
Proof.
  induction ss as [|wc r IH]; intros a O; auto. cbn [length seq filter nth_error]. assert (E : costs (wc :: r) a = (if true_in a (snd wc) then 0 else fst wc) + costs r a) by reflexivity. rewrite E, IH by (intros; apply O; right; auto). rewrite (O wc) by (left; auto).
  assert (Q : forall (f g : nat -> bool) l, (forall i, f (S i) = g i) -> length (filter f (map S l)) = length (filter g l)). { intros f g l X. induction l as [|i l IHl]; cbn; auto. rewrite X. destruct (g i); cbn; rewrite IHl; auto. }
  rewrite <- seq_shift. destruct (true_in a (snd wc)); cbn [negb length]; erewrite Q; try reflexivity.
Qed.
Lemma cost_viol : forall a, ones -> cost P a = nviol a (seq 0 ns).
Proof. intros a O. unfold cost. rewrite costs_viol by auto. reflexivity. Qed.
Lemma cost_le : forall a, ones -> cost P a <= ns.
Proof. intros a O. rewrite cost_viol by auto. unfold nviol. rewrite <- (seq_length ns 0) at 2. generalize (seq 0 ns). intros l. induction l as [|i r IH]; cbn; auto. destruct (viol a i); cbn; lia. Qed.
Lemma below_rv : forall l, (forall i, In i l -> i < ns) -> below (nv0 + ns) (map rv l).
Proof. intros l H x I. apply in_map_iff in I as (i & <- & Ii). cbn. specialize (H i Ii). lia. Qed.
Lemma below_allR : below (nv0 + ns) allR.
Proof. apply below_rv. intros i I. apply in_seq in I. lia. Qed.
Lemma objR : map (fun i => (i, false)) (seq nv0 ns) = allR.
Proof. unfold allR, rv. rewrite <- (Nat.add_0_r nv0) at 1. generalize 0. induction ns as [|k IH]; intros o; cbn; auto. rewrite <- IH. replace (nv0 + S o) with (S (nv0 + o)) by lia. auto. Qed.

(** the fields that a search does not change *)
Definition base (asm : bool) (va : list nat) (si : nat) (x : mx) : Prop :=
  nbVars x = nv0 + ns /\ hard x = p_hard P /\ soft x = relaxed asm nv0 (p_soft P) /\ nbInit x = nv0 /\ valid x = va /\ stId x = si.
Lemma base_onlyT : forall asm va si x y t, base asm va si x -> onlyT x y t -> base asm va si y.
Proof. intros asm va si x y t H E. unfold onlyT in E. rewrite E. exact H. Qed.
Lemma base_only : forall asm va si x y, base asm va si x -> only x y -> base asm va si y.
Proof. intros asm va si x y H E. unfold only in E. rewrite E. exact H. Qed.

Lemma rebuild_ok : forall n asm va si mw x, base asm va si x -> (forall wc, In wc (p_soft P) -> mw <= fst wc) ->
  wpM (rebuildSolver n mw) x (fun _ y => On y (nv0 + ns) P0 /\ only x y).
Proof.
  intros n asm va si mw x (B1 & B2 & B3 & _) Hw. unfold rebuildSolver. apply wpM_bind, wpM_do, wpM_bind, wpM_get. cbn [nbVars set_slv]. rewrite B1. apply wpM_bind. set (x0 := set_slv newSolver x).
  assert (H0 : On x0 0 (fun _ => True)). { split; [|intros a b _ _; exact I]. exists []. split; [constructor|]. intros a. split; auto. intros _ c []. }
  eapply wpM_mono; [apply mrep_vars; exact H0|]. cbv beta. intros _ y (_ & H1 & O1). rewrite Nat.add_0_l in H1. apply wpM_bind, wpM_get, wpM_bind. assert (E1 : hard y = p_hard P) by (rewrite O1; exact B2). rewrite E1.
  eapply wpM_mono; [apply (meach_addC n (p_hard P) y _ _ H1)|]. { intros c I. apply (below_le nv0); [lia|apply HW; auto]. }
  cbv beta. intros _ z (H2 & O2). apply wpM_bind, wpM_get. assert (E2 : soft z = relaxed asm nv0 (p_soft P)) by (rewrite O2, O1; exact B3). rewrite E2.
  assert (F : filter (fun c => mw <=? sc_weight c) (relaxed asm nv0 (p_soft P)) = relaxed asm nv0 (p_soft P)).
  { clear - Hw. revert Hw. generalize nv0. induction (p_soft P) as [|wc r IH]; intros k Hw; cbn [relaxed filter sc_weight]; auto. specialize (Hw wc (or_introl eq_refl)) as Q. match goal with |- context [mw <=? ?w] => replace (mw <=? w) with true by (symmetry; apply Nat.leb_le; exact Q) end. rewrite IH; auto. intros; apply Hw; right; auto. }
  rewrite F. rewrite <- (meach_map (fun c => sc_lits c ++ sc_relax c) (addC n)).
  assert (I3 : forall c, In c (map (fun c => sc_lits c ++ sc_relax c) (relaxed asm nv0 (p_soft P))) <-> exists i wc, nth_error (p_soft P) i = Some wc /\ c = snd wc ++ [(nv0 + i, false)]).
  { clear. intros c. generalize nv0. induction (p_soft P) as [|wc r IH]; intros k; cbn [relaxed map In].
    - split; [intros []|]. intros ([|i] & wc & E & _); discriminate.
    - rewrite IH. cbn [sc_lits sc_relax]. split.
      + intros [<-|(i & wc' & E & ->)]; [exists 0, wc; rewrite Nat.add_0_r; auto|]. exists (S i), wc'. replace (k + S i) with (S k + i) by lia. auto.
      + intros ([|i] & wc' & E & ->); cbn in E; [left; inversion E; subst; rewrite Nat.add_0_r; auto|right; exists i, wc'; replace (S k + i) with (k + S i) by lia; auto]. }
  eapply wpM_mono; [apply (meach_addC n _ z _ _ H2)|]. { intros c I. apply I3 in I as (i & wc & E & ->). assert (i < ns) by (apply nth_error_Some; congruence). apply below_app. split; [apply (below_le nv0); [lia|apply HW; eapply nth_error_In; eauto]|]. intros l [<-|[]]. cbn. lia. }
  cbv beta. intros _ w (H3 & O3). split; [|unfold only in *; rewrite O3, O2, O1; reflexivity]. eapply on_iff; [exact H3|]. intros a. cbv beta. unfold P0, feasible, viol. split.
  - intros [[_ X] Y]. split; auto. intros i V. destruct (nth_error (p_soft P) i) as [wc|] eqn:E; [|discriminate]. specialize (Y (snd wc ++ [(nv0 + i, false)]) (proj2 (I3 _) (ex_intro _ i (ex_intro _ wc (conj E eq_refl))))). unfold true_in in *. rewrite existsb_app in Y. apply negb_true_iff in V. rewrite V in Y. cbn in Y. rewrite orb_false_r in Y. exact Y.
  - intros [X V]. split; [split; auto|]. intros c J. apply I3 in J as (i & wc & E & ->). unfold true_in. rewrite existsb_app. specialize (V i). rewrite E in V. unfold true_in in V. destruct (existsb (lit_true a) (snd wc)); auto. cbn. unfold lit_true. cbn. rewrite V; auto.
Qed.

Lemma unsat_in : forall m ls rl w a, unsatIn m None (Soft ls rl w a) = negb (true_in (of_list m) ls).
Proof.
  intros m ls rl w a. unfold unsatIn. cbn [sc_lits]. reflexivity.
Qed.
(** the model of the SAT solver is saved with its cost *)
Lemma costModel_ok : forall asm va si x, base asm va si x -> costModel None x = cost P (of_list (model (slv x))).
Proof.
  intros asm va si x (_ & _ & B & _). unfold costModel, cost, costs. rewrite B. clear B. generalize nv0. induction (p_soft P) as [|wc r IH]; intros k; cbn [relaxed filter map list_sum]; auto.
  destruct wc as [w c]. cbn [fst snd]. rewrite unsat_in. specialize (IH (S k)). destruct (true_in (of_list (model (slv x))) c); cbn [negb map list_sum fold_right sc_weight]; [exact IH|]. f_equal. exact IH.
Qed.
Definition best (x : mx) : Prop := length (mdl x) = nv0 /\ feasible P (of_list (mdl x)) /\ cost P (of_list (mdl x)) = ubCost x.
Lemma save_ok : forall asm va si x nv, base asm va si x -> length (model (slv x)) = nv -> nv0 <= nv -> P0 (of_list (model (slv x))) -> 
  length (firstn (nbInit x) (model (slv x))) = nv0 /\ feasible P (of_list (firstn (nbInit x) (model (slv x)))) /\ cost P (of_list (firstn (nbInit x) (model (slv x)))) = cost P (of_list (model (slv x))).
Proof.
  intros asm va si x nv (_ & _ & _ & B & _) L Ln [F _]. rewrite B. split; [rewrite firstn_length; lia|]. split; [eapply feasible_agree; eauto; apply of_firstn|]. symmetry. apply (cost_agree nv0); auto. apply of_firstn.
Qed.
Lemma best_right : forall x, best x -> (forall a, feasible P a -> ubCost x <= cost P a) -> right nv0 P (Optimum (ubCost x) (mdl x)).
Proof. intros x (B1 & B2 & B3) L. cbn. auto. Qed.
End Problem.
