(** * Backbones on the core solver (C50) *)
From Coq Require Import List Bool Arith Lia ZArith Permutation.
From Verif Require Import SatSpec Sat Backbone SatInv SatProp SatAna SatMin SatSearch SatAttach SatLoop SatFind SatSolve SatAdd SatState SatProps.
Import ListNotations.

(** ** Specification *)
(** variable [v] has the value [b] in all models *)
Definition forced (cs : list constr) (v : nat) (b : bool) : Prop := forall a, models cs a -> a v = b.
(** [vars] are names, [idx] the variables of the solver they stand for, if any *)
Definition bb_correct (cs : list constr) (idx : nat -> option nat) (vars : list nat) (sort : bbSort) (bb : backbone) : Prop :=
  (bb_sat bb = true <-> exists a, models cs a) /\
  (bb_sat bb = true ->
     (forall x, In x (bb_pos bb) <-> sort <> BBNeg /\ In x vars /\ exists v, idx x = Some v /\ forced cs v true) /\
     (forall x, In x (bb_neg bb) <-> sort <> BBPos /\ In x vars /\ exists v, idx x = Some v /\ forced cs v false) /\
     (forall x, In x (bb_opt bb) <-> sort = BBBoth /\ In x vars /\ forall v b, idx x = Some v -> ~ forced cs v b)) /\
  (bb_sat bb = false -> bb_pos bb = [] /\ bb_neg bb = [] /\ bb_opt bb = []).

(** ** Proof *)
Section Inv.
Variables (cm : clauseMin) (nv : nat) (cs : list constr).
Notation M := (models cs).
Definition goodModel (s : sat) : Prop :=
  M (mval s) /\ (forall v, v < nv -> lvl s v = 0 -> forced cs v (mval s v)) /\
  (forall v, v < nv -> lvl s v <> 0 -> isRotatable s (v, negb (mval s v)) = true -> M (flip v (mval s))).
Lemma solve_step : forall s stk hs o n ps, reach cm false s nv cs stk hs -> fair o -> (forall l, In l ps -> fst l < nv) ->
  wp (solveWith o cm n ps) s (fun r s' => reach cm false s' nv cs stk hs /\ answer M nv ps r (model s') (conflict s') /\ (r = Some true -> goodModel s')).
Proof.
  intros s stk hs o n ps R [F1 F2] Hl. pose proof (reach_SI _ _ _ _ _ _ _ R) as [V1 V2 V3 _ _ _ _ _ _ _ _ _].
  assert (Hl' : forall l, In l ps -> fst l < nvars s) by (intros; rewrite V2; auto). pose proof (solveWith_ok o cm M F1 F2 n ps s V1 V3 Hl') as Y.
  unfold wp in *. destruct (solveWith o cm n ps s) as [r s'| |] eqn:E; auto. destruct Y as (_ & _ & _ & A & G). rewrite V2 in A.
  assert (R' : reach cm false s' nv cs stk hs) by exact (reach_solve _ _ _ _ _ _ _ o n ps r s' R Hl F1 F2 E). split; auto. split; auto. intros ->. specialize (G eq_refl). destruct G as [G1 G2].
  pose proof (reach_SI _ _ _ _ _ _ _ R') as [_ V2' _ _ _ _ _ _ _ _ V11 _]. rewrite V2' in G1, G2. split; [apply A|]. split; auto.
Qed.
Definition opt (v : nat) : Prop := forall b, ~ forced cs v b.
Lemma opt_two : forall v a b, M a -> M b -> a v <> b v -> opt v.
Proof. intros v a b Ma Mb N x F. apply N. rewrite (F a Ma), (F b Mb). auto. Qed.
Lemma alit_val : forall a l, alit a l = true <-> a (fst l) = negb (snd l).
Proof. intros a [v b]. unfold alit. cbn. destruct (a v), b; cbn; split; congruence. Qed.
Variable sort : bbSort.
Variable a0 : nat -> bool.
(** the sort does not ask for the phase of the first model *)
Definition left_out (v : nat) : Prop := (sort = BBPos /\ a0 v = false) \/ (sort = BBNeg /\ a0 v = true).
Definition settled (b : bbs) (v : nat) : Prop := b_map b v <> None \/ opt v \/ left_out v.
Record BI (vars : list nat) (b : bbs) : Prop := {
  bi_map : forall v p, b_map b v = Some p -> forced cs v p;
  bi_assm : forall l, In l (b_assm b) -> fst l < nv /\ forced cs (fst l) (negb (snd l));
  bi_cand : forall l, In l (b_cands b) -> fst l < nv /\ alit a0 l = true;
  bi_all : forall v, In v vars -> settled b v \/ exists l, In l (b_cands b) /\ fst l = v }.
Hypothesis Ma0 : M a0.
Lemma bi_add : forall vars b l, BI vars b -> fst l < nv -> forced cs (fst l) (negb (snd l)) -> BI vars (addBackboneLiteral l b).
Proof.
  intros vars b l [B1 B2 B3 B4] Lv F. constructor; cbn [addBackboneLiteral b_cands b_assm b_map]; auto.
  - intros v p E. unfold upd in E. destruct (Nat.eqb_spec v (fst l)); [inversion E; subst; auto|auto].
  - intros x I. apply in_app_iff in I as [I|[<-|[]]]; auto.
  - intros v I. destruct (B4 v I) as [[H|[H|H]]|H]; auto; [left; left|left; right; auto|left; right; auto]. cbn. unfold upd. destruct (v =? fst l); auto. discriminate.
Qed.
Lemma removeLit_in : forall l x ls, In x (removeLit l ls) -> In x ls.
Proof. intros l x. induction ls as [|y r IH]; cbn; auto. destruct (slit_eqb y l); cbn; tauto. Qed.
Lemma removeLit_other : forall l x ls, x <> l -> In x ls -> In x (removeLit l ls).
Proof. intros l x. induction ls as [|y r IH]; cbn; auto. intros N [<-|I]; destruct (slit_eqb y l) eqn:E; cbn; auto. apply slit_eqb_eq in E. congruence. Qed.
Lemma bi_remove : forall vars b l, BI vars b -> settled b (fst l) -> BI vars (removeCand l b).
Proof.
  intros vars b l [B1 B2 B3 B4] S. constructor; cbn [removeCand b_cands b_assm b_map]; auto.
  - intros x I. apply removeLit_in in I. auto.
  - intros v I. destruct (Nat.eq_dec v (fst l)) as [->|N]; [left; exact S|]. destruct (B4 v I) as [H|(x & Ix & Ex)]; [left; exact H|]. right. exists x. split; auto. apply removeLit_other; auto. congruence.
Qed.
Lemma bi_refine1 : forall s vars b l, goodModel s -> BI vars b -> fst l < nv -> alit a0 l = true -> BI vars (refineOne s b l).
Proof.
  intros s vars b l (G1 & G2 & G3) B Lv T. apply alit_val in T. unfold refineOne, isUpZeroLit. destruct (Nat.eqb_spec (lvl s (fst l)) 0) as [L0|L0].
  - assert (F : forced cs (fst l) (negb (snd l))). { rewrite <- T. rewrite (G2 _ Lv L0 a0 Ma0). apply G2; auto. }
    assert (E : addBackboneLiteral l (removeCand l b) = removeCand l (addBackboneLiteral l b)) by reflexivity. rewrite E. apply bi_remove; [apply bi_add; auto|]. left. cbn. unfold upd. rewrite Nat.eqb_refl. discriminate.
  - destruct (Bool.eqb (mval s (fst l)) (snd l)) eqn:E.
    + apply eqb_prop in E. apply bi_remove; auto. right; left. apply (opt_two (fst l) a0 (mval s)); auto. rewrite T, E. destruct (snd l); discriminate.
    + destruct (isRotatable s l) eqn:R; auto. assert (Em : mval s (fst l) = negb (snd l)) by (destruct (mval s (fst l)), (snd l); cbn in *; congruence).
      apply bi_remove; auto. right; left. apply (opt_two (fst l) (flip (fst l) (mval s)) (mval s)); auto.
      * apply G3; auto. rewrite Em, negb_involutive. destruct l; auto.
      * unfold flip. rewrite Nat.eqb_refl. destruct (mval s (fst l)); discriminate.
Qed.
Lemma bi_refine : forall s vars b, goodModel s -> BI vars b -> BI vars (refineUpperBound s b).
Proof.
  intros s vars b G B. unfold refineUpperBound. assert (H : forall ls b, BI vars b -> (forall l, In l ls -> fst l < nv /\ alit a0 l = true) -> BI vars (fold_left (refineOne s) ls b)).
  { induction ls as [|l r IH]; intros b' B' Hl; cbn [fold_left]; auto. apply IH; [|intros; apply Hl; right; auto]. destruct (Hl l (or_introl eq_refl)). apply bi_refine1; auto. }
  apply H; auto. apply (bi_cand _ _ B).
Qed.
Lemma bi_pop : forall vars b l r, BI vars b -> rev (b_cands b) = l :: r -> fst l < nv /\ alit a0 l = true /\ forall b', b_cands b' = rev r -> b_assm b' = b_assm b -> b_map b' = b_map b -> settled b' (fst l) -> BI vars b'.
Proof.
  intros vars b l r [B1 B2 B3 B4] E. assert (Ec : b_cands b = rev r ++ [l]) by (rewrite <- (rev_involutive (b_cands b)), E; auto). assert (Il : In l (b_cands b)) by (rewrite Ec; apply in_or_app; right; left; auto).
  destruct (B3 l Il). split; auto. split; auto. intros b' E1 E2 E3 S. constructor; rewrite ?E1, ?E2, ?E3; auto.
  - intros x I. apply B3. rewrite Ec. apply in_or_app; auto.
  - intros v I. destruct (B4 v I) as [[H1|[H1|H1]]|(x & Ix & Ex)]; [left; left; congruence|left; right; auto|left; right; auto|]. rewrite Ec in Ix. apply in_app_iff in Ix as [Ix|[<-|[]]]; [right; exists x; auto|left; congruence].
Qed.
Lemma bbLoop_ok : forall o n stk hs vars k b s, fair o -> reach cm false s nv cs stk hs -> BI vars b ->
  wp (bbLoop o cm n k b) s (fun r s' => reach cm false s' nv cs stk hs /\ forall b', r = Some b' -> BI vars b' /\ b_cands b' = []).
Proof.
  intros o n stk hs vars. induction k as [|k IH]; intros b s Fo R B; cbn [bbLoop].
  - destruct (rev (b_cands b)) as [|l r] eqn:E; [|exact I]. apply wp_ret. split; auto. intros b' X. inversion X; subst. split; auto. rewrite <- (rev_involutive (b_cands b')), E. auto.
  - destruct (rev (b_cands b)) as [|l r] eqn:E; [apply wp_ret; split; auto; intros b' X; inversion X; subst; split; auto; rewrite <- (rev_involutive (b_cands b')), E; auto|].
    destruct (bi_pop vars b l r B E) as (Ll & Tl & Pop). apply wp_bind. eapply wp_mono; [apply (solve_step s stk hs o n _ R Fo)|].
    + intros x Ix. cbn in Ix. apply in_app_iff in Ix as [Ix|[<-|[]]]; [apply (bi_assm _ _ B); auto|exact Ll].
    + cbv beta. intros x s1 (R1 & A1 & G1). set (b1 := Bbs (rev r) (b_assm b) (b_map b)). destruct x as [[]|]; [| |apply wp_ret; split; auto; discriminate].
      * specialize (G1 eq_refl). unfold wp. match goal with |- match bbLoop ?o1 ?c1 ?n1 ?k1 ?b2 s1 with _ => _ end => change (wp (bbLoop o1 c1 n1 k1 b2) s1 (fun r s' => reach cm false s' nv cs stk hs /\ forall b', r = Some b' -> BI vars b' /\ b_cands b' = [])) end.
        apply IH; auto. apply bi_refine; auto. apply Pop; auto. right; left. cbn in A1. destruct A1 as (_ & Mm & Ha). apply (opt_two (fst l) a0 (fun v => nth v (model s1) false)); auto.
        specialize (Ha (neg l) ltac:(apply in_or_app; right; left; auto)). apply alit_val in Ha, Tl. cbn in Ha. rewrite Ha, Tl. destruct (snd l); discriminate.
      * apply IH; auto. cbn in A1. destruct A1 as [H1 H2].
        assert (F : forced cs (fst l) (negb (snd l))). { intros a Ma. destruct (proj1 H2 a Ma) as (q & Iq & Tq). apply H1 in Iq. apply in_app_iff in Iq as [Iq|[Iq|[]]].
          - destruct (bi_assm _ _ B _ Iq) as [_ X]. specialize (X a Ma). apply alit_val in Tq. cbn in X. rewrite Tq in X. destruct (snd q); discriminate.
          - apply alit_val in Tq. assert (q = l) by (rewrite <- (neg_neg q), <- Iq, neg_neg; auto). subst q. auto. }
        assert (Ba : BI vars (Bbs (rev r) (b_assm b ++ [l]) (upd (b_map b) (fst l) (Some (negb (snd l)))))); [|exact Ba].
        pose proof (bi_add vars b l B Ll F) as B2. destruct (bi_pop vars (addBackboneLiteral l b) l r B2 E) as (_ & _ & Pop2). apply Pop2; auto. left. cbn. unfold upd. rewrite Nat.eqb_refl. discriminate.
Qed.
End Inv.

Lemma bi_init : forall nv cs sort s vars, goodModel nv cs s -> (forall v, In v vars -> v < nv) -> BI nv cs sort (mval s) vars (createInitialCandidates vars sort s (Bbs [] [] (fun _ => None))).
Proof.
  intros nv cs sort s vars (G1 & G2 & G3) Hv. unfold createInitialCandidates.
  assert (H : forall todo done b, BI nv cs sort (mval s) done b -> (forall v, In v todo -> v < nv) -> BI nv cs sort (mval s) (done ++ todo) (fold_left (initialCandidate sort s) todo b)).
  { induction todo as [|v r IH]; intros done b B Hr; cbn [fold_left]; [rewrite app_nil_r; auto|]. replace (done ++ v :: r) with ((done ++ [v]) ++ r) by (rewrite <- app_assoc; auto). apply IH; [|intros; apply Hr; right; auto]. assert (Lv : v < nv) by (apply Hr; left; auto).
    assert (Add : forall b', BI nv cs sort (mval s) done b' -> (settled cs sort (mval s) b' v \/ exists l, In l (b_cands b') /\ fst l = v) -> BI nv cs sort (mval s) (done ++ [v]) b').
    { intros b' [B1 B2 B3 B4] S. constructor; auto. intros w I. apply in_app_iff in I as [I|[<-|[]]]; auto. }
    unfold initialCandidate, isUpZeroLit. destruct (Nat.eqb_spec (lvl s v) 0) as [L0|L0].
    - apply Add; [apply bi_add; auto; cbn; rewrite negb_involutive; apply G2; auto|]. left; left. cbn. unfold upd. rewrite Nat.eqb_refl. discriminate.
    - destruct ((isBothOrNegative sort && negb (mval s v)) || (isBothOrPositive sort && mval s v)) eqn:E.
      + destruct (isRotatable s (v, negb (mval s v))) eqn:R.
        * apply Add; auto. left; right; left. apply (opt_two cs v (flip v (mval s)) (mval s)); auto. unfold flip. rewrite Nat.eqb_refl. destruct (mval s v); discriminate.
        * apply Add; [|right; exists (v, negb (mval s v)); split; auto; cbn; apply in_or_app; right; left; auto]. destruct B as [B1 B2 B3 B4]. constructor; cbn; auto.
          -- intros l I. apply in_app_iff in I as [I|[<-|[]]]; auto. split; auto. apply alit_val. cbn. rewrite negb_involutive. auto.
          -- intros w I. destruct (B4 w I) as [X|(l & Il & El)]; [left; exact X|right; exists l; split; auto; apply in_or_app; auto].
      + apply Add; auto. left; right; right. unfold left_out. destruct sort, (mval s v); cbn in E; try discriminate; auto. }
  apply (H vars [] (Bbs [] [] (fun _ => None))); auto. constructor; cbn; try (intros; contradiction). discriminate.
Qed.

Lemma solve_empty : forall cm nv cs s stk hs o n, reach cm false s nv cs stk hs -> fair o ->
  wp (solve o cm n) s (fun r s' => reach cm false s' nv cs stk hs /\ answer (models cs) nv [] r (model s') (conflict s') /\ (r = Some true -> goodModel nv cs s')).
Proof.
  intros cm nv cs s stk hs o n R Fo. pose proof (reach_SI _ _ _ _ _ _ _ R) as [V1 V2 V3 _ _ _ _ _ _ _ _ V12].
  pose proof (solve_step cm nv cs s stk hs o n [] R Fo ltac:(intros l [])) as W.
  destruct Fo as [F1 F2]. pose proof (solve_ok o cm (models cs) F1 F2 n s V1 V3 ltac:(intros l Il; rewrite V12 in Il; destruct Il)) as Y.
  unfold wp, solveWith, bind, modify in *. assert (E : with_assumps [] s = s) by (destruct s; cbn in V12; subst; reflexivity). cbv beta iota in W.
  rewrite (E : with_assumps (@nil (nat * bool)) s = s) in W.
  destruct (solve o cm n s) as [r s'| |] eqn:Es; auto. destruct Y as (_ & F & _). pose proof (fr_same _ _ F) as Sm. assert (As : assumps s' = []) by (inversion Sm; congruence). assert (E' : with_assumps [] s' = s') by (clear - As; destruct s'; cbn in *; subst; reflexivity). cbv beta iota in W. rewrite (E' : with_assumps (@nil slit) s' = s') in W. exact W.
Qed.
Lemma relevant_in : forall idx vars v, In v (relevant idx vars) <-> exists x, In x vars /\ idx x = Some v.
Proof.
  intros. unfold relevant. rewrite in_flat_map. split; intros (x & Ix & E); exists x; split; auto.
  - destruct (idx x); [destruct E as [<-|[]]; auto|destruct E].
  - rewrite E. left; auto.
Qed.
Lemma build_correct : forall nv cs sort a0 idx vars b, BI nv cs sort a0 (relevant idx vars) b -> b_cands b = [] -> models cs a0 -> bb_correct cs idx vars sort (buildBackbone idx vars sort b).
Proof.
  intros nv cs sort a0 idx vars b [B1 B2 B3 B4] Ec Ma. rewrite Ec in B4.
  assert (St : forall x v, In x vars -> idx x = Some v -> settled cs sort a0 b v). { intros x v Ix E. destruct (B4 v) as [H|(l & [] & _)]; auto. apply relevant_in. eauto. }
  assert (Ph : forall x v (p : bool), sort <> (if p then BBNeg else BBPos) -> In x vars -> idx x = Some v -> forced cs v p -> phase idx b x = Some p).
  { intros x v p Hs Ix E F. unfold phase. rewrite E. destruct (St x v Ix E) as [H|[H|H]].
    - destruct (b_map b v) as [q|] eqn:Eq; [|congruence]. rewrite <- (B1 _ _ Eq a0 Ma), (F a0 Ma). auto.
    - exfalso. exact (H p F).
    - exfalso. specialize (F a0 Ma). destruct H as [[-> H]|[-> H]]; rewrite H in F; subst p; auto. }
  assert (Fo : forall x p, phase idx b x = Some p -> exists v, idx x = Some v /\ forced cs v p). { intros x p E. unfold phase in E. destruct (idx x) as [v|]; [|discriminate]. exists v. auto. }
  unfold bb_correct, buildBackbone. cbn [bb_sat bb_pos bb_neg bb_opt]. split; [split; [intros _; exists a0; auto|auto]|]. split; [intros _|discriminate]. split; [|split]; intros x.
  - split.
    + intros I. destruct sort; cbn in I; try contradiction; apply filter_In in I as [I E]; destruct (phase idx b x) as [[]|] eqn:Ep; try discriminate; (split; [discriminate|]; split; [exact I|apply Fo; exact Ep]).
    + intros (Ns & I & v & E & F). pose proof (Ph x v true Ns I E F) as Ep. destruct sort; cbn; try congruence; apply filter_In; rewrite Ep; auto.
  - split.
    + intros I. destruct sort; cbn in I; try contradiction; apply filter_In in I as [I E]; destruct (phase idx b x) as [[]|] eqn:Ep; try discriminate; (split; [discriminate|]; split; [exact I|apply Fo; exact Ep]).
    + intros (Ns & I & v & E & F). pose proof (Ph x v false Ns I E F) as Ep. destruct sort; cbn; try congruence; apply filter_In; rewrite Ep; auto.
  - split.
    + intros I. destruct sort; cbn in I; try contradiction. apply filter_In in I as [I E]. split; auto. split; auto. intros v p Ev F. rewrite (Ph x v p) in E; auto; [discriminate|destruct p; discriminate].
    + intros (-> & I & No). cbn. apply filter_In. split; auto. destruct (phase idx b x) as [p|] eqn:Ep; auto. destruct (Fo _ _ Ep) as (v & E & F). exfalso. exact (No v p E F).
Qed.
Lemma computeBackbone_ok : forall cm nv cs s stk hs o n idx vars sort, reach cm false s nv cs stk hs -> fair o -> (forall x v, idx x = Some v -> v < nv) ->
  wp (computeBackbone o cm n idx vars sort) s (fun r s' => (exists stk' hs', reach cm false s' nv cs stk' hs') /\ forall bb, r = Some bb -> bb_correct cs idx vars sort bb).
Proof.
  intros cm nv cs s stk hs o n idx vars sort R Fo Hi. unfold computeBackbone. apply wp_bind. unfold resume, wp at 1. assert (R0 : reach cm false (with_ev (S (ev s)) s) nv cs stk hs) by (apply reach_event; auto). destruct (o_hdl o (ev s)); cbn [negb]; [|apply wp_ret; split; [eauto|discriminate]].
  apply wp_bind. unfold wp at 1. destruct (saveState (with_ev (S (ev s)) s)) as [x s1| |] eqn:Es; [|discriminate Es|discriminate Es]. pose proof (reach_save _ _ _ _ _ _ _ _ _ R0 Es) as R1.
  apply wp_bind. eapply wp_mono; [apply (solve_empty cm nv cs s1 _ _ o n R1 Fo)|]. cbv beta. intros r s2 (R2 & A & G).
  assert (Fin : forall (m : S_ (option backbone)), wp m s2 (fun r s' => reach cm false s' nv cs ((x, (nv, cs)) :: stk) (x :: hs) /\ forall bb, r = Some bb -> bb_correct cs idx vars sort bb) ->
    wp (bb <-- m ;; b0 <-- loadState n x ;; (if b0 then ret bb else panic)) s2 (fun r s' => (exists stk' hs', reach cm false s' nv cs stk' hs') /\ forall bb, r = Some bb -> bb_correct cs idx vars sort bb)).
  { intros m W. apply wp_bind. eapply wp_mono; [exact W|]. cbv beta. intros bb s3 (R3 & C). apply wp_bind. pose proof (load_step cm false s3 nv cs nv cs [] stk (x :: hs) x n (reach_SI _ _ _ _ _ _ _ R3)) as L.
    unfold wp in L |- * at 1. destruct (loadState n x s3) as [b s4| |] eqn:El; [|exact L|exact L]. destruct L as [-> _]. apply wp_ret. split; [|exact C]. do 2 eexists. exact (reach_load cm false s3 nv cs nv cs [] stk (x :: hs) x n s4 R3 El). }
  apply Fin. destruct r as [[]|].
  - specialize (G eq_refl). apply wp_bind. unfold computeInternal, wp at 1.
    pose proof (bi_init nv cs sort s2 (relevant idx vars) G) as B. assert (B' := B ltac:(intros v I; apply relevant_in in I as (y & _ & E); eauto)). clear B. set (b := createInitialCandidates _ _ _ _) in *.
    pose proof (bbLoop_ok cm nv cs sort (mval s2) (proj1 G) o n _ _ (relevant idx vars) (length (b_cands b)) b s2 Fo R2 B') as W. unfold wp in W. destruct (bbLoop o cm n (length (b_cands b)) b s2) as [ob s3| |]; auto. destruct W as [R3 W]. apply wp_ret. split; auto.
    intros bb E. destruct ob as [b'|]; inversion E; subst. destruct (W b' eq_refl) as [Bf Ec]. eapply build_correct; eauto. apply G.
  - apply wp_ret. split; auto. intros bb E. inversion E; subst. unfold bb_correct; cbn. split; [|split; [discriminate|auto]]. split; [discriminate|]. intros (a & Ma). destruct A as [A1 A2]. destruct (proj1 A2 a Ma) as (q & Iq & _). apply A1 in Iq. destruct Iq.
  - apply wp_ret. split; auto. discriminate.
Qed.

(** ** C50 *)
(** the result is the backbone, for all constraints, variables and sorts; names the solver does not know are optional. [relevant] may
    hold a variable only once if the code is not to fail in the computation of block distances, which is not modelled. *)
Theorem C50_backbone : forall cm s nv cs stk hs o n idx vars sort bb s', reach cm false s nv cs stk hs -> fair o -> (forall x v, idx x = Some v -> v < nv) ->
  computeBackbone o cm n idx vars sort s = Ret (Some bb) s' -> bb_correct cs idx vars sort bb.
Proof. intros cm s nv cs stk hs o n idx vars sort bb s' R Fo Hi E. destruct (wp_ret_of _ _ _ _ _ (computeBackbone_ok cm nv cs s stk hs o n idx vars sort R Fo Hi) E) as [_ H]. auto. Qed.
(** it never fails, and, cancelled or not, leaves a solver with the same variables and constraints *)
Theorem C50_solver_unchanged : forall cm s nv cs stk hs o n idx vars sort, reach cm false s nv cs stk hs -> fair o -> (forall x v, idx x = Some v -> v < nv) ->
  computeBackbone o cm n idx vars sort s <> Panic /\
  forall r s', computeBackbone o cm n idx vars sort s = Ret r s' ->
    forall o' m ps q s2, (forall l, In l ps -> fst l < nv) -> fair o' -> solveWith o' cm m ps s' = Ret (Some q) s2 -> (q = true <-> exists a, models cs a /\ all_true a ps).
Proof.
  intros cm s nv cs stk hs o n idx vars sort R Fo Hi. pose proof (computeBackbone_ok cm nv cs s stk hs o n idx vars sort R Fo Hi) as W. unfold wp in W. split.
  - intros E. rewrite E in W. exact W.
  - intros r s' E. rewrite E in W. destruct W as [(stk' & hs' & R') _]. intros. eapply C37_decides; eauto.
Qed.
(** the formula of a backbone ([completeBackbone] lists its literals, the sort asks for both phases) holds in every model *)
Theorem C50_implied : forall cm s nv cs stk hs o n idx vars sort bb s', reach cm false s nv cs stk hs -> fair o -> (forall x v, idx x = Some v -> v < nv) ->
  computeBackbone o cm n idx vars sort s = Ret (Some bb) s' -> forall x neg, In (x, neg) (completeBackbone bb) -> exists v, idx x = Some v /\ forall a, models cs a -> lit_true a (v, neg) = true.
Proof.
  intros cm s nv cs stk hs o n idx vars sort bb s' R Fo Hi E x ng I. destruct (C50_backbone cm s nv cs stk hs o n idx vars sort bb s' R Fo Hi E) as (_ & H & _). unfold completeBackbone in I. destruct (bb_sat bb); [|destruct I]. destruct (H eq_refl) as (Hp & Hn & _).
  apply in_app_iff in I as [I|I]; apply in_map_iff in I as (y & Ey & Iy); inversion Ey; subst.
  - apply Hp in Iy as (_ & _ & v & Ev & F). exists v. split; [exact Ev|]. intros a Ma. unfold lit_true; cbn; rewrite (F a Ma); auto.
  - apply Hn in Iy as (_ & _ & v & Ev & F). exists v. split; [exact Ev|]. intros a Ma. unfold lit_true; cbn; rewrite (F a Ma); auto.
Qed.

(** ** An instance *)
Definition bbOps : list op := [OVar false; OVar false; OVar false; OVar false; OAdd (SomeOf [(0, false); (1, false)]); OAdd (SomeOf [(0, true); (1, false)]); OAdd (AtMostOf [(1, false); (2, false); (3, false)] 1)].
(** the names 10, ..., 13 are known *)
Definition bbIdx (x : nat) : option nat := if (10 <=? x) && (x <? 14) then Some (x - 10) else None.
Example C50_instance : exists s s1 s2 s3, reach MinDeep false s 4 (addedCs bbOps []) [] [] /\ fair (fairO 3) /\ (forall x v, bbIdx x = Some v -> v < 4) /\
  computeBackbone (fairO 3) MinDeep 30 bbIdx [10; 11; 12; 13; 14] BBBoth s = Ret (Some (BB true [11] [12; 13] [10; 14])) s1 /\
  computeBackbone (fairO 3) MinDeep 30 bbIdx [13; 11] BBPos s1 = Ret (Some (BB true [11] [] [])) s2 /\
  computeBackbone (fairO 3) MinDeep 30 bbIdx [13; 11] BBNeg s2 = Ret (Some (BB true [] [13] [])) s3.
Proof.
  assert (C : match build bbOps newSolver 0 with
    | Some (s, nv) => match computeBackbone (fairO 3) MinDeep 30 bbIdx [10; 11; 12; 13; 14] BBBoth s with
      | Ret (Some b1) s1 => match computeBackbone (fairO 3) MinDeep 30 bbIdx [13; 11] BBPos s1 with
        | Ret (Some b2) s2 => match computeBackbone (fairO 3) MinDeep 30 bbIdx [13; 11] BBNeg s2 with Ret (Some b3) s3 => Some (nv, b1, b2, b3) | _ => None end
        | _ => None end
      | _ => None end
    | None => None end = Some (4, BB true [11] [12; 13] [10; 14], BB true [11] [] [], BB true [] [13] [])) by (vm_compute; reflexivity).
  destruct (build bbOps newSolver 0) as [[s nv]|] eqn:B; [|discriminate C]. destruct (computeBackbone (fairO 3) MinDeep 30 bbIdx [10; 11; 12; 13; 14] BBBoth s) as [[b1|] s1| |] eqn:E1; try discriminate C.
  destruct (computeBackbone (fairO 3) MinDeep 30 bbIdx [13; 11] BBPos s1) as [[b2|] s2| |] eqn:E2; try discriminate C. destruct (computeBackbone (fairO 3) MinDeep 30 bbIdx [13; 11] BBNeg s2) as [[b3|] s3| |] eqn:E3; try discriminate C.
  injection C as -> -> -> ->. exists s, s1, s2, s3. split.
  - eapply (build_reach MinDeep false bbOps); [discriminate| |apply reach_new|exact B]. intros _ ls k I. cbn in I. repeat (destruct I as [I|I]; [try discriminate I; inversion I; subst; cbn; intros l [<-|[<-|[<-|[]]]]; reflexivity|]). destruct I.
  - split; [apply fairO_fair|]. split; [|auto]. intros x v E. unfold bbIdx in E. destruct (Nat.leb_spec 10 x), (Nat.ltb_spec x 14); cbn [andb] in E; inversion E; lia.
Qed.
(** ** Where the code is wrong *)
(** With negated literals in an at-most constraint of the core solver the result can be wrong: isUnit (backbone.go 310-334) looks at the
    variables of the constraint, not at its literals. The constraints built by Solver.Add have no negated literals. *)
Definition negOps : list op := [OVar false; OVar false; OVar false; OVar false; OAdd (AtMostOf [(0, true); (1, true); (2, true); (3, true)] 2); OAdd (SomeOf [(1, true); (2, true)]); OAdd (SomeOf [(1, true); (3, true)]); OAdd (SomeOf [(2, true); (3, true)])].

Definition pickO (f : nat -> nat) : oracle := Oracle f (fun _ b => b) (fun i => false) (fun i => false) (fun _ l => l) (fun i => false) (fun i => false) (fun _ => true) (fun _ => true).
Definition negO : oracle := pickO (fun _ => 3).
Theorem C50_negated_at_most_refuted : exists s s' bb, reach MinDeep true s 4 (addedCs negOps []) [] [] /\ fair negO /\
  computeBackbone negO MinDeep 30 (fun x => Some x) [0; 1; 2; 3] BBBoth s = Ret (Some bb) s' /\ bb_opt bb = [0; 1; 2; 3] /\ forced (addedCs negOps []) 0 true.
Proof.
  assert (C : match build negOps newSolver 0 with Some (s, nv) => match computeBackbone negO MinDeep 30 (fun x => Some x) [0; 1; 2; 3] BBBoth s with Ret (Some b) _ => Some (nv, b) | _ => None end | None => None end = Some (4, BB true [] [] [0; 1; 2; 3])) by (vm_compute; reflexivity).
  destruct (build negOps newSolver 0) as [[s nv]|] eqn:B; [|discriminate C]. destruct (computeBackbone negO MinDeep 30 (fun x => Some x) [0; 1; 2; 3] BBBoth s) as [[bb|] s1| |] eqn:E1; try discriminate C.
  injection C as -> ->. exists s, s1, (BB true [] [] [0; 1; 2; 3]). split; [eapply (build_reach MinDeep true negOps); [discriminate|discriminate|apply reach_new|exact B]|]. split; [split; [intros; apply Permutation_refl|reflexivity]|]. split; auto. split; auto.
  clear. intros a Ma. assert (H1 := Ma (AtMostOf [(0, true); (1, true); (2, true); (3, true)] 2) ltac:(cbn; tauto)). assert (H2 := Ma (SomeOf [(1, true); (2, true)]) ltac:(cbn; tauto)). assert (H3 := Ma (SomeOf [(1, true); (3, true)]) ltac:(cbn; tauto)). assert (H4 := Ma (SomeOf [(2, true); (3, true)]) ltac:(cbn; tauto)).
  cbn [holds] in *. apply existsb_exists in H2, H3, H4. unfold lit_true in *. cbn in H1, H2, H3, H4. destruct (a 0), (a 1), (a 2), (a 3); cbn in *; auto; try discriminate; lia.
Qed.

Print Assumptions C50_backbone.
Print Assumptions C50_solver_unchanged.
Print Assumptions C50_implied.
Print Assumptions C50_negated_at_most_refuted.
