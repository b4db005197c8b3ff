(** * MaxSAT: the search of LinearSU for BMO problems (Boolean multilevel optimization) *)
From Coq Require Import List Bool Arith Lia Permutation Sorted.
From Verif Require Import SatSpec Sat SatProps MaxSpec MaxSat MaxBase MaxTot MaxAlg MaxLoop.
Import ListNotations.

(** ** A bound that is encoded once and then lowered *)
Section Bound.
Variable n : nat.
Record bnd (x : mx) (nv : nat) (Q R : assignment -> Prop) (nr : nat) (T : tree) (ls : list slit) (m : nat) : Prop := {
  bd_inc : t_inc (tot_ x) = IncNone; bd_le : nr <= nv; bd_on : On x nv Q; bd_wf : wf T; bd_under : under nv T; bd_local : local nr R; bd_below : below nr ls;
  bd_R : forall a, Q a -> R a; bd_count : forall a, Q a -> count a ls < m; bd_Q : forall a, R a -> canon a T -> count a ls < m -> Q a;
  bd_ext : forall a, exists a', agree nr a a' /\ canon a' T;
  bd_has : t_has (tot_ x) = true -> t_outs (tot_ x) = outs T /\ Permutation ls (leaves T) /\ forall a, Q a -> forall c, In c (cells T) -> cellOk m a c;
  bd_no : t_has (tot_ x) = false -> m = 1 }.
Lemma bnd_ext : forall x nv Q R nr T ls m a, bnd x nv Q R nr T ls m -> R a -> count a ls < m -> exists a', agree nr a a' /\ Q a'.
Proof. intros x nv Q R nr T ls m a [] Ra C. destruct (bd_ext0 a) as (a' & A & Ca). exists a'. split; auto. apply bd_Q0; auto; [eapply bd_local0; eauto|]. rewrite <- (count_agree nr a a'); auto. Qed.
Lemma bnd_same : forall x y nv Q R nr T ls m, bnd x nv Q R nr T ls m -> tot_ y = tot_ x -> On y nv Q -> bnd y nv Q R nr T ls m.
Proof. intros x y nv Q R nr T ls m [] E H. constructor; rewrite ?E; auto. Qed.
Lemma wpM_and : forall {A} (m : M A) x (Q R : A -> mx -> Prop), wpM m x Q -> wpM m x R -> wpM m x (fun a y => Q a y /\ R a y).
Proof. intros A m x Q R H1 H2. unfold wpM in *. destruct (m x); auto. Qed.
Lemma encode_has : forall ls rhs x nv P, On x nv P -> below nv ls -> t_inc (tot_ x) = IncNone ->
  wpM (encodeCardinality n ls rhs) x (fun _ y => t_has (tot_ y) = false -> rhs = 0 \/ rhs = length ls).
Proof.
  intros ls rhs x nv P H B Hi. unfold encodeCardinality. apply wpM_bind. eapply wpM_mono; [apply build_ok; eauto|]. cbv beta. intros _ y [(-> & H1 & O1)|[(Hr & Ee & ->)|(Hr & Ee & T & nv' & W & Pm & Ln & U & H1 & O1 & E1)]].
  - apply wpM_bind, wpM_getT. rewrite (onlyT_tot _ _ _ O1). cbn [t0 t_has t_set_has]. apply wpM_ret. auto.
  - apply wpM_bind, wpM_getT. cbn [t0 t_has t_set_has tot_ set_tot_]. apply wpM_ret. intros _. right. apply andb_prop in Ee as [Ee _]. apply Nat.eqb_eq in Ee. exact Ee.
  - set (t := addCells (cells T) (Tot (t_cells (tot_ x)) (outs T) [] (t_inc (tot_ x)) rhs true true)) in *. assert (F : t_has t = true /\ t_inc t = IncNone /\ t_outs t = outs T) by (unfold t, addCells; cbn [t_inc]; rewrite Hi; auto). destruct F as (F1 & F2 & F3).
    apply wpM_bind, wpM_getT. rewrite (onlyT_tot _ _ _ O1), F1. apply wpM_bind. unfold updateWith. apply wpM_bind, wpM_getT. rewrite (onlyT_tot _ _ _ O1), F2.
    apply wpM_bind, wpM_getT. rewrite (onlyT_tot _ _ _ O1), F3.
    apply wpM_bind. eapply wpM_mono; [apply (meach_neg n (fun l => l) (skipn rhs (outs T)) y nv' _ H1)|]. { rewrite map_id. intros l J. apply (under_outs nv' T U). rewrite <- (firstn_skipn rhs (outs T)). apply in_or_app; auto. }
    cbv beta. intros _ z (H2 & O2). apply wpM_ret, wpM_ret. rewrite (only_tot _ _ O2), (onlyT_tot _ _ _ O1), F1. discriminate.
Qed.
Lemma first_bound : forall ls c x nv R, On x nv R -> below nv ls -> t_inc (tot_ x) = IncNone -> 0 < c <= length ls ->
  wpM (encodeCardinality n ls (c - 1)) x (fun _ y => exists t nv' Q T, onlyT x y t /\ bnd y nv' Q R nv T ls c).
Proof.
  intros ls c x nv R H B Hi Hc. eapply wpM_mono; [apply wpM_and; [apply (encode_ok n ls (c - 1) x nv R); auto|eapply (encode_has ls (c - 1)); eauto]|]. cbv beta.
  intros _ y ((t & T & nv' & Q & O1 & T1 & Ln & H1 & W & U & Q1 & Q2 & Q3 & Q4 & Q5) & Hh). pose proof (onlyT_tot _ _ _ O1) as Ty. exists t, nv', Q, T. split; auto. constructor; rewrite ?Ty in *; auto; try (intros; apply Q1; auto).
  - destruct H; auto.
  - intros a X. apply Q1 in X as [_ X]. lia.
  - intros a X Ca C. apply Q2; auto; lia.
  - intros E. destruct (Q4 E) as (X1 & X2 & X3). split; auto. split; auto. replace c with (c - 1 + 1) by lia. auto.
  - intros E. destruct (Hh E); lia.
Qed.
Lemma next_bound : forall x nv Q R nr T ls m c, bnd x nv Q R nr T ls m -> 0 < c < m ->
  wpM (updateCardinality n (c - 1)) x (fun _ y => exists t Q', onlyT x y t /\ bnd y nv Q' R nr T ls c).
Proof.
  intros x nv Q R nr T ls m c [S1 S2 S3 S4 S5 S6 S7 S8 S9 S10 S11 S12 S13] Hc. destruct (t_has (tot_ x)) eqn:Eh; [|specialize (S13 eq_refl); lia]. destruct (S12 eq_refl) as (B4 & B5 & B6).
  unfold updateCardinality, updateWith. apply wpM_bind, wpM_bind, wpM_getT. rewrite S1. apply wpM_bind, wpM_getT. rewrite B4. apply wpM_bind.
  eapply wpM_mono; [apply (meach_neg n (fun l => l) (skipn (c - 1) (outs T)) x nv Q S3)|]. { rewrite map_id. intros l J. apply (under_outs nv T S5). rewrite <- (firstn_skipn (c - 1) (outs T)). apply in_or_app; auto. }
  cbv beta. intros _ y (Hy & Oy). apply wpM_ret, wpM_ret. pose proof (only_tot _ _ Oy) as Ty. exists (tot_ x), (fun a => Q a /\ forall l, In l (skipn (c - 1) (outs T)) -> lit_true a l = false). split; [apply only_T; auto|]. constructor; rewrite ?Ty; auto.
  - intros a [X _]; auto.
  - intros a [X Y]. rewrite (count_perm a _ _ B5). assert (count a (leaves T) <= c - 1); [|lia]. apply (assume_sound a T _ S4).
    + intros ce Ic. apply (cellOk_le _ m); [lia|]. auto.
    + intros p J. apply in_map_iff in J as (l & <- & J). rewrite lit_neg, Y; auto.
  - intros a X Ca C. split; [apply S10; auto; lia|]. intros l J. rewrite (count_perm a _ _ B5) in C. pose proof (assume_canon a T (c - 1) S4 Ca ltac:(lia) (neg l) (in_map neg _ _ J)) as Z. rewrite lit_neg in Z. destruct (lit_true a l); auto.
  - intros _. split; auto. split; auto. intros a [X _] ce Ic. apply (cellOk_le _ m); [lia|auto].
  - congruence.
Qed.
End Bound.

(** ** Sums over the soft clauses by weight *)
Section Levels.
Variables (nv0 : nat) (P : problem).
Hypothesis HW : wfP nv0 P.
Definition wtS (ss : list (nat * list (nat * bool))) (i : nat) : nat := match nth_error ss i with Some wc => fst wc | None => 0 end.
Notation wt := (wtS (p_soft P)).
Notation ns := (ns P).
Notation viol := (viol P).
Notation rv := (rv nv0).
Definition lev (w : nat) : list nat := filter (fun i => wt i =? w) (seq 0 ns).
Definition cnt (a : assignment) (w : nat) : nat := nviol P a (lev w).
Lemma lev_lt : forall w i, In i (lev w) -> i < ns /\ wt i = w.
Proof. intros w i I. apply filter_In in I as [I E]. apply in_seq in I. apply Nat.eqb_eq in E. split; [lia|auto]. Qed.
Lemma cnt_le : forall a w, cnt a w <= length (lev w).
Proof. intros. unfold cnt, nviol. induction (lev w) as [|i l IH]; cbn; auto. destruct (viol a i); cbn; lia. Qed.
Lemma cnt_agree : forall a b w, agree nv0 a b -> cnt a w = cnt b w.
Proof. intros. unfold cnt. eapply nviol_agree; eauto. Qed.
Lemma ls_cons : forall a l, list_sum (a :: l) = a + list_sum l. Proof. reflexivity. Qed.
Lemma soft_sum : forall (h : nat * list (nat * bool) -> nat) ss, list_sum (map h ss) = list_sum (map (fun i => match nth_error ss i with Some wc => h wc | None => 0 end) (seq 0 (length ss))).
Proof. intros h ss. induction ss as [|wc r IH]; cbn [map length seq]; auto. rewrite !ls_cons. cbn [nth_error]. f_equal. rewrite IH, <- seq_shift, map_map. reflexivity. Qed.
Lemma sum_ext : forall {A} (f g : A -> nat) l, (forall i, In i l -> f i = g i) -> list_sum (map f l) = list_sum (map g l).
Proof. induction l as [|i l IH]; intros H; auto. cbn [map]. rewrite !ls_cons, (H i) by (left; auto). f_equal. apply IH. intros; apply H; right; auto. Qed.
Lemma sum_le : forall {A} (f g : A -> nat) l, (forall i, In i l -> f i <= g i) -> list_sum (map f l) <= list_sum (map g l).
Proof. induction l as [|i l IH]; intros H; auto. cbn [map]. rewrite !ls_cons. pose proof (H i (or_introl eq_refl)). assert (list_sum (map f l) <= list_sum (map g l)) by (apply IH; intros; apply H; right; auto). lia. Qed.
Lemma sum_add : forall {A} (f g : A -> nat) l, list_sum (map (fun i => f i + g i) l) = list_sum (map f l) + list_sum (map g l).
Proof. induction l as [|i l IH]; auto. cbn [map]. rewrite !ls_cons, IH. lia. Qed.
Lemma sum_none : forall w k vs, ~ In w vs -> list_sum (map (fun v => if w =? v then k else 0) vs) = 0.
Proof. induction vs as [|v vs IH]; intros H; auto. cbn [map]. rewrite ls_cons, IH by (intros J; apply H; right; auto). destruct (Nat.eqb_spec w v); auto. exfalso; apply H; left; auto. Qed.
Lemma sum_pick : forall w k vs, NoDup vs -> In w vs -> list_sum (map (fun v => if w =? v then k else 0) vs) = k.
Proof.
  intros w k vs N. induction N as [|v vs H N IH]; intros J; [destruct J|]. cbn [map]. rewrite ls_cons. destruct (Nat.eqb_spec w v) as [<-|Nv]; [rewrite sum_none; auto|]. destruct J as [->|J]; [congruence|]. rewrite IH; auto.
Qed.
(** a sum by weight *)
Lemma sum_levels : forall (h : nat -> bool) vs l, NoDup vs -> (forall i, In i l -> In (wt i) vs) ->
  list_sum (map (fun i => if h i then wt i else 0) l) = list_sum (map (fun v => v * length (filter h (filter (fun i => wt i =? v) l))) vs).
Proof.
  intros h vs l N. induction l as [|i l IH]; intros H.
  - cbn [map filter length]. clear. induction vs as [|v vs IH]; auto. cbn [map]. rewrite ls_cons, <- IH. change (list_sum []) with 0. lia.
  - cbn [map]. rewrite ls_cons, IH by (intros; apply H; right; auto). rewrite <- (sum_pick (wt i) (if h i then wt i else 0) vs N (H i (or_introl eq_refl))) at 1. rewrite <- sum_add. apply sum_ext. intros v _. cbn [filter]. destruct (Nat.eqb_spec (wt i) v) as [<-|]; cbn [filter]; auto. destruct (h i); cbn [length]; lia.
Qed.
Lemma cost_levels : forall a vs, NoDup vs -> (forall i, i < ns -> In (wt i) vs) -> cost P a = list_sum (map (fun v => v * cnt a v) vs).
Proof.
  intros a vs N H. unfold cost, costs. rewrite soft_sum. pose proof (sum_levels (viol a) vs (seq 0 ns) N) as G. etransitivity; [|apply G; intros i J; apply in_seq in J; apply H; lia]. apply sum_ext. intros i _. unfold MaxAlg.viol, wtS. destruct (nth_error (p_soft P) i) as [wc|]; auto. destruct (true_in a (snd wc)); auto.
Qed.
(** the levels of a BMO problem *)
Lemma bmo_levels : bmo P -> forall pre w post, StronglySorted gt (pre ++ w :: post) -> (forall i, i < ns -> In (wt i) (pre ++ w :: post)) -> 0 < length (lev w) -> list_sum (map (fun v => v * length (lev v)) post) <= w.
Proof.
  intros HB pre w post S H Hl. assert (Ex : exists wc, In wc (p_soft P) /\ fst wc = w).
  { destruct (lev w) as [|i l] eqn:E; [cbn in Hl; lia|]. assert (J : In i (lev w)) by (rewrite E; left; auto). apply lev_lt in J as [J1 J2]. unfold wtS in J2. destruct (nth_error (p_soft P) i) as [wc|] eqn:En; [|apply nth_error_None in En; unfold MaxAlg.ns in J1; lia]. exists wc. split; auto. eapply nth_error_In; eauto. }
  destruct Ex as (wc & I & E). specialize (HB wc I). rewrite E in HB. eapply Nat.le_trans; [|exact HB].
  assert (N : NoDup (pre ++ w :: post)). { clear - S. induction S as [|v l S IH F]; constructor; auto. intros J. rewrite Forall_forall in F. specialize (F _ J). lia. }
  assert (Lt : forall v, In v post -> v < w). { clear - S. induction pre as [|y r IH]; cbn in S; inversion S; subst; auto. intros v J. rewrite Forall_forall in H2. specialize (H2 v J). lia. }
  assert (E2 : list_sum (map fst (filter (fun x => fst x <? w) (p_soft P))) = list_sum (map (fun i => if wt i <? w then wt i else 0) (seq 0 ns))).
  { transitivity (list_sum (map (fun x : nat * list (nat * bool) => if fst x <? w then fst x else 0) (p_soft P))).
    - clear. induction (p_soft P) as [|x r IH]; auto. cbn [filter map]. destruct (fst x <? w); cbn [map]; rewrite !ls_cons, IH; auto.
    - rewrite soft_sum. fold ns. apply sum_ext. intros i _. unfold wtS. destruct (nth_error (p_soft P) i); auto. destruct (0 <? w); auto. }
  rewrite E2. rewrite (sum_levels (fun i => wt i <? w) (pre ++ w :: post) (seq 0 ns) N) by (intros i J; apply in_seq in J; apply H; lia). rewrite map_app, list_sum_app. cbn [map]. rewrite ls_cons. match goal with |- ?x <= ?y + (?z + ?u) => assert (x <= u); [|lia] end.
  apply sum_le. intros v J. apply Nat.mul_le_mono_l. fold (lev v). assert (Fe : filter (fun i => wt i <? w) (lev v) = lev v); [|rewrite Fe; auto]. assert (G : forall i, In i (lev v) -> (wt i <? w) = true). { intros i K. apply lev_lt in K as [_ ->]. apply Nat.ltb_lt. auto. } clear - G. induction (lev v) as [|i l IH]; auto. cbn [filter]. rewrite (G i (or_introl eq_refl)). f_equal. apply IH. intros; apply G; right; auto.
Qed.

(** ** Bounds of levels that were minimized one after the other *)
Definition within (dn : list (nat * nat)) (a : assignment) : Prop := forall p, In p dn -> cnt a (fst p) <= snd p.
Definition lexopt (dn : list (nat * nat)) : Prop := forall pre p post, dn = pre ++ p :: post -> forall a, feasible P a -> within pre a -> snd p <= cnt a (fst p).
Definition total (dn : list (nat * nat)) : nat := list_sum (map (fun p => fst p * snd p) dn).
Lemma lexopt_nil : lexopt []. Proof. intros pre p post E; destruct pre; discriminate. Qed.
Lemma lexopt_snoc : forall dn w c, lexopt dn -> (forall a, feasible P a -> within dn a -> c <= cnt a w) -> lexopt (dn ++ [(w, c)]).
Proof.
  intros dn w c L H pre p post E a F W. induction post as [|q post _] using rev_ind.
  - apply app_inj_tail in E as [-> <-]. cbn. auto.
  - rewrite app_comm_cons, app_assoc in E. apply app_inj_tail in E as [-> _]. eapply L; eauto.
Qed.
Lemma within_snoc : forall dn w c a, within (dn ++ [(w, c)]) a <-> within dn a /\ cnt a w <= c.
Proof. intros dn w c a. unfold within. split. - intros H. split; [intros p J; apply H, in_or_app; auto|]. apply (H (w, c)). apply in_or_app; right; left; auto. - intros [H1 H2] p J. apply in_app_or in J as [J|[<-|[]]]; auto. Qed.
Lemma within_eq : forall dn a, lexopt dn -> feasible P a -> within dn a -> forall p, In p dn -> cnt a (fst p) = snd p.
Proof. intros dn a L F W p J. pose proof (W p J). apply in_split in J as (pre & post & ->). assert (snd p <= cnt a (fst p)); [|lia]. eapply L; eauto. intros q K. apply W. apply in_or_app; auto. Qed.
Lemma total_snoc : forall dn w c, total (dn ++ [(w, c)]) = total dn + w * c.
Proof. intros. unfold total. rewrite map_app, list_sum_app. cbn. lia. Qed.
(** the bounds give the minimal cost *)
Lemma lex_weighted : bmo P -> forall dn b, lexopt dn -> feasible P b -> within dn b -> StronglySorted gt (map fst dn) -> (forall i, i < ns -> In (wt i) (map fst dn)) -> (forall p, In p dn -> 0 < length (lev (fst p))) ->
  forall a, feasible P a -> total dn <= cost P a.
Proof.
  intros HB dn b L Fb Wb S H Hl a Fa. assert (N : NoDup (map fst dn)). { clear - S. induction S as [|v l S IH F]; constructor; auto. intros J. rewrite Forall_forall in F. specialize (F _ J). lia. }
  rewrite (cost_levels a (map fst dn) N H). rewrite map_map. unfold total.
  assert (G : forall post pre, dn = pre ++ post -> (forall q, In q pre -> cnt a (fst q) = snd q) -> list_sum (map (fun p => fst p * snd p) post) <= list_sum (map (fun p => fst p * cnt a (fst p)) post)).
  { induction post as [|p post IH]; intros pre E He; auto. cbn [map]. rewrite !ls_cons. assert (Le : snd p <= cnt a (fst p)). { eapply L; eauto. intros q J. rewrite He; auto. }
    destruct (Nat.eq_dec (cnt a (fst p)) (snd p)) as [Eq|Ne].
    - rewrite Eq. specialize (IH (pre ++ [p])). rewrite <- app_assoc in IH. specialize (IH E). assert (forall q, In q (pre ++ [p]) -> cnt a (fst q) = snd q) by (intros q J; apply in_app_or in J as [J|[<-|[]]]; auto). specialize (IH H0). lia.
    - assert (B1 : list_sum (map (fun p => fst p * snd p) post) <= list_sum (map (fun v => v * length (lev v)) (map fst post))). { rewrite map_map. apply sum_le. intros q J. apply Nat.mul_le_mono_l. rewrite <- (within_eq dn b L Fb Wb q) by (rewrite E; apply in_or_app; right; right; auto). apply cnt_le. }
      assert (B2 : list_sum (map (fun v => v * length (lev v)) (map fst post)) <= fst p). { apply (bmo_levels HB (map fst pre) (fst p) (map fst post)); [rewrite E, map_app in S; exact S|rewrite E, map_app in H; exact H|]. apply Hl. rewrite E. apply in_or_app; right; left; auto. }
      assert (fst p * snd p + fst p <= fst p * cnt a (fst p)). { replace (fst p * snd p + fst p) with (fst p * (snd p + 1)) by lia. apply Nat.mul_le_mono_l. lia. } lia. }
  apply (G dn []); auto. intros q [].
Qed.
Lemma total_cost : forall dn a, lexopt dn -> feasible P a -> within dn a -> NoDup (map fst dn) -> (forall i, i < ns -> In (wt i) (map fst dn)) -> cost P a = total dn.
Proof. intros dn a L F W N H. rewrite (cost_levels a _ N H), map_map. unfold total. apply sum_ext. intros p J. f_equal. apply (within_eq dn); auto. Qed.
End Levels.

(** ** The search *)
Section Search.
Variables (os : nat -> oracle) (hd : nat -> bool) (n : nat).
Hypothesis fair_os : forall i, fair (os i).
Variables (nv0 : nat) (P : problem).
Hypothesis HW : wfP nv0 P.
Hypothesis HB : bmo P.
Hypothesis HN : forall wc, In wc (p_soft P) -> snd wc <> [].
Variables (va : list nat) (si : nat).
Notation wt := (wtS (p_soft P)).
Notation ns := (ns P).
Notation viol := (viol P).
Notation rv := (rv nv0).
Notation lev := (lev P).
Notation cnt := (cnt P).
Notation within := (within P).
Notation lexopt := (lexopt P).
Notation base := (base nv0 P false va si).
Notation best := (best nv0 P).
Notation post := (post nv0 P false va si).
Notation right := (right nv0 P).

(** the clauses of the solver: soft clauses with smaller weights are missing *)
Definition Pw (w : nat) (a : assignment) : Prop := feasible P a /\ forall i, w <= wt i -> viol a i = true -> a (nv0 + i) = true.
Lemma rebuildW_ok : forall mw x, base x -> 0 < mw -> wpM (rebuildSolver n mw) x (fun _ y => On y (nv0 + ns) (Pw mw) /\ only x y).
Proof.
  intros mw x (B1 & B2 & B3 & _) Hw. unfold rebuildSolver. apply wpM_bind, wpM_do, wpM_bind, wpM_get. cbn [nbVars set_slv]. rewrite B1. apply wpM_bind. set (x0 := set_slv newSolver x).
  assert (H0 : On x0 0 (fun _ => True)). { split; [|intros a b _ _; exact I]. exists []. split; [constructor|]. intros a. split; auto. intros _ c []. }
  eapply wpM_mono; [apply mrep_vars; exact H0|]. cbv beta. intros _ y (_ & H1 & O1). rewrite Nat.add_0_l in H1. apply wpM_bind, wpM_get, wpM_bind. assert (E1 : hard y = p_hard P) by (rewrite O1; exact B2). rewrite E1.
  eapply wpM_mono; [apply (meach_addC n (p_hard P) y _ _ H1)|]. { intros c I. apply (below_le nv0); [lia|apply HW; auto]. }
  cbv beta. intros _ z (H2 & O2). apply wpM_bind, wpM_get. assert (E2 : soft z = relaxed false nv0 (p_soft P)) by (rewrite O2, O1; exact B3). rewrite E2.
  rewrite <- (meach_map (fun c => sc_lits c ++ sc_relax c) (addC n)).
  assert (I3 : forall c, In c (map (fun c => sc_lits c ++ sc_relax c) (filter (fun c => mw <=? sc_weight c) (relaxed false nv0 (p_soft P)))) <-> exists i wc, nth_error (p_soft P) i = Some wc /\ mw <= fst wc /\ c = snd wc ++ [(nv0 + i, false)]).
  { clear. intros c. generalize nv0. induction (p_soft P) as [|wc r IH]; intros k; cbn [relaxed filter map In sc_weight].
    - split; [intros []|]. intros ([|i] & wc & E & _); discriminate.
    - assert (G : (exists i wc0, nth_error (wc :: r) i = Some wc0 /\ mw <= fst wc0 /\ c = snd wc0 ++ [(k + i, false)]) <-> (mw <= fst wc /\ c = snd wc ++ [(k, false)]) \/ exists i wc0, nth_error r i = Some wc0 /\ mw <= fst wc0 /\ c = snd wc0 ++ [(S k + i, false)]).
      { split.
        - intros ([|i] & wc' & E & L & ->); cbn in E; [left; inversion E; subst; rewrite Nat.add_0_r; auto|right; exists i, wc'; replace (S k + i) with (k + S i) by lia; auto].
        - intros [[L ->]|(i & wc' & E & L & ->)]; [exists 0, wc; rewrite Nat.add_0_r; auto|exists (S i), wc'; replace (k + S i) with (S k + i) by lia; auto]. }
      rewrite G, <- IH. destruct wc as [w ls]. cbn [fst snd]. destruct (Nat.leb_spec mw w) as [L|L]; cbn [map In sc_lits sc_relax]; [|split; [auto|intros [[L' _]|]; [lia|auto]]]. split; [intros [<-|]; auto|intros [[_ ->]|]; auto]. }
  eapply wpM_mono; [apply (meach_addC n _ z _ _ H2)|]. { intros c I. apply I3 in I as (i & wc & E & _ & ->). assert (i < ns) by (apply nth_error_Some; congruence). apply below_app. split; [apply (below_le nv0); [lia|apply HW; eapply nth_error_In; eauto]|]. intros l [<-|[]]. cbn. lia. }
  cbv beta. intros _ w (H3 & O3). split; [|unfold only in *; rewrite O3, O2, O1; reflexivity]. eapply on_iff; [exact H3|]. intros a. cbv beta. unfold Pw, feasible, MaxAlg.viol, wtS. split.
  - intros [[_ X] Y]. split; auto. intros i Lw V. destruct (nth_error (p_soft P) i) as [wc|] eqn:E; [|discriminate]. specialize (Y (snd wc ++ [(nv0 + i, false)]) (proj2 (I3 _) (ex_intro _ i (ex_intro _ wc (conj E (conj Lw eq_refl)))))). unfold true_in in *. rewrite existsb_app in Y. apply negb_true_iff in V. rewrite V in Y. cbn in Y. rewrite orb_false_r in Y. exact Y.
  - intros [X V]. split; [split; auto|]. intros c J. apply I3 in J as (i & wc & E & Lw & ->). unfold true_in. rewrite existsb_app. specialize (V i). rewrite E in V. unfold true_in in V. destruct (existsb (lit_true a) (snd wc)); auto. cbn. unfold lit_true. cbn. rewrite V; auto.
Qed.
Lemma obj_ok : forall w, map relax0 (filter (fun c => sc_weight c =? w) (relaxed false nv0 (p_soft P))) = map rv (lev w).
Proof.
  clear HW HB HN. intros w. unfold MaxBmo.lev, MaxAlg.ns, MaxAlg.rv. generalize nv0. induction (p_soft P) as [|wc r IH]; intros k; cbn [relaxed filter sc_weight length seq map]; auto. rewrite filter_S. cbn [wtS nth_error]. change (wtS (wc :: r) 0) with (fst wc). specialize (IH (S k)).
  assert (E : map (fun i => (k + i, false)) (map S (filter (fun i => wtS (wc :: r) (S i) =? w) (seq 0 (length r)))) = map (fun i => (S k + i, false)) (filter (fun i => wtS r i =? w) (seq 0 (length r)))) by (rewrite map_map; apply map_ext_in; intros; f_equal; lia).
  destruct wc as [v ls]. cbn [fst snd] in *. destruct (v =? w); [|exact (eq_trans IH (eq_sym E))]. cbn [map]. rewrite Nat.add_0_r. exact (f_equal (cons (k, false)) (eq_trans IH (eq_sym E))).
Qed.
Lemma len_filter_S : forall (f : nat -> bool) l, length (filter f (map S l)) = length (filter (fun i => f (S i)) l).
Proof. clear. induction l as [|i r IH]; cbn; auto. destruct (f (S i)); cbn; auto. Qed.
Lemma costW_ok : forall x w, base x -> costModel (Some w) x = w * cnt (of_list (model (slv x))) w.
Proof.
  intros x w (_ & _ & B & _). unfold costModel, MaxBmo.cnt, nviol, MaxBmo.lev, MaxAlg.ns. rewrite B. clear B HW HB. unfold MaxAlg.viol. revert HN. generalize nv0. induction (p_soft P) as [|wc r IH]; intros k Hn; [cbn; lia|].
  cbn [relaxed filter length seq]. rewrite filter_S. specialize (IH (S k) (fun wc' J => Hn wc' (or_intror J))). change (wtS (wc :: r) 0) with (fst wc).
  assert (E : length (filter (fun i => match nth_error (wc :: r) i with Some wc => negb (true_in (of_list (model (slv x))) (snd wc)) | None => false end) (map S (filter (fun i => wtS (wc :: r) (S i) =? w) (seq 0 (length r))))) = length (filter (fun i => match nth_error r i with Some wc => negb (true_in (of_list (model (slv x))) (snd wc)) | None => false end) (filter (fun i => wtS r i =? w) (seq 0 (length r))))).
  { rewrite len_filter_S. reflexivity. }
  unfold unsatIn at 1. cbn [sc_weight sc_lits]. destruct wc as [v ls]. cbn [fst snd] in *. destruct (Nat.eqb_spec v w) as [->|Nv]; cbn [negb].
  - cbn [filter nth_error snd]. change (existsb _ ls) with (true_in (of_list (model (slv x))) ls). destruct (true_in (of_list (model (slv x))) ls); cbn [negb map length sc_weight]; rewrite ?ls_cons, E, IH; lia.
  - specialize (Hn (v, ls) (or_introl eq_refl)). cbn in Hn. destruct ls as [|l ls]; [congruence|]. rewrite E, IH. reflexivity.
Qed.
Definition withinR (dn : list (nat * nat)) (a : assignment) : Prop := forall p, In p dn -> count a (map rv (lev (fst p))) <= snd p.
Lemma below_lev : forall w, below (nv0 + ns) (map rv (lev w)).
Proof. intros w. apply below_rv. intros i J. apply lev_lt in J. apply J. Qed.
Lemma Pw_count : forall a w v, Pw w a -> w <= v -> cnt a v <= count a (map rv (lev v)).
Proof.
  intros a w v [_ H] L. unfold MaxBmo.cnt, nviol. rewrite count_rv. assert (G : forall i, In i (lev v) -> viol a i = true -> a (nv0 + i) = true) by (intros i J; apply lev_lt in J as [_ J]; apply H; lia). clear - G. induction (lev v) as [|i l IH]; auto. cbn [filter]. assert (IH' : length (filter (viol a) l) <= length (filter (fun i => a (nv0 + i)) l)) by (apply IH; intros; apply G; auto; right; auto).
  destruct (viol a i) eqn:E; [rewrite (G i (or_introl eq_refl) E); cbn; lia|]. destruct (a (nv0 + i)); cbn; lia.
Qed.
Lemma setR_Pw : forall a w, feasible P a -> Pw w (setR nv0 P a).
Proof. intros a w F. destruct (setR_P0 nv0 P HW a F) as [F1 F2]. split; auto. Qed.
Lemma setR_within : forall a dn, within dn a -> withinR dn (setR nv0 P a).
Proof. intros a dn W p J. rewrite setR_count. apply W; auto. Qed.
Lemma Pw_within : forall a w dn, Pw w a -> (forall p, In p dn -> w <= fst p) -> withinR dn a -> within dn a.
Proof. intros a w dn H L W p J. eapply Nat.le_trans; [apply (Pw_count a w); auto|apply W; auto]. Qed.
Definition fnsOf (dn : list (nat * nat)) : list (list slit * nat) := map (fun p => (map rv (lev (fst p)), snd p)) dn.
Lemma encodes_ok : forall dn x nv R, On x nv R -> nv0 + ns <= nv -> t_inc (tot_ x) = IncNone ->
  wpM (meach (fnsOf dn) (fun p => encodeCardinality n (fst p) (snd p))) x (fun _ y => exists t nv' Q, onlyT x y t /\ t_inc t = IncNone /\ nv <= nv' /\ On y nv' Q /\ (forall a, Q a -> R a /\ withinR dn a) /\ forall a, R a -> withinR dn a -> exists a', agree nv a a' /\ Q a').
Proof.
  induction dn as [|p dn IH]; intros x nv R H L Hi; cbn [fnsOf map meach].
  - apply wpM_ret. exists (tot_ x), nv, R. split; [apply only_T, only_refl|]. split; auto. split; auto. split; auto. split; [intros a X; split; auto; intros q []|]. intros a X _. exists a. split; [apply agree_refl|auto].
  - apply wpM_bind. cbn [fst snd]. eapply wpM_mono; [apply (encode_weak n _ _ x nv R H); auto; eapply below_le; [exact L|apply below_lev]|]. cbv beta. intros _ y (t & nv1 & Q1 & O1 & T1 & L1 & H1 & A1 & A2). pose proof (onlyT_tot _ _ _ O1) as Ty.
    eapply wpM_mono; [apply (IH y nv1 Q1 H1); [lia|rewrite Ty; auto]|]. cbv beta. intros _ z (t2 & nv2 & Q2 & O2 & T2 & L2 & H2 & B1 & B2). exists t2, nv2, Q2. split; [eapply onlyT_trans; eauto|]. split; auto. split; [lia|]. split; auto. split.
    + intros a X. apply B1 in X as [X W]. apply A1 in X as [X C]. split; auto. intros q [<-|J]; auto.
    + intros a X W. destruct (A2 a X (W p (or_introl eq_refl))) as (a1 & Ag1 & X1). destruct (B2 a1 X1) as (a2 & Ag2 & X2). { intros q J. rewrite <- (count_agree nv a a1); auto; [apply W; right; auto|eapply below_le; [exact L|apply below_lev]]. }
      exists a2. split; auto. eapply agree_trans; [exact L1|exact Ag1|exact Ag2].
Qed.
Lemma rebuildBMO_ok : forall dn w x, base x -> 0 < w -> t_inc (tot_ x) = IncNone ->
  wpM (rebuildBMO n (fnsOf dn) w) x (fun obj y => obj = map rv (lev w) /\ exists t nv Q, onlyT x y t /\ t_inc t = IncNone /\ nv0 + ns <= nv /\ On y nv Q /\ (forall a, Q a -> Pw w a /\ withinR dn a) /\ forall a, Pw w a -> withinR dn a -> exists a', agree (nv0 + ns) a a' /\ Q a').
Proof.
  intros dn w x B Hw Hi. unfold rebuildBMO. apply wpM_bind. eapply wpM_mono; [apply rebuildW_ok; auto|]. cbv beta. intros _ y (H1 & O1). apply wpM_bind, wpM_get. pose proof (only_tot _ _ O1) as Ty.
  assert (Es : soft y = relaxed false nv0 (p_soft P)) by (rewrite O1; apply B). apply wpM_bind. eapply wpM_mono; [apply (encodes_ok dn y (nv0 + ns) (Pw w) H1); auto; rewrite Ty; auto|]. cbv beta. intros _ z (t & nv & Q & O2 & T2 & L2 & H2 & A1 & A2).
  apply wpM_ret. split; [rewrite Es; apply obj_ok|]. exists t, nv, Q. split; [eapply only_onlyT; eauto|]. auto.
Qed.

(** *** The loop *)
Record lvl (dn : list (nat * nat)) (w : nat) (ws : list nat) : Prop := {
  lv_sort : StronglySorted gt (map fst dn ++ w :: ws); lv_all : forall i, i < ns -> In (wt i) (map fst dn ++ w :: ws);
  lv_ne : forall v, In v (map fst dn ++ w :: ws) -> 0 < length (lev v) /\ 0 < v; lv_opt : lexopt dn }.
Lemma lvl_next : forall dn w w' ws c, lvl dn w (w' :: ws) -> (forall a, feasible P a -> within dn a -> c <= cnt a w) -> lvl (dn ++ [(w, c)]) w' ws.
Proof. intros dn w w' ws c [] H. constructor; rewrite ?map_app, <- ?app_assoc; auto. apply lexopt_snoc; auto. Qed.
Lemma sorted_pre : forall pre w post v, StronglySorted gt (pre ++ w :: post) -> In v pre -> w < v.
Proof. induction pre as [|y r IH]; intros w post v H I; [destruct I|]. cbn in H. inversion H; subst. destruct I as [<-|I]; [|eapply IH; eauto]. rewrite Forall_forall in H3. apply H3, in_or_app. right; left; auto. Qed.
Lemma sorted_nodup : forall l, StronglySorted gt l -> NoDup l.
Proof. intros l S. induction S as [|v l S IH F]; constructor; auto. intros J. rewrite Forall_forall in F. specialize (F _ J). lia. Qed.
Lemma lvl_done : forall dn w ws p, lvl dn w ws -> In p dn -> w <= fst p.
Proof. intros dn w ws p [] I. pose proof (sorted_pre _ _ _ (fst p) lv_sort0 (in_map fst _ _ I)). lia. Qed.
Lemma lvl_last : forall dn w ws, lvl dn w ws -> (w =? last (w :: ws) 0) = match ws with [] => true | _ => false end.
Proof.
  intros dn w ws []. destruct ws as [|w' ws]; [apply Nat.eqb_refl|]. apply Nat.eqb_neq. intros E. assert (I : In w (w' :: ws)). { rewrite E. change (last (w :: w' :: ws) 0) with (last (w' :: ws) 0). destruct (exists_last (l := w' :: ws)) as (l & z & ->); [discriminate|]. rewrite last_last. apply in_or_app; right; left; auto. }
  clear - lv_sort0 I. apply sorted_nodup in lv_sort0. apply NoDup_remove_2 in lv_sort0. apply lv_sort0. apply in_or_app; auto.
Qed.
Definition loc (x : mx) (dn : list (nat * nat)) (w : nat) (lc : nat) (nv : nat) (Q : assignment -> Prop) : Prop :=
  (lc = 0 /\ (forall a, Pw w a -> withinR dn a -> exists a', agree (nv0 + ns) a a' /\ Q a')) \/
  (exists m b T R nr, lc = w * m /\ 0 < m /\ nbSat x <> 0 /\ feasible P b /\ within dn b /\ cnt b w = m /\ bnd x nv Q R nr T (map rv (lev w)) m /\ nv0 + ns <= nr /\ (forall a, R a -> Pw w a /\ withinR dn a) /\ forall a, Pw w a -> withinR dn a -> exists a', agree (nv0 + ns) a a' /\ R a').
Definition bmoInv (x : mx) (dn : list (nat * nat)) (w : nat) (ws : list nat) (lc : nat) : Prop :=
  base x /\ t_inc (tot_ x) = IncNone /\ lvl dn w ws /\ lbCost x = total dn /\
  exists nv Q, nv0 + ns <= nv /\ On x nv Q /\ (forall a, Q a -> Pw w a /\ withinR dn a) /\ loc x dn w lc nv Q /\
    (lc = 0 -> (nbSat x = 0 /\ (dn <> [] -> forall a, ~ feasible P a)) \/ (nbSat x <> 0 /\ exists b, feasible P b /\ within dn b)) /\
    (lc <> 0 -> ws = [] -> best x /\ ubCost x = lbCost x + lc).
Lemma fns_snoc : forall dn w c, fnsOf dn ++ [(map rv (lev w), c)] = fnsOf (dn ++ [(w, c)]).
Proof. intros. unfold fnsOf. rewrite map_app. reflexivity. Qed.
(** the cost of an assignment that keeps to the levels done *)
Lemma cost_within : forall dn w a, lvl dn w [] -> feasible P a -> within dn a -> cost P a = total dn + w * cnt a w.
Proof.
  intros dn w a [] F W. rewrite (cost_levels P a (map fst dn ++ [w])); [|apply sorted_nodup; auto|auto]. rewrite map_app, list_sum_app, map_map. cbn [map]. rewrite ls_cons. change (list_sum []) with 0. unfold total. rewrite Nat.add_0_r. f_equal. apply sum_ext. intros p J. f_equal. apply (within_eq P dn); auto.
Qed.
Lemma next_level : forall k dn w w' ws c x, (forall x' dn' w' ws' lc, bmoInv x' dn' w' ws' lc -> wpM (bmoLoop os hd n k (last (w' :: ws') 0) w' ws' (map rv (lev w')) (fnsOf dn') lc) x' post) ->
  base x -> t_inc (tot_ x) = IncNone -> lvl dn w (w' :: ws) -> (forall a, feasible P a -> within dn a -> c <= cnt a w) -> lbCost x = total dn + w * c ->
  ((nbSat x = 0 /\ forall a, ~ feasible P a) \/ (nbSat x <> 0 /\ exists b, feasible P b /\ within (dn ++ [(w, c)]) b)) ->
  wpM (mbind (rebuildBMO n (fnsOf dn ++ [(map rv (lev w), c)]) w') (fun obj => bmoLoop os hd n k (last (w :: w' :: ws) 0) w' ws obj (fnsOf dn ++ [(map rv (lev w), c)]) 0)) x post.
Proof.
  intros k dn w w' ws c x IH B Ti L Hc Lb D. rewrite fns_snoc. pose proof (lvl_next _ _ _ _ _ L Hc) as L'. apply wpM_bind. eapply wpM_mono; [apply rebuildBMO_ok; auto; apply (lv_ne _ _ _ L w'); apply in_or_app; right; right; left; auto|].
  cbv beta. intros obj y (-> & t & nv & Q & O & T & Ln & H & Q1 & Q2). change (last (w :: w' :: ws) 0) with (last (w' :: ws) 0). apply IH. destruct (onlyT_f nv0 P _ _ _ O) as (F1 & F2 & _). split; [eapply base_onlyT; eauto|]. split; [rewrite (onlyT_tot _ _ _ O); auto|]. split; auto. split; [rewrite F2, total_snoc; auto|].
  exists nv, Q. split; auto. split; auto. split; auto. split; [left; auto|]. split; [|intros X; congruence]. intros _. rewrite F1. destruct D as [[D1 D2]|D]; auto.
Qed.
Lemma sat_tail : forall k dn w ws lc nv Q a x, (forall x' dn' w' ws' lc, bmoInv x' dn' w' ws' lc -> wpM (bmoLoop os hd n k (last (w' :: ws') 0) w' ws' (map rv (lev w')) (fnsOf dn') lc) x' post) ->
  base x -> t_inc (tot_ x) = IncNone -> lvl dn w ws -> lbCost x = total dn -> nv0 + ns <= nv -> On x nv Q -> (forall a, Q a -> Pw w a /\ withinR dn a) -> loc x dn w lc nv Q ->
  Q a -> 0 < cnt a w -> nbSat x <> 0 -> (ws = [] -> best x /\ ubCost x = lbCost x + w * cnt a w) ->
  wpM (mbind (if lc =? 0 then encodeCardinality n (map rv (lev w)) (w * cnt a w / w - 1) else updateCardinality n (w * cnt a w / w - 1)) (fun _ => bmoLoop os hd n k (last (w :: ws) 0) w ws (map rv (lev w)) (fnsOf dn) (w * cnt a w))) x post.
Proof.
  intros k dn w ws lc nv Q a x IH B Ti L Lb Ln H Q0 D Qa Hc Ns Be. destruct (lv_ne _ _ _ L w) as [Hl Hw]; [apply in_or_app; right; left; auto|]. rewrite (Nat.mul_comm w (cnt a w)), Nat.div_mul, (Nat.mul_comm (cnt a w) w) by lia. destruct (Q0 a Qa) as [Pa Wa]. assert (Wn : within dn a) by (eapply Pw_within; eauto; intros p J; eapply lvl_done; eauto).
  assert (Goal1 : forall y t nv' Q' R nr T, onlyT x y t -> bnd y nv' Q' R nr T (map rv (lev w)) (cnt a w) -> nv0 + ns <= nr -> (forall a, R a -> Pw w a /\ withinR dn a) -> (forall a, Pw w a -> withinR dn a -> exists a', agree (nv0 + ns) a a' /\ R a') -> bmoInv y dn w ws (w * cnt a w)).
  { intros y t nv' Q' R nr T O Bd Lr R1 R2. destruct (onlyT_f nv0 P _ _ _ O) as (F1 & F2 & F3 & F4). split; [eapply base_onlyT; eauto|]. split; [apply (bd_inc _ _ _ _ _ _ _ _ Bd)|]. split; auto. split; [rewrite F2; auto|]. exists nv', Q'. split; [pose proof (bd_le _ _ _ _ _ _ _ _ Bd); lia|]. split; [apply (bd_on _ _ _ _ _ _ _ _ Bd)|].
    split; [intros a1 X; apply R1; eapply bd_R; eauto|]. split; [|split; [nia|intros _ E; rewrite F2, F3; destruct (Be E); auto]]. right. exists (cnt a w), a, T, R, nr. split; auto. split; auto. split; [rewrite F1; auto|]. split; [apply Pa|]. split; auto. }
  apply wpM_bind. destruct D as [[-> Ex]|(m & b & T & R & nr & -> & Hm & _ & Fb & Wb & Cb & Bd & Lr & R1 & Ex)].
  - cbn [Nat.eqb]. eapply wpM_mono; [apply (first_bound n (map rv (lev w)) (cnt a w) x nv Q); auto|].
    + eapply below_le; [exact Ln|apply below_lev].
    + rewrite map_length. split; auto. apply cnt_le.
    + cbv beta. intros _ y (t & nv' & Q' & T & O & Bd). apply IH. eapply Goal1; eauto.
  - replace (w * m =? 0) with false by (symmetry; apply Nat.eqb_neq; nia). eapply wpM_mono; [apply (next_bound n x nv Q R nr T _ m (cnt a w) Bd)|].
    + split; auto. pose proof (bd_count _ _ _ _ _ _ _ _ Bd a Qa). pose proof (Pw_count a w w Pa (le_n w)). lia.
    + cbv beta. intros _ y (t & Q' & O & Bd'). apply IH. eapply Goal1; eauto.
Qed.
Lemma bmoLoop_ok : forall k x dn w ws lc, bmoInv x dn w ws lc -> wpM (bmoLoop os hd n k (last (w :: ws) 0) w ws (map rv (lev w)) (fnsOf dn) lc) x post.
Proof.
  induction k as [|k IH]; intros x dn w ws lc (B & Ti & L & Lb & nv & Q & Ln & H & Q0 & D & Dz & Dn); [apply wpM_stuck|]. cbn [bmoLoop]. rewrite (lvl_last dn w ws L). apply wpM_bind.
  eapply wpM_mono; [apply (call_ok os n [] x nv Q H); auto; intros l []|]. cbv beta. intros r y (Ey & Hy & R). assert (By : base y) by (rewrite Ey; exact B). assert (Ty : tot_ y = tot_ x) by (rewrite Ey; auto). assert (Ny : nbSat y = nbSat x) by (rewrite Ey; auto). assert (Ly : lbCost y = lbCost x) by (rewrite Ey; auto).
  assert (Bb : best x -> best y) by (rewrite Ey; auto). assert (Ub : ubCost y = ubCost x) by (rewrite Ey; auto). destruct (lv_ne _ _ _ L w) as [Hl Hw]; [apply in_or_app; right; left; auto|]. destruct r as [[]|]; [| |apply cancel_ok; auto].
  - destruct R as (Lm & Pm & _). apply wpM_bind, wpM_do, wpM_bind, wpM_get. set (y1 := set_nbSat _ y). assert (B1 : base y1) by exact By. rewrite (costW_ok y1 w B1). change (slv y1) with (slv y). set (a := of_list (model (slv y))) in *. destruct (Q0 a Pm) as [Pa Wa]. assert (Wn : within dn a) by (eapply Pw_within; eauto; intros p J; eapply lvl_done; eauto).
    assert (Dy : forall z, tot_ z = tot_ x -> On z nv Q -> nbSat z <> 0 -> loc z dn w lc nv Q). { intros z Tz Hz Nz. destruct D as [D|(m & b & T & R & nr & D1 & D2 & D3 & D4 & D5 & D6 & D7 & D8)]; [left; auto|right]. exists m, b, T, R, nr. split; auto. split; auto. split; auto. split; auto. split; auto. split; auto. split; [eapply bnd_same; eauto|auto]. }
    destruct ws as [|w' ws].
    + assert (Ec : cost P a = total dn + w * cnt a w) by (apply cost_within; auto; apply Pa). unfold saveModel. apply wpM_bind, wpM_bind, wpM_do, wpM_bind, wpM_do. set (y2 := set_ubCost _ _). assert (B2 : base y2) by exact By.
      assert (Be : best y2 /\ ubCost y2 = lbCost y2 + w * cnt a w). { split; [|cbn; lia]. apply (saved_best nv0 P HW false va si y1 nv); auto; [lia| |]. - change (P0 nv0 P a). split; [apply Pa|]. intros i V. apply Pa; auto. pose proof (lv_all _ _ _ L i (viol_lt P a i V)) as J. apply in_app_or in J as [J|[<-|[]]]; auto. pose proof (sorted_pre _ _ _ _ (lv_sort _ _ _ L) J). lia. - cbn. rewrite Ly, Lb. fold a. lia. }
      destruct (Nat.ltb_spec 0 (w * cnt a w)) as [Lc|Lc].
      * apply goOn_ok. intros b. destruct b; cbn [negb]; [|apply cancel_ok; exact B2]. replace (w * cnt a w =? 0) with false by (symmetry; apply Nat.eqb_neq; lia). apply (sat_tail k dn w [] lc nv Q a); auto; [rewrite <- Ti, <- Ty; reflexivity|rewrite <- Lb, <- Ly; reflexivity|apply Dy; auto; cbn; lia|nia|cbn; lia].
      * apply wpM_ret. cbn [negb]. assert (cnt a w = 0) as E0 by nia. rewrite E0, Nat.mul_0_r. cbn [Nat.eqb]. apply (optimum_ok nv0 P false va si y2 B2 (proj1 Be)). intros b Fb. destruct Be as [_ ->]. change (lbCost y2) with (lbCost y). rewrite Ly, Lb, E0, Nat.mul_0_r, Nat.add_0_r.
        assert (X : total (dn ++ [(w, 0)]) <= cost P b). { apply (lex_weighted P HB (dn ++ [(w, 0)]) a); auto. - apply lexopt_snoc; [apply L|intros; lia]. - apply Pa. - apply within_snoc. split; auto. lia. - rewrite map_app. apply L. - rewrite map_app. apply L. - intros p J. refine (proj1 (lv_ne _ _ _ L _ _)). apply in_app_or in J as [J|[<-|[]]]; apply in_or_app; [left; apply in_map; auto|right; left; auto]. }
        rewrite total_snoc in X. lia.
    + apply wpM_bind, wpM_ret. cbn [negb]. destruct (Nat.eqb_spec (w * cnt a w) 0) as [E0|N0].
      * assert (E1 : cnt a w = 0) by nia. apply (next_level k dn w w' ws 0 y1); auto; [change (tot_ y1) with (tot_ y); rewrite Ty; auto|intros; lia|change (lbCost y1) with (lbCost y); lia|]. right. split; [cbn; lia|]. exists a. split; [apply Pa|]. apply within_snoc. split; auto. lia.
      * apply (sat_tail k dn w (w' :: ws) lc nv Q a); auto; [change (tot_ y1) with (tot_ y); rewrite Ty; auto|change (lbCost y1) with (lbCost y); lia|apply Dy; auto; cbn; lia|nia|cbn; lia|discriminate].
  - destruct R as (Ni & Nc & _). assert (No : forall a, ~ Q a). { intros a Qa. destruct (Nc a Qa) as (q & I & _). destruct (Ni q I). }
    destruct D as [[-> Ex]|(m & b & T & R & nr & -> & Hm & Ns & Fb & Wb & Cb & Bd & Lr & R1 & Ex)].
    + assert (No2 : forall a, feasible P a -> within dn a -> False). { intros a F W. destruct (Ex (setR nv0 P a)) as (a' & _ & Qa); [apply setR_Pw; auto|apply setR_within; auto|exact (No a' Qa)]. }
      destruct (Dz eq_refl) as [[N0 Nf]|[_ (b & Fb & Wb)]]; [|destruct (No2 b Fb Wb)]. assert (Nf' : forall a, ~ feasible P a). { intros a F. destruct dn as [|p dn]; [apply (No2 a F); intros p []|apply (Nf ltac:(discriminate) a F)]. }
      destruct ws as [|w' ws]; [apply wpM_bind, wpM_get; rewrite Ny, N0; apply wpM_ret; split; [exact Nf'|exact By]|]. apply wpM_bind, wpM_do, wpM_bind, goOn_ok. intros g. destruct g; cbn [negb]; [|apply cancel_ok; exact By]. rewrite Nat.div_0_l by lia.
      match goal with |- wpM _ ?z _ => apply (next_level k dn w w' ws 0 z) end; auto; [cbn; rewrite Ty; auto|intros; lia|cbn; lia|]. left. split; [cbn; lia|auto].
    + assert (Mi : forall a, feasible P a -> within dn a -> m <= cnt a w). { intros a F W. destruct (Nat.le_gt_cases m (cnt a w)) as [|Lt]; auto. exfalso. destruct (Ex (setR nv0 P a)) as (a' & Ag & Ra); [apply setR_Pw; auto|apply setR_within; auto|]. destruct (bnd_ext _ _ _ _ _ _ _ _ a' Bd Ra) as (a2 & _ & Qa); [|exact (No a2 Qa)]. rewrite <- (count_agree (nv0 + ns) (setR nv0 P a) a'); [|auto|apply below_lev]. rewrite setR_count. exact Lt. }
      destruct ws as [|w' ws].
      * apply wpM_bind, wpM_get. rewrite Ny. destruct (Nat.eqb_spec (nbSat x) 0) as [|_]; [congruence|]. destruct (Dn ltac:(nia) eq_refl) as [Be Eu]. apply (optimum_ok nv0 P false va si y By (Bb Be)). intros a Fa. rewrite Ub, Eu, Lb, <- total_snoc.
        apply (lex_weighted P HB (dn ++ [(w, m)]) b); auto. -- apply lexopt_snoc; [apply L|auto]. -- apply within_snoc. split; auto. lia. -- rewrite map_app. apply L. -- rewrite map_app. apply L. -- intros p J. refine (proj1 (lv_ne _ _ _ L _ _)). apply in_app_or in J as [J|[<-|[]]]; apply in_or_app; [left; apply in_map; auto|right; left; auto].
      * apply wpM_bind, wpM_do, wpM_bind, goOn_ok. intros g. destruct g; cbn [negb]; [|apply cancel_ok; exact By]. rewrite (Nat.mul_comm w m), Nat.div_mul by lia.
        match goal with |- wpM _ ?z _ => apply (next_level k dn w w' ws m z) end; auto; [cbn; rewrite Ty; auto|cbn; lia|]. right. split; [cbn; lia|]. exists b. split; auto. apply within_snoc. split; auto. lia.
Qed.
End Search.
