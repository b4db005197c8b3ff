(** * MaxSAT: the searches return a right verdict on unweighted problems *)
From Coq Require Import List Bool Arith Lia Permutation.
From Verif Require Import SatSpec Sat SatProps MaxSpec MaxSat MaxBase MaxTot MaxAlg.
Import ListNotations.

Section Loop.
Variables (os : nat -> oracle) (hd : nat -> bool) (n : nat).
Hypothesis fair_os : forall i, fair (os i).
Variables (nv0 : nat) (P : problem).
Hypothesis HW : wfP nv0 P.
Hypothesis HO : ones P.
Variables (asm : bool) (va : list nat) (si : nat).
Local Notation base := (base nv0 P asm va si).
Local Notation best := (best nv0 P).
Local Notation P0 := (P0 nv0 P).
Local Notation ns := (ns P).
Local Notation allR := (allR nv0 P).
Local Notation nviol := (nviol P).
Local Notation right := (right nv0 P).
Definition post (r : verdict) (y : mx) : Prop := right r /\ base y.
(** every solution violates at least [k] soft clauses *)
Definition atLeast (k : nat) : Prop := forall a, feasible P a -> k <= cost P a.

Lemma ones_le : forall k, k <= 1 -> forall wc, In wc (p_soft P) -> k <= fst wc.
Proof. intros k H wc I. rewrite HO; auto. Qed.
Lemma infeasible_right : (forall a, ~ P0 a) -> right Infeasible.
Proof. intros H a F. apply (H (setR nv0 P a)). apply setR_P0; auto. Qed.
Lemma best_le : forall x, best x -> ubCost x <= ns.
Proof. intros x (_ & _ & <-). apply cost_le; auto. Qed.
Lemma optimum_ok : forall x, base x -> best x -> atLeast (ubCost x) -> wpM optimum x post.
Proof. intros x B Be L. apply wpM_get. split; auto. apply best_right; auto. Qed.
Lemma cancel_ok : forall x, base x -> wpM (mret Cancelled) x post.
Proof. intros x B. apply wpM_ret. split; auto. exact I. Qed.
Lemma goOn_ok : forall x (Q : bool -> mx -> Prop), (forall b, Q b (set_time (S (time x)) x)) -> wpM (goOn hd) x Q.
Proof. intros x Q H. apply H. Qed.
Lemma onlyT_f : forall x y t, onlyT x y t -> nbSat y = nbSat x /\ lbCost y = lbCost x /\ ubCost y = ubCost x /\ (best x -> best y).
Proof. intros x y t E. unfold onlyT in E. rewrite E. repeat split; auto; apply H. Qed.
Lemma only_f : forall x y, only x y -> nbSat y = nbSat x /\ lbCost y = lbCost x /\ ubCost y = ubCost x /\ tot_ y = tot_ x /\ (best x -> best y).
Proof. intros x y E. unfold only in E. rewrite E. repeat split; auto; apply H. Qed.
(** the steps after a satisfiable call *)
Lemma saved_best : forall x nv c, base x -> length (model (slv x)) = nv -> nv0 <= nv -> P0 (of_list (model (slv x))) -> c = cost P (of_list (model (slv x))) ->
  best (set_ubCost c (set_mdl (firstn (nbInit x) (model (slv x))) x)).
Proof. intros x nv c B L Ln H ->. destruct (save_ok nv0 P HW asm va si x nv B L Ln H) as (A1 & A2 & A3). split; [exact A1|]. split; [exact A2|exact A3]. Qed.

(** ** LinearUS without increments *)
Definition usNoneInv (x : mx) : Prop :=
  base x /\ t_inc (tot_ x) = IncNone /\
  exists nv' Q, nv0 + ns <= nv' /\ On x nv' Q /\ (forall a, Q a -> P0 a) /\
    ((nbSat x = 0 /\ (forall a, P0 a -> exists a', agree (nv0 + ns) a a' /\ Q a') /\ lbCost x = 0) \/
     (nbSat x = 1 /\ best x /\ atLeast (lbCost x) /\ (forall a, Q a -> count a allR <= lbCost x) /\ forall a, P0 a -> count a allR <= lbCost x -> exists a', agree (nv0 + ns) a a' /\ Q a')).
Lemma encode_weak : forall ls rhs x nv R, On x nv R -> below nv ls -> t_inc (tot_ x) = IncNone ->
  wpM (encodeCardinality n ls rhs) x (fun _ y => exists t nv' Q, onlyT x y t /\ t_inc t = IncNone /\ nv <= nv' /\ On y nv' Q /\ (forall a, Q a -> R a /\ count a ls <= rhs) /\ forall a, R a -> count a ls <= rhs -> exists a', agree nv a a' /\ Q a').
Proof.
  intros ls rhs x nv R H B Hi. eapply wpM_mono; [apply encode_ok; eauto|]. cbv beta. intros _ y (t & T & nv' & Q & O1 & T1 & Ln & H1 & W & U & Q1 & Q2 & Q3 & _). exists t, nv', Q. split; auto. split; auto. split; auto. split; auto. split; auto.
  intros a Ra C. destruct (Q3 a) as (a' & A & Ca). exists a'. split; auto. apply Q2; auto. destruct H as [_ L]; eapply L; eauto. rewrite <- (count_agree nv a a'); auto.
Qed.
Lemma usNone_ok : forall k x, usNoneInv x -> wpM (usNoneLoop os hd n k allR) x post.
Proof.
  induction k as [|k IH]; intros x (B & Ti & nv' & Q & Ln & H & Q0 & D); [apply wpM_stuck|]. cbn [usNoneLoop]. apply wpM_bind.
  eapply wpM_mono; [apply (call_ok os n [] x nv' Q H); auto; intros l []|]. cbv beta. intros r y (Ey & Hy & R). assert (By : base y) by (rewrite Ey; exact B). assert (Ty : tot_ y = tot_ x) by (rewrite Ey; auto). assert (Ny : nbSat y = nbSat x) by (rewrite Ey; auto). assert (Lb : lbCost y = lbCost x) by (rewrite Ey; auto).
  assert (Bb : best x -> best y) by (rewrite Ey; auto). assert (Ub : ubCost y = ubCost x) by (rewrite Ey; auto). destruct r as [[]|]; [| |apply cancel_ok; auto].
  - destruct R as (L & Pm & _). apply wpM_bind, wpM_do, wpM_bind, wpM_get. set (y1 := set_nbSat _ y). assert (B1 : base y1) by exact By. rewrite (costModel_ok nv0 P asm va si y1 B1). cbn [slv y1 set_nbSat]. set (c := cost P _). unfold saveModel. apply wpM_bind, wpM_do, wpM_bind, wpM_do.
    assert (Be : best (set_ubCost c (set_mdl (firstn (nbInit y1) (model (slv y1))) y1))) by (apply (saved_best y1 nv'); auto; try lia; apply Q0; auto). set (y2 := set_ubCost _ _) in *. assert (B2 : base y2) by exact By. apply wpM_bind, wpM_get. change (nbSat y2) with (S (nbSat y)). rewrite Ny.
    destruct D as [(N & Ex & L0)|(N & Bx & Al & C1 & C2)]; rewrite N; cbn [Nat.eqb].
    + apply wpM_bind, goOn_ok. intros b. destruct b; cbn [negb]; [|apply cancel_ok; exact B2]. apply wpM_bind. set (y3 := set_time _ y2). eapply wpM_mono; [apply (encode_weak allR 0 y3 nv' Q); [exact Hy| |rewrite <- Ti; cbn; auto]|].
      { apply (below_le (nv0 + ns)); [lia|apply below_allR]. } { change (tot_ y3) with (tot_ y). rewrite Ty. auto. }
      cbv beta. intros _ z (t & nv2 & Q2 & O2 & T2 & Ln2 & H2 & S1 & S2). apply IH. split; [eapply base_onlyT; [|exact O2]; exact B2|]. split; [rewrite (onlyT_tot _ _ _ O2); auto|]. exists nv2, Q2. split; [lia|]. split; auto. split; [intros a Qa; apply Q0, S1; auto|]. right.
      destruct (onlyT_f _ _ _ O2) as (F1 & F2 & _ & F4). change (nbSat y3) with (S (nbSat y)) in F1. change (lbCost y3) with (lbCost y) in F2. rewrite Ny, N in F1. rewrite Lb, L0 in F2. rewrite F1, F2. split; auto. split; [apply F4; exact Be|]. split; [intros a _; lia|]. split; [intros a Qa; apply S1; auto|].
      intros a Pa C. destruct (Ex a Pa) as (a1 & A1 & Qa1). destruct (S2 a1 Qa1) as (a2 & A2 & Qa2). { rewrite <- (count_agree (nv0 + ns) a a1); auto. apply below_allR. } exists a2. split; auto. eapply agree_trans; [|exact A1|exact A2]; lia.
    + apply optimum_ok; auto. intros a F. change (ubCost y2) with c. assert (c <= lbCost x); [|specialize (Al a F); lia]. unfold c. rewrite cost_viol by auto. etransitivity; [apply P0_count; apply Q0; exact Pm|]. apply C1; auto.
  - destruct R as (Ni & Nc & _). assert (No : forall a, ~ Q a). { intros a Qa. destruct (Nc a Qa) as (q & I & _). destruct (Ni q I). }
    apply wpM_bind, wpM_do, wpM_bind, wpM_get. cbn [nbSat set_lbCost]. rewrite Ny. destruct D as [(N & Ex & L0)|(N & Bx & Al & C1 & C2)]; rewrite N; cbn [Nat.eqb].
    + apply wpM_ret. split; [|exact By]. apply infeasible_right. intros a Pa. destruct (Ex a Pa) as (a' & _ & Qa). exact (No a' Qa).
    + assert (Al' : atLeast (S (lbCost x))). { intros a F. specialize (Al a F). destruct (Nat.eq_dec (cost P a) (lbCost x)) as [E|]; [|lia]. exfalso. destruct (C2 (setR nv0 P a)) as (a' & _ & Qa); [apply setR_P0; auto| |exact (No a' Qa)]. unfold MaxAlg.allR. rewrite setR_count, <- cost_viol by auto. lia. }
      apply wpM_bind, wpM_get. cbn [lbCost ubCost set_lbCost]. rewrite Lb, Ub. destruct (Nat.eqb_spec (S (lbCost x)) (ubCost x)) as [Eq|Nq].
      * apply optimum_ok; [exact By|exact (Bb Bx)|]. cbn [ubCost set_lbCost]. rewrite Ub, <- Eq. auto.
      * apply wpM_bind, goOn_ok. intros b. destruct b; cbn [negb]; [|apply cancel_ok; exact By]. set (y3 := set_time _ _). apply wpM_bind. eapply wpM_mono; [apply (rebuild_ok nv0 P HW n asm va si 0 y3); [exact By|apply ones_le; lia]|].
        cbv beta. intros _ z (Hz & Oz). apply wpM_bind, wpM_get. destruct (only_f _ _ Oz) as (G1 & G2 & _ & G3 & G4). change (lbCost y3) with (S (lbCost x)) in G2. change (nbSat y3) with (nbSat y) in G1. change (tot_ y3) with (tot_ y) in G3. rewrite Ny, N in G1. rewrite G2. apply wpM_bind. eapply wpM_mono; [apply (encode_weak allR (S (lbCost x)) z (nv0 + ns) P0 Hz); [apply below_allR|rewrite G3, Ty; auto]|].
        cbv beta. intros _ w (t & nv2 & Q2 & O2 & T2 & Ln2 & H2 & S1 & S2). apply IH. split; [eapply base_onlyT; [|exact O2]; eapply base_only; [|exact Oz]; exact By|]. split; [rewrite (onlyT_tot _ _ _ O2); auto|]. exists nv2, Q2. split; [lia|]. split; auto. split; [intros a Qa; apply S1; auto|]. right.
        destruct (onlyT_f _ _ _ O2) as (F1 & F2 & _ & F4). rewrite F1, F2, G1, G2. split; auto. split; [apply F4, G4; exact (Bb Bx)|]. split; auto. split; auto. intros a Qa. apply S1; auto.
Qed.

(** ** LinearUS, iterative *)
Lemma ready_same : forall x y n1 n2 R Q T, ready x n1 n2 R Q T -> tot_ y = tot_ x -> On y n2 Q -> ready y n1 n2 R Q T.
Proof. intros x y n1 n2 R Q T [] E H. constructor; rewrite ?E; auto. Qed.
(** the state of the totalizer: not yet built, or with a tree for the literals [ls]; [k] is the bound of the assumptions [enc] *)
Definition encoded (x : mx) (ls : list slit) (k : nat) (enc : list slit) (nv : nat) (Q : assignment -> Prop) (T : tree) : Prop :=
  t_inc (tot_ x) = IncIterative /\
  ((t_has (tot_ x) = false /\ t_cells (tot_ x) = [] /\ enc = [] /\ length ls = k /\ T = Nil /\ nv = nv0 + ns /\ On x nv P0 /\ (forall a, Q a <-> P0 a)) \/
   (ready x (nv0 + ns) nv P0 Q T /\ Permutation ls (leaves T) /\ enc = map neg (skipn k (outs T)) /\ forall a, Q a -> forall c, In c (cells T) -> cellOk (k + 1) a c)).
Lemma encoded_same : forall x y ls k enc nv Q T, encoded x ls k enc nv Q T -> tot_ y = tot_ x -> On y nv Q -> encoded y ls k enc nv Q T.
Proof.
  intros x y ls k enc nv Q T [Ti D] E H. split; [rewrite E; auto|]. destruct D as [(D1 & D2 & D3 & D4 & D5 & D6 & D7 & D8)|(D1 & D2)]; [left|right].
  - rewrite E. split; auto. split; auto. split; auto. split; auto. split; auto. split; auto. split; auto. eapply on_iff; [exact H|]. auto.
  - split; auto. eapply ready_same; eauto.
Qed.
Lemma encoded_facts : forall x ls k enc nv Q T, encoded x ls k enc nv Q T -> On x nv Q /\ nv0 + ns <= nv /\ below nv enc /\ (forall a, Q a -> P0 a) /\
  (forall a, Q a -> (forall p, In p enc -> lit_true a p = true) -> count a ls <= k) /\
  (forall a, P0 a -> exists a', agree (nv0 + ns) a a' /\ Q a' /\ forall q, In (neg q) enc -> lit_true a' q = true -> below (nv0 + ns) ls -> k < count a ls).
Proof.
  intros x ls k enc nv Q T [Ti [(D1 & D2 & D3 & D4 & D5 & D6 & D7 & D8)|(R & Pm & -> & C)]].
  - subst. split; [eapply on_iff; [exact D7|]; intros a; symmetry; auto|]. split; auto. split; [intros l []|]. split; [apply D8|]. split; [intros a _ _; apply count_le|]. intros a Pa. exists a. split; [apply agree_refl|]. split; [apply D8; auto|]. intros q [].
  - destruct R as [R1 R2 R3 R4 R5 R6 R7 Hn U H R8 R9 R10 R11]. split; auto. split; auto. split; [|split; auto; split].
    + intros l J. apply in_map_iff in J as (l' & <- & J). rewrite fst_neg. apply (under_outs nv T U). rewrite <- (firstn_skipn k (outs T)). apply in_or_app; auto.
    + intros a Qa A. rewrite (count_perm a _ _ Pm). apply (assume_sound a T k R5); auto.
    + intros a Pa. destruct (R11 a) as (a' & A & Ca). exists a'. split; auto. split; [apply R10; auto; eapply P0_local; eauto|]. intros q J Tq Bl. apply in_map_iff in J as (l & El & J). assert (l = q) as -> by (destruct l as [v1 s1], q as [v2 s2]; unfold neg in El; cbn in El; inversion El; f_equal; destruct s1, s2; auto; discriminate).
      destruct (Nat.le_gt_cases (count a ls) k) as [Le|]; auto. exfalso. rewrite (count_agree (nv0 + ns) a a') in Le by auto. rewrite (count_perm a' _ _ Pm) in Le. pose proof (assume_canon a' T k R5 Ca Le (neg q) (in_map neg _ _ J)) as Z. rewrite lit_neg, Tq in Z. discriminate.
Qed.

Local Notation rv := (rv nv0).
(** ** Active and passive soft clauses: [act] are constrained by the encoding, [pas] by assumptions *)
Lemma nviol_app : forall a l1 l2, nviol a (l1 ++ l2) = nviol a l1 + nviol a l2.
Proof. intros. unfold MaxAlg.nviol. rewrite filter_app, app_length. auto. Qed.
Lemma nviol_perm : forall a l1 l2, Permutation l1 l2 -> nviol a l1 = nviol a l2.
Proof. intros a l1 l2 H. unfold MaxAlg.nviol. apply Permutation_length, filter_perm; auto. Qed.
Lemma nviol_pos : forall a l i, In i l -> viol P a i = true -> 0 < nviol a l.
Proof. intros a l i I V. unfold MaxAlg.nviol. assert (J : In i (filter (viol P a) l)) by (apply filter_In; auto). destruct (filter (viol P a) l); [destruct J|cbn; lia]. Qed.
Definition lbIn (act : list nat) (k : nat) : Prop := forall a, feasible P a -> k <= nviol a act.
Lemma lbIn_atLeast : forall act pas k, Permutation (act ++ pas) (seq 0 ns) -> lbIn act k -> atLeast k.
Proof. intros act pas k Pm L a F. rewrite cost_viol by auto. rewrite <- (nviol_perm a _ _ Pm), nviol_app. specialize (L a F). lia. Qed.
Lemma sat_step : forall a act pas k, P0 a -> Permutation (act ++ pas) (seq 0 ns) -> (forall i, In i pas -> a (nv0 + i) = false) -> count a (map rv act) <= k -> cost P a <= k.
Proof.
  intros a act pas k H Pm Hp C. rewrite cost_viol by auto. rewrite <- (nviol_perm a _ _ Pm), nviol_app. pose proof (P0_count nv0 P a act H). assert (nviol a pas = 0); [|lia].
  destruct (Nat.eq_dec (nviol a pas) 0) as [|N]; auto. exfalso. unfold MaxAlg.nviol in N. destruct (filter (viol P a) pas) as [|i r] eqn:E; [apply N; auto|]. assert (J : In i (filter (viol P a) pas)) by (rewrite E; left; auto). apply filter_In in J as [J V]. destruct H as [_ H]. specialize (H i V). rewrite Hp in H; auto. discriminate.
Qed.
(** what a solver state with an encoding of "at most [k] of the literals [ls]" offers; [enc] are the assumptions of the encoding *)
Definition encOk (x : mx) (ls : list slit) (k : nat) (enc : list slit) (nv : nat) (Q : assignment -> Prop) : Prop :=
  On x nv Q /\ nv0 + ns <= nv /\ below nv enc /\ (forall a, Q a -> P0 a) /\
  (forall a, Q a -> (forall p, In p enc -> lit_true a p = true) -> count a ls <= k) /\
  (below (nv0 + ns) ls -> forall a, P0 a -> count a ls <= k -> exists a', agree (nv0 + ns) a a' /\ Q a' /\ forall q, In (neg q) enc -> lit_true a' q = false).
Lemma encoded_ok : forall x ls k enc nv Q T, encoded x ls k enc nv Q T -> encOk x ls k enc nv Q.
Proof.
  intros x ls k enc nv Q T E. destruct (encoded_facts _ _ _ _ _ _ _ E) as (E1 & E2 & E3 & E4 & E5 & E6). split; auto. split; auto. split; auto. split; auto. split; auto. intros B a Pa C. destruct (E6 a Pa) as (a' & A & Qa & En). exists a'. split; auto. split; auto. intros q I. destruct (lit_true a' q) eqn:Tq; auto. specialize (En q I Tq B). lia.
Qed.
Lemma unsat_step : forall x act pas core k enc nv Q conf, encOk x (map rv act) k enc nv Q -> lbIn act k -> (forall i, In i act -> i < ns) -> (forall i, In i pas -> i < ns) ->
  (forall q, In q conf -> In (neg q) (map neg (map rv pas) ++ enc)) -> (forall a, Q a -> exists q, In q conf /\ lit_true a q = true) ->
  (forall i, In i pas -> In (rv i) conf -> In i core) -> lbIn (act ++ core) (S k).
Proof.
  intros x act pas core k enc nv Q conf (_ & Ln & _ & _ & _ & Ex) L Ha Hp C1 C2 C3 a F. rewrite nviol_app. specialize (L a F). destruct (Nat.le_gt_cases (nviol a act) k) as [Le|Gt]; [|lia].
  destruct (Ex (below_rv nv0 P act Ha) (setR nv0 P a) (setR_P0 nv0 P HW a F)) as (a' & A & Qa & En); [rewrite setR_count; auto|]. destruct (C2 a' Qa) as (q & Iq & Tq). specialize (C1 q Iq). apply in_app_or in C1 as [C1|C1].
  - rewrite map_map in C1. apply in_map_iff in C1 as (i & Ei & Ii). assert (rv i = q). { destruct q as [v s]. unfold neg, MaxAlg.rv in *. cbn in Ei. inversion Ei. f_equal. destruct s; auto; discriminate. } subst q.
    assert (V : viol P a i = true). { rewrite <- (setR_val nv0 P a i). unfold lit_true, MaxAlg.rv in Tq. cbn in Tq. rewrite (A (nv0 + i)); auto. specialize (Hp i Ii). lia. } pose proof (nviol_pos a core i (C3 i Ii Iq) V). lia.
  - rewrite (En q C1) in Tq. discriminate.
Qed.
Lemma asm_pas : forall a pas enc, (forall p, In p (map neg (map rv pas) ++ enc) -> lit_true a p = true) -> (forall i, In i pas -> a (nv0 + i) = false) /\ forall p, In p enc -> lit_true a p = true.
Proof.
  intros a pas enc H. split; [|intros; apply H, in_or_app; auto]. intros i I. specialize (H (neg (rv i))). rewrite lit_neg in H. unfold lit_true, MaxAlg.rv in H. cbn in H. destruct (a (nv0 + i)); auto. discriminate H. apply in_or_app. left. rewrite map_map. apply in_map_iff. exists i. auto.
Qed.
Lemma perm_lt : forall act pas, Permutation (act ++ pas) (seq 0 ns) -> (forall i, In i act -> i < ns) /\ forall i, In i pas -> i < ns.
Proof. intros act pas Pm. assert (G : forall i, In i (act ++ pas) -> i < ns). { intros i I. apply (Permutation_in _ Pm) in I. apply in_seq in I. lia. } split; intros i I; apply G, in_or_app; auto. Qed.
Lemma below_asm : forall pas enc nv, nv0 + ns <= nv -> (forall i, In i pas -> i < ns) -> below nv enc -> below nv (map neg (map rv pas) ++ enc).
Proof. intros pas enc nv Ln Hp B. apply below_app. split; auto. intros l I. rewrite map_map in I. apply in_map_iff in I as (i & <- & J). specialize (Hp i J). cbn. lia. Qed.

(** the state before a call with the assumptions [asms] *)
Definition stage (x : mx) (asms : list slit) (act pas : list nat) (enc : list slit) (nv : nat) (Q : assignment -> Prop) : Prop :=
  base x /\ encOk x (map rv act) (lbCost x) enc nv Q /\ Permutation (act ++ pas) (seq 0 ns) /\
  ((nbSat x = 0 /\ asms = [] /\ act = [] /\ enc = [] /\ lbCost x = 0) \/ (nbSat x = 1 /\ best x /\ lbIn act (lbCost x) /\ asms = map neg (map rv pas) ++ enc)).
Definition after (x y : mx) : Prop := y = set_slv (slv y) (set_time (S (time x)) x).
Lemma after_f : forall x y, after x y -> (base x -> base y) /\ (best x -> best y) /\ nbSat y = nbSat x /\ lbCost y = lbCost x /\ ubCost y = ubCost x /\ tot_ y = tot_ x /\ soft y = soft x.
Proof. intros x y E. unfold after in E. rewrite E. auto 10. Qed.
Lemma sat_branch : forall x y asms act pas enc nv Q (K : list slit -> M verdict), stage x asms act pas enc nv Q -> after x y -> On y nv Q ->
  length (model (slv y)) = nv -> Q (of_list (model (slv y))) -> (forall p, In p asms -> lit_true (of_list (model (slv y))) p = true) ->
  (forall z, nbSat x = 0 -> asms = [] -> act = [] -> enc = [] -> base z -> best z -> tot_ z = tot_ x -> slv z = slv y -> nbSat z = 1 -> lbCost z = lbCost x -> lbCost x = 0 -> wpM (K (asms ++ map neg allR)) z post) ->
  wpM (mdo (fun x => set_nbSat (S (nbSat x)) x) ;;> c <<- mget (costModel None) ;; saveModel ;;> mdo (set_ubCost c) ;;> s <<- mget nbSat ;;
       if s =? 1 then b <<- goOn hd ;; if negb b then mret Cancelled else K (asms ++ map neg allR) else optimum) y post.
Proof.
  intros x y asms act pas enc nv Q K (B & E & Pm & D) Af Hy L Qm Am HK. destruct (after_f _ _ Af) as (F1 & F2 & F3 & F4 & F5 & F6 & F7). specialize (F1 B). pose proof E as (E1 & E2 & E3 & E4 & E5 & E6).
  apply wpM_bind, wpM_do, wpM_bind, wpM_get. set (y1 := set_nbSat _ y). assert (B1 : base y1) by exact F1. rewrite (costModel_ok nv0 P asm va si y1 B1). cbn [slv y1 set_nbSat]. set (c := cost P _). unfold saveModel. apply wpM_bind, wpM_do, wpM_bind, wpM_do.
  assert (Be : best (set_ubCost c (set_mdl (firstn (nbInit y1) (model (slv y1))) y1))) by (apply (saved_best y1 nv); auto; try lia; apply E4; auto). set (y2 := set_ubCost _ _) in *. assert (B2 : base y2) by exact F1. apply wpM_bind, wpM_get. change (nbSat y2) with (S (nbSat y)). rewrite F3.
  destruct D as [(N & -> & -> & -> & L0)|(N & Bx & Al & ->)]; rewrite N; cbn [Nat.eqb].
  - apply wpM_bind, goOn_ok. intros b. destruct b; cbn [negb]; [|apply cancel_ok; exact B2]. apply HK; auto. cbn. rewrite F3, N. auto.
  - apply optimum_ok; auto. intros a F. change (ubCost y2) with c. apply asm_pas in Am as [Am1 Am2]. assert (c <= lbCost x); [|pose proof (lbIn_atLeast act pas _ Pm Al a F); lia]. apply (sat_step _ act pas); auto.
Qed.
Lemma unsat_branch : forall x y asms act pas enc nv Q (K : M verdict), stage x asms act pas enc nv Q -> after x y ->
  (forall q, In q (conflict (slv y)) -> In (neg q) asms) -> (forall a, Q a -> exists q, In q (conflict (slv y)) /\ lit_true a q = true) ->
  (forall z, nbSat x = 1 -> asms = map neg (map rv pas) ++ enc -> lbIn act (lbCost x) -> base z -> best z -> tot_ z = tot_ x -> slv z = slv y -> nbSat z = 1 -> lbCost z = S (lbCost x) -> S (lbCost x) < ubCost z -> 
     (forall core, (forall i, In i pas -> In (rv i) (conflict (slv y)) -> In i core) -> lbIn (act ++ core) (S (lbCost x))) -> wpM K z post) ->
  wpM (mdo (fun x => set_lbCost (S (lbCost x)) x) ;;> s <<- mget nbSat ;; if s =? 0 then mret Infeasible else
       e <<- mget (fun x => lbCost x =? ubCost x) ;; if e : bool then optimum else K) y post.
Proof.
  intros x y asms act pas enc nv Q K (B & E & Pm & D) Af C1 C2 HK. destruct (after_f _ _ Af) as (F1 & F2 & F3 & F4 & F5 & F6 & F7). specialize (F1 B). destruct (perm_lt _ _ Pm) as [Pa Pp].
  apply wpM_bind, wpM_do, wpM_bind, wpM_get. cbn [nbSat set_lbCost]. rewrite F3. destruct D as [(N & -> & -> & -> & L0)|(N & Bx & Al & ->)]; rewrite N; cbn [Nat.eqb].
  - apply wpM_ret. split; [|exact F1]. apply infeasible_right. intros a H. destruct E as (_ & _ & _ & _ & _ & E6). destruct (E6 ltac:(intros l []) a H ltac:(cbn; lia)) as (a' & _ & Qa & _). destruct (C2 a' Qa) as (q & Iq & _). destruct (C1 q Iq).
  - assert (St : forall core, (forall i, In i pas -> In (rv i) (conflict (slv y)) -> In i core) -> lbIn (act ++ core) (S (lbCost x))) by (intros core Hc; eapply unsat_step; eauto).
    assert (At : atLeast (S (lbCost x))) by (apply (lbIn_atLeast (act ++ pas) []); [rewrite app_nil_r; auto|apply St; auto]).
    apply wpM_bind, wpM_get. set (z := set_lbCost _ y). assert (Bz : best z) by exact (F2 Bx). assert (Lz : lbCost z = S (lbCost x)) by (cbn; rewrite F4; auto). rewrite Lz. destruct (Nat.eqb_spec (S (lbCost x)) (ubCost z)) as [Eq|Nq].
    + apply optimum_ok; [exact F1|exact Bz|]. rewrite <- Eq. auto.
    + apply HK; auto; [cbn; rewrite F3; auto|]. destruct Bz as (_ & Fz & Cz). specialize (At _ Fz). lia.
Qed.

(** the totalizer is brought to the next bound *)
Lemma update_encoded : forall x ls k nv Q T, ready x (nv0 + ns) nv P0 Q T -> Permutation ls (leaves T) -> k <= length ls ->
  wpM (incUpdateCardinality n [] k) x (fun r y => (exists enc Q' t, r = Some enc /\ encoded y ls k enc nv Q' T /\ t_has (tot_ y) = true /\ onlyT x y t)).
Proof.
  intros x ls k nv Q T R Pm L. unfold incUpdateCardinality. apply wpM_bind, wpM_ret. eapply wpM_mono; [apply (update_ready n _ _ _ _ _ _ _ R)|].
  { destruct R. rewrite len_leaves by auto. rewrite <- (Permutation_length Pm). exact L. }
  cbv beta. intros r y (-> & (P' & R' & C) & t & O). exists (map neg (skipn k (outs T))), P', t. split; auto. split; [|split; auto; destruct R'; auto]. split; [destruct R'; auto|]. right. auto.
Qed.
Definition usIterInv (x : mx) (asms : list slit) : Prop :=
  exists act pas enc nv Q T, stage x asms act pas enc nv Q /\ encoded x (map rv act) (lbCost x) enc nv Q T /\
    ((t_has (tot_ x) = false /\ act = [] /\ pas = seq 0 ns) \/ (t_has (tot_ x) = true /\ act = seq 0 ns /\ pas = [] /\ nbSat x = 1)).
Lemma usIter_ok : forall k x asms, usIterInv x asms -> wpM (usIterLoop os hd n k allR asms) x post.
Proof.
  induction k as [|k IH]; intros x asms (act & pas & enc & nv & Q & T & St & En & D); [apply wpM_stuck|]. cbn [usIterLoop]. apply wpM_bind. pose proof St as (B & (H & Ln & Be & _) & Pm & Da). destruct (perm_lt _ _ Pm) as [Ha Hp].
  eapply wpM_mono; [apply (call_ok os n asms x nv Q H); auto|].
  { destruct Da as [(_ & -> & _)|(_ & _ & _ & ->)]; [intros l []|apply below_asm; auto]. }
  cbv beta. intros r y (Ey & Hy & R). destruct (after_f _ _ Ey) as (F1 & F2 & F3 & F4 & F5 & F6 & F7). destruct r as [[]|]; [| |apply cancel_ok; auto].
  - destruct R as (L & Qm & Am). apply (sat_branch x y asms act pas enc nv Q (fun a => usIterLoop os hd n k allR a) St Ey Hy L Qm Am). intros z N -> -> -> Bz Bez Tz Sz Nz Lz L0. apply IH.
    destruct D as [(D1 & _ & ->)|(D1 & D2 & -> & D4)].
    + exists [], (seq 0 ns), [], nv, Q, T. assert (Ez : encoded z (map rv []) (lbCost z) [] nv Q T) by (rewrite Lz; eapply encoded_same; [exact En|auto|apply (on_slv y); auto]). split; [|split; [exact Ez|left; rewrite Tz; auto]].
      split; auto. split; [eapply encoded_ok; exact Ez|]. split; auto. right. split; auto. split; auto. split; [intros a _; lia|]. rewrite app_nil_r. reflexivity.
    + lia.
  - destruct R as (C1 & C2 & _). apply (unsat_branch x y asms act pas enc nv Q _ St Ey C1 C2). intros z N -> Lb Bz Bez Tz Sz Nz Lz Lu Co.
    apply wpM_bind, goOn_ok. intros b. destruct b; cbn [negb]; [|apply cancel_ok; exact Bz]. set (z1 := set_time _ z). assert (Hz : On z1 nv Q) by (apply (on_slv y); auto). apply wpM_bind, wpM_get. change (lbCost z1) with (lbCost z). rewrite Lz. assert (T1 : tot_ z1 = tot_ x) by exact Tz.
    apply wpM_bind, wpM_get. rewrite T1. apply wpM_bind. pose proof (best_le _ Bez) as Lns.
    assert (Go : forall w t nv1 Q1 T1, onlyT z1 w t -> ready w (nv0 + ns) nv1 P0 Q1 T1 -> Permutation allR (leaves T1) -> 
      wpM (a <<- incUpdateCardinality n [] (S (lbCost x)) ;; usIterLoop os hd n k allR (match a with Some a => a | None => map neg (map rv pas) ++ enc end)) w post).
    { intros w t nv1 Q1 T1' O1 R1 P1. apply wpM_bind. eapply wpM_mono; [apply (update_encoded w allR (S (lbCost x)) nv1 Q1 T1' R1 P1)|].
      { unfold MaxAlg.allR. rewrite map_length, seq_length. lia. }
      cbv beta. intros r v (enc' & Q' & t' & -> & Ev & Hv & Ov). apply IH. destruct (onlyT_f _ _ _ O1) as (G1 & G2 & _ & G3). destruct (onlyT_f _ _ _ Ov) as (G1' & G2' & _ & G3'). change (lbCost z1) with (lbCost z) in G2. change (nbSat z1) with (nbSat z) in G1.
      assert (Lv : lbCost v = S (lbCost x)) by congruence.
      exists (seq 0 ns), [], enc', nv1, Q', T1'. rewrite <- Lv in Ev. split; [|split; [exact Ev|right; split; auto; split; auto; split; auto; congruence]]. split; [eapply base_onlyT; [|exact Ov]; eapply base_onlyT; [|exact O1]; exact Bz|]. split; [eapply encoded_ok; exact Ev|]. split; [rewrite app_nil_r; auto|]. right. split; [congruence|]. split; [apply G3', G3; exact Bez|]. split; [|auto].
      rewrite Lv. intros a F. rewrite <- cost_viol by auto. apply (lbIn_atLeast (act ++ pas) []); auto. rewrite app_nil_r. auto. }
    destruct D as [(D1 & -> & ->)|(D1 & -> & -> & D4)]; rewrite D1; cbn [negb].
    + destruct En as [Ti [(_ & Ce & -> & K0 & -> & -> & _ & Qe)|(X & _)]]; [|destruct X; congruence]. eapply wpM_mono; [apply (build_ready n allR (S (lbCost x)) z1 (nv0 + ns) P0); auto|].
      { eapply on_iff; [exact Hz|exact Qe]. } { apply below_allR. } { rewrite T1; auto. } { rewrite T1; auto. } { lia. } { unfold MaxAlg.allR. rewrite map_length, seq_length. lia. }
      cbv beta. intros _ w ((T' & nv' & P' & R' & Pm') & t & O). eapply Go; eauto.
    + destruct En as [Ti [(X & _)|(X & Pm' & _)]]; [congruence|]. apply wpM_ret. apply (Go z1 (tot_ z1) nv Q T); auto; [unfold onlyT; destruct z1; reflexivity|]. eapply ready_same; [exact X|exact T1|exact Hz].
Qed.

(** ** LinearSU, unweighted *)
Record suTree (x : mx) (nv : nat) (Q : assignment -> Prop) (T : tree) : Prop := {
  su_inc : t_inc (tot_ x) = IncNone; su_le : nv0 + ns <= nv; su_on : On x nv Q; su_wf : wf T; su_under : under nv T; su_P0 : forall a, Q a -> P0 a;
  su_ext : forall a, exists a', agree (nv0 + ns) a a' /\ canon a' T; su_nil : t_has (tot_ x) = false -> T = Nil }.
Definition suBound (x : mx) (Q : assignment -> Prop) (T : tree) (ub : nat) : Prop :=
  (forall a, Q a -> count a allR < ub) /\ (forall a, P0 a -> canon a T -> count a allR < ub -> Q a) /\
  (t_has (tot_ x) = true -> t_outs (tot_ x) = outs T /\ Permutation allR (leaves T) /\ forall a, Q a -> forall c, In c (cells T) -> cellOk ub a c).
Definition suInv (x : mx) : Prop :=
  base x /\ weighted x = false /\ exists nv Q T, suTree x nv Q T /\
    ((nbSat x = 0 /\ t_has (tot_ x) = false /\ (forall a, P0 a -> Q a)) \/ (nbSat x <> 0 /\ best x /\ suBound x Q T (ubCost x))).
Lemma suTree_same : forall x y nv Q T, suTree x nv Q T -> tot_ y = tot_ x -> On y nv Q -> suTree y nv Q T.
Proof. intros x y nv Q T [] E H. constructor; rewrite ?E; auto. Qed.
(** the next bound *)
Lemma suNext_ok : forall x nv Q T c, suTree x nv Q T -> 0 < c -> (t_has (tot_ x) = false /\ (forall a, P0 a -> Q a) \/ (exists ub, c <= ub /\ suBound x Q T ub)) ->
  wpM (h <<- getT t_has ;; if negb h then encodeCardinality n allR (c - 1) else updateCardinality n (c - 1)) x (fun _ y => exists nv' Q' T' t, onlyT x y t /\ suTree y nv' Q' T' /\ suBound y Q' T' c).
Proof.
  intros x nv Q T c [S1 S2 S3 S4 S5 S6 S7 S8] Hc D. apply wpM_bind, wpM_getT. destruct (t_has (tot_ x)) eqn:Eh; cbn [negb].
  - destruct D as [(D1 & _)|(ub & Lu & B1 & B2 & B3)]; [congruence|]. destruct (B3 Eh) as (B4 & B5 & B6). unfold updateCardinality, updateWith. apply wpM_bind, wpM_bind, wpM_getT. rewrite S1. apply wpM_bind, wpM_getT. rewrite B4. apply wpM_bind.
    eapply wpM_mono; [apply (meach_neg n (fun l => l) (skipn (c - 1) (outs T)) x nv Q S3)|]. { rewrite map_id. intros l J. apply (under_outs nv T S5). rewrite <- (firstn_skipn (c - 1) (outs T)). apply in_or_app; auto. }
    cbv beta. intros _ y (Hy & Oy). apply wpM_ret. apply wpM_ret. exists nv, (fun a => Q a /\ forall l, In l (skipn (c - 1) (outs T)) -> lit_true a l = false), T, (tot_ x). split; [apply only_T; auto|]. pose proof (only_tot _ _ Oy) as Ty. split; [constructor; rewrite ?Ty; try assumption; [intros a [X _]; auto|congruence]|]. split; [|split].
    + intros a [X Y]. rewrite (count_perm a _ _ B5). assert (count a (leaves T) <= c - 1); [|lia]. apply (assume_sound a T _ S4).
      * intros ce Ic. apply (cellOk_le _ ub); [lia|]. auto.
      * intros p J. apply in_map_iff in J as (l & <- & J). rewrite lit_neg, Y; auto.
    + intros a X Ca C. split; [apply B2; auto; lia|]. intros l J. rewrite (count_perm a _ _ B5) in C. pose proof (assume_canon a T (c - 1) S4 Ca ltac:(lia) (neg l) (in_map neg _ _ J)) as Z. rewrite lit_neg in Z. destruct (lit_true a l); auto.
    + intros _. rewrite Ty. split; auto. split; auto. intros a [X _] ce Ic. apply (cellOk_le _ ub); auto.
  - eapply wpM_mono; [apply (encode_ok n allR (c - 1) x nv Q S3); auto; apply (below_le (nv0 + ns)); [lia|apply below_allR]|]. cbv beta. intros _ y (t & T' & nv' & Q' & O1 & T1 & Ln & H1 & W & U & Q1 & Q2 & Q3 & Q4 & Q5).
    pose proof (onlyT_tot _ _ _ O1) as Ty. exists nv', Q', T', t. split; auto. split; [constructor; rewrite ?Ty; auto; [lia|intros a X; apply S6, Q1; auto|intros a; destruct (Q3 a) as (a' & A & Ca); exists a'; split; auto; eapply agree_le; [|exact A]; lia]|]. split; [|split].
    + intros a X. apply Q1 in X as [_ X]. lia.
    + intros a X Ca C. apply Q2; auto; [|lia]. destruct D as [(_ & D)|(ub & Lu & B1 & B2 & B3)]; auto. apply B2; auto; [rewrite (S8 eq_refl); exact I|lia].
    + rewrite Ty. intros E. destruct (Q4 E) as (X1 & X2 & X3). split; auto. split; auto. replace c with (c - 1 + 1) by lia. auto.
Qed.
Lemma su_ok : forall k x oc, suInv x -> wpM (suLoop os hd n k allR oc) x post.
Proof.
  induction k as [|k IH]; intros x oc (B & Hw & nv & Q & T & St & D); [apply wpM_stuck|]. cbn [suLoop]. apply wpM_bind.
  pose proof St as [S1 S2 S3 S4 S5 S6 S7 S8]. eapply wpM_mono; [apply (call_ok os n [] x nv Q S3); auto; intros l []|]. cbv beta. intros r y (Ey & Hy & R). destruct (after_f _ _ Ey) as (F1 & F2 & F3 & F4 & F5 & F6 & F7). specialize (F1 B). assert (Wy : weighted y = false) by (rewrite Ey; auto). destruct r as [[]|]; [| |apply cancel_ok; auto].
  - destruct R as (L & Qm & _). apply wpM_bind, wpM_do, wpM_bind, wpM_get. set (y1 := set_nbSat _ y). assert (B1 : base y1) by exact F1. rewrite (costModel_ok nv0 P asm va si y1 B1). cbn [slv y1 set_nbSat]. set (c := cost P _). unfold saveModel. apply wpM_bind, wpM_do. set (y2 := set_mdl _ y1).
    assert (Be : best (set_ubCost c y2)) by (apply (saved_best y1 nv); auto; try lia; apply S6; auto). 
    destruct (Nat.eqb_spec c 0) as [Ec|Nc].
    + apply wpM_bind, wpM_do. apply optimum_ok; [exact F1|exact Be|]. change (ubCost (set_ubCost c y2)) with c. rewrite Ec. intros a _. lia.
    + apply wpM_bind, wpM_get. change (weighted y2) with (weighted y). rewrite Wy. apply wpM_bind.
      assert (N : wpM (h <<- getT t_has ;; if negb h then encodeCardinality n allR (c - 1) else updateCardinality n (c - 1)) y2 (fun _ z => exists nv' Q' T' t, onlyT y2 z t /\ suTree z nv' Q' T' /\ suBound z Q' T' c)).
      { apply (suNext_ok y2 nv Q T c); [eapply suTree_same; [exact St|exact F6|apply (on_slv y); auto]|lia|]. change (tot_ y2) with (tot_ y). rewrite F6. destruct D as [(D1 & D2 & D3)|(D1 & D2 & D3 & D4 & D5)]; [left; auto|right]. exists (ubCost x). split; [|split; [exact D3|split; [exact D4|]]].
        - specialize (D3 _ Qm). pose proof (P0_count nv0 P _ (seq 0 ns) (S6 _ Qm)) as Z. unfold c. rewrite cost_viol by auto. fold allR in Z. lia.
        - change (tot_ y2) with (tot_ y). rewrite F6. auto. }
      assert (Go : forall z nv' Q' T' t, onlyT y2 z t -> suTree z nv' Q' T' -> suBound z Q' T' c -> wpM (mdo (set_ubCost c) ;;> b <<- goOn hd ;; if negb b then mret Cancelled else suLoop os hd n k allR oc) z post).
      { intros z nv' Q' T' t O1 St' Bo. apply wpM_bind, wpM_do, wpM_bind, goOn_ok. set (z1 := set_time _ (set_ubCost c z)). assert (Bz : base z1) by (eapply base_onlyT in O1; [exact O1|exact F1]). intros b. destruct b; cbn [negb]; [|apply cancel_ok; exact Bz]. apply IH. split; [exact Bz|]. split; [change (weighted z1) with (weighted z); unfold onlyT in O1; rewrite O1; exact Wy|].
        exists nv', Q', T'. split; [eapply suTree_same; [exact St'|auto|apply (on_slv z); [auto|apply (su_on _ _ _ _ St')]]|]. right. split; [change (nbSat z1) with (nbSat z); unfold onlyT in O1; rewrite O1; cbn; lia|]. split; [|exact Bo]. unfold MaxAlg.best. change (mdl z1) with (mdl z). unfold onlyT in O1. rewrite O1. exact Be. }
      apply wpM_bind, wpM_getT. unfold wpM at 1, mbind at 1, getT, mget in N. cbv beta iota in N. destruct (negb (t_has (tot_ y2))).
      * apply wpM_bind. eapply wpM_mono; [exact N|]. cbv beta. intros _ z (nv' & Q' & T' & t & O1 & St' & Bo). apply wpM_ret. eapply Go; eauto.
      * apply wpM_bind. eapply wpM_mono; [exact N|]. cbv beta. intros _ z (nv' & Q' & T' & t & O1 & St' & Bo). apply wpM_ret. eapply Go; eauto.
  - destruct R as (Ni & Nc & _). assert (No : forall a, ~ Q a). { intros a Qa. destruct (Nc a Qa) as (q & I & _). destruct (Ni q I). }
    apply wpM_bind, wpM_get. rewrite F3. destruct D as [(D1 & D2 & D3)|(D1 & D2 & D3 & D4 & D5)].
    + rewrite D1. cbn [Nat.eqb]. apply wpM_ret. split; [|exact F1]. apply infeasible_right. intros a Pa. exact (No a (D3 a Pa)).
    + destruct (Nat.eqb_spec (nbSat x) 0); [lia|]. apply optimum_ok; auto. rewrite F5. intros a F. destruct (Nat.le_gt_cases (ubCost x) (cost P a)) as [|Lt]; auto. exfalso. rewrite cost_viol in Lt by auto.
      destruct (S7 (setR nv0 P a)) as (a' & A & Ca). apply (No a'). apply D4; auto; [eapply P0_local; [exact HW|exact A|apply setR_P0; auto]|]. rewrite <- (count_agree (nv0 + ns) (setR nv0 P a) a') by (auto; apply below_allR). unfold MaxAlg.allR. rewrite setR_count. auto.
Qed.

(** ** MSU3: the soft clauses that are active *)
Definition isAct (act : list bool) (i : nat) : bool := nth i act false.
Definition actI (act : list bool) : list nat := filter (isAct act) (seq 0 ns).
Definition pasI (act : list bool) : list nat := filter (fun i => negb (isAct act i)) (seq 0 ns).
Lemma filter_S : forall (f : nat -> bool) k, filter f (seq 1 k) = map S (filter (fun i => f (S i)) (seq 0 k)).
Proof. intros f k. rewrite <- seq_shift. induction (seq 0 k) as [|i l IH]; cbn; auto. rewrite IH. destruct (f (S i)); auto. Qed.
Lemma sel_relaxed : forall (h : softc -> slit) (s : bool -> bool) (sg : bool), (forall c w k, h (Soft c [(k, false)] w (Some (k, false))) = (k, sg)) -> forall ss act k, length act = length ss ->
  map (fun p => h (snd p)) (filter (fun p => s (fst p)) (combine act (relaxed true k ss))) = map (fun i => (k + i, sg)) (filter (fun i => s (isAct act i)) (seq 0 (length ss))).
Proof.
  intros h s sg Hh ss. induction ss as [|wc r IH]; intros act k L; destruct act as [|b act]; try discriminate; auto. cbn [relaxed combine filter fst length seq].
  injection L as L. change (isAct (b :: act) 0) with b. rewrite filter_S. specialize (IH act (S k) L). assert (E : map (fun i => (k + i, sg)) (map S (filter (fun i => s (isAct (b :: act) (S i))) (seq 0 (length r)))) = map (fun i => (S k + i, sg)) (filter (fun i => s (isAct act i)) (seq 0 (length r)))). { rewrite map_map. apply map_ext. intros i. f_equal. lia. }
  destruct (s b); cbn [map snd]; [rewrite Hh, Nat.add_0_r|]; rewrite IH, <- E; reflexivity.
Qed.
Lemma activeObj_ok : forall act, length act = ns -> activeObj act (relaxed true nv0 (p_soft P)) = map rv (actI act).
Proof. intros act L. apply (sel_relaxed relax0 (fun b => b) false); auto. Qed.
Lemma passiveAsm_ok : forall act, length act = ns -> passiveAsm act (relaxed true nv0 (p_soft P)) = map neg (map rv (pasI act)).
Proof. intros act L. unfold passiveAsm. rewrite map_map. apply (sel_relaxed (fun c => neg (asm0 c)) negb true); auto. Qed.
Lemma coreIndex_in : forall ss k j i, i < length ss -> coreIndex (k + i, false) (relaxed true k ss) j = Some (j + i).
Proof.
  induction ss as [|wc r IH]; intros k j i L; [cbn in L; lia|]. cbn [relaxed coreIndex sc_asm length] in *. destruct i as [|i].
  - assert (N : forall ss k' j', k < k' -> coreIndex (k, false) (relaxed true k' ss) j' = None). { clear. induction ss as [|wc r IH]; intros k' j' H; auto. cbn [relaxed coreIndex sc_asm]. rewrite IH by lia. unfold slit_eqb. cbn. destruct (Nat.eqb_spec k k'); auto. lia. }
    rewrite !Nat.add_0_r, N by lia. unfold slit_eqb. cbn. rewrite Nat.eqb_refl. auto.
  - replace (k + S i) with (S k + i) by lia. rewrite IH by lia. f_equal. lia.
Qed.
Lemma coreIndex_out : forall ss k j l i, coreIndex l (relaxed true k ss) j = Some i -> exists i', i = j + i' /\ i' < length ss /\ l = (k + i', false).
Proof.
  induction ss as [|wc r IH]; intros k j l i H; [discriminate|]. cbn [relaxed coreIndex sc_asm] in H. destruct (coreIndex l (relaxed true (S k) r) (S j)) as [m|] eqn:E.
  - inversion H; subst. apply IH in E as (i' & -> & L & ->). exists (S i'). cbn. split; [lia|]. split; [lia|]. f_equal. lia.
  - destruct (slit_eqb l (k, false)) eqn:Q; [|discriminate]. inversion H; subst. exists 0. rewrite !Nat.add_0_r. split; auto. split; [cbn; lia|]. destruct l as [v s]. unfold slit_eqb in Q. cbn in Q. apply andb_prop in Q as [Q1 Q2]. apply Nat.eqb_eq in Q1. apply eqb_prop in Q2. subst. auto.
Qed.
Lemma core_rv : forall i, i < ns -> coreIndex (rv i) (relaxed true nv0 (p_soft P)) 0 = Some i.
Proof. intros i L. exact (coreIndex_in (p_soft P) nv0 0 i L). Qed.
Lemma core_out : forall l i, coreIndex l (relaxed true nv0 (p_soft P)) 0 = Some i -> i < ns /\ l = rv i.
Proof. intros l i H. apply coreIndex_out in H as (i' & -> & L & ->). auto. Qed.
Lemma mark_len : forall i act, i < length act -> length (mark i act) = length act.
Proof. intros i act L. unfold mark. apply Nat.ltb_lt in L as L'. rewrite L'. rewrite app_length, firstn_length. cbn [length]. rewrite skipn_length. lia. Qed.
Lemma mark_act : forall i act j, i < length act -> isAct (mark i act) j = (j =? i) || isAct act j.
Proof.
  intros i act j L. unfold mark, isAct. apply Nat.ltb_lt in L as L'. rewrite L'. clear L'. revert i j L. induction act as [|b act IH]; intros i j L; [cbn in L; lia|]. destruct i as [|i]; cbn.
  - destruct j; auto.
  - destruct j; cbn; auto. apply IH. cbn in L. lia.
Qed.
Lemma marks_ok : forall (A : Type) (f : A -> nat) (l : list A) act, (forall x, In x l -> f x < length act) ->
  length (fold_left (fun act x => mark (f x) act) l act) = length act /\ forall j, isAct (fold_left (fun act x => mark (f x) act) l act) j = existsb (fun x => j =? f x) l || isAct act j.
Proof.
  intros A f l. induction l as [|x r IH]; intros act H; cbn [fold_left existsb]; auto. specialize (H x (or_introl eq_refl)) as Hx. destruct (IH (mark (f x) act)) as [I1 I2].
  - intros y I. rewrite mark_len by auto. apply H; right; auto.
  - rewrite mark_len in I1 by auto. split; auto. intros j. rewrite I2, mark_act by auto. destruct (j =? f x); cbn; auto. rewrite orb_true_r. auto.
Qed.
Lemma filter_split : forall {A} (f : A -> bool) l, Permutation (filter f l ++ filter (fun x => negb (f x)) l) l.
Proof. intros A f l. induction l as [|x l IH]; cbn; auto. destruct (f x); cbn; [constructor; auto|]. etransitivity; [symmetry; apply Permutation_middle|]. constructor; auto. Qed.
Lemma act_perm : forall act, Permutation (actI act ++ pasI act) (seq 0 ns).
Proof. intros act. apply filter_split. Qed.
Lemma nodup_app : forall {A} (l1 l2 : list A), NoDup l1 -> NoDup l2 -> (forall x, In x l1 -> ~ In x l2) -> NoDup (l1 ++ l2).
Proof. intros A l1 l2 H1 H2 D. induction H1 as [|x l N H1 IH]; cbn; auto. constructor; [|apply IH; intros; apply D; right; auto]. intros I. apply in_app_or in I as [I|I]; [auto|]. apply (D x (or_introl eq_refl)); auto. Qed.
(** the core [hits] becomes active *)
Lemma act_grow : forall act act' hits, NoDup hits -> (forall i, In i hits -> In i (pasI act)) -> (forall j, isAct act' j = true <-> In j hits \/ isAct act j = true) -> Permutation (actI act ++ hits) (actI act').
Proof.
  intros act act' hits N H E. apply NoDup_Permutation.
  - apply nodup_app; [apply NoDup_filter, seq_NoDup|auto|]. intros i I J. apply H in J. unfold actI, pasI in *. apply filter_In in I as [_ I], J as [_ J]. rewrite I in J. discriminate.
  - apply NoDup_filter, seq_NoDup.
  - intros i. rewrite in_app_iff. unfold actI. rewrite !filter_In, E. split; [|tauto]. intros [[I1 I2]|I]; auto. split; auto. apply H in I. apply filter_In in I. tauto.
Qed.
Lemma act_nil : forall act, actI act = [] -> pasI act = seq 0 ns.
Proof. intros act. unfold actI, pasI. generalize (seq 0 ns). induction l as [|i l IH]; cbn; auto. destruct (isAct act i); [discriminate|]. cbn. intros H. rewrite IH; auto. Qed.
Lemma in_pas : forall act i, In i (pasI act) <-> i < ns /\ isAct act i = false.
Proof. intros act i. unfold pasI. rewrite filter_In, in_seq, negb_true_iff. split; intros [H1 H2]; split; auto; lia. Qed.

(** ** MSU3 without increments *)
Definition msNoneInv (x : mx) (asms : list slit) (act : list bool) : Prop :=
  asm = true /\ length act = ns /\ t_inc (tot_ x) = IncNone /\ exists nv Q, stage x asms (actI act) (pasI act) [] nv Q.
Lemma msNone_ok : forall k x asms act, msNoneInv x asms act -> wpM (msNoneLoop os hd n k allR asms act) x post.
Proof.
  induction k as [|k IH]; intros x asms act (Ea & La & Ti & nv & Q & St); [apply wpM_stuck|]. cbn [msNoneLoop]. apply wpM_bind. pose proof St as (B & (H & Ln & Be & Q0 & Q1 & Q2) & Pm & Da). destruct (perm_lt _ _ Pm) as [Ha Hp].
  eapply wpM_mono; [apply (call_ok os n asms x nv Q H); auto|].
  { destruct Da as [(_ & -> & _)|(_ & _ & _ & ->)]; [intros l []|apply below_asm; auto]. }
  cbv beta. intros r y (Ey & Hy & R). destruct (after_f _ _ Ey) as (F1 & F2 & F3 & F4 & F5 & F6 & F7). destruct r as [[]|]; [| |apply cancel_ok; auto].
  - destruct R as (L & Qm & Am). apply (sat_branch x y asms _ _ [] nv Q (fun a => msNoneLoop os hd n k allR a act) St Ey Hy L Qm Am). intros z N -> Ec _ Bz Bez Tz Sz Nz Lz L0. apply IH.
    split; auto. split; auto. split; [rewrite Tz; auto|]. exists nv, Q. split; auto. split; [|split; [apply act_perm|right; split; auto; split; auto; split]].
    + split; [apply (on_slv y); auto|]. split; auto. split; auto. split; auto. rewrite Lz. split; auto.
    + rewrite Lz, L0. intros a _. lia.
    + rewrite (act_nil act Ec), app_nil_r. reflexivity.
  - destruct R as (C1 & C2 & _). apply (unsat_branch x y asms _ _ [] nv Q _ St Ey C1 C2). intros z N -> Lb Bz Bez Tz Sz Nz Lz Lu Co. rewrite app_nil_r in C1.
    apply wpM_bind, goOn_ok. intros b. destruct b; cbn [negb]; [|apply cancel_ok; exact Bz]. set (z1 := set_time _ z). apply wpM_bind, wpM_get, wpM_bind, wpM_get. change (slv z1) with (slv z). rewrite Sz. assert (Ez : soft z1 = relaxed true nv0 (p_soft P)) by (destruct Bz as (_ & _ & Bz & _); rewrite Ea in Bz; exact Bz). rewrite Ez.
    set (f := fun l => match coreIndex l (relaxed true nv0 (p_soft P)) 0 with Some i => i | None => 0 end). cbv zeta.
    assert (Cf : forall q, In q (conflict (slv y)) -> exists i, q = rv i /\ In i (pasI act) /\ f q = i).
    { intros q I. apply C1 in I. rewrite map_map in I. apply in_map_iff in I as (i & Ei & Ii). exists i. assert (Eq : q = rv i). { destruct q as [v s]. unfold neg, MaxAlg.rv in *. cbn in Ei. inversion Ei. f_equal. destruct s; auto; discriminate. } split; auto. split; auto. unfold f. rewrite Eq, core_rv; auto. }
    destruct (marks_ok _ f (conflict (slv y)) act) as [M1 M2]. { intros q I. destruct (Cf q I) as (i & _ & Ip & ->). rewrite La. auto. }
    change (fold_left (fun act l => mark match coreIndex l (relaxed true nv0 (p_soft P)) 0 with Some i => i | None => 0 end act) (conflict (slv y)) act) with (fold_left (fun act l => mark (f l) act) (conflict (slv y)) act).
    set (act' := fold_left (fun act l => mark (f l) act) (conflict (slv y)) act) in *. assert (La' : length act' = ns) by congruence.
    set (core := filter (fun i => negb (isAct act i)) (actI act')).
    assert (Pg : Permutation (actI act ++ core) (actI act')).
    { apply act_grow.
      - apply NoDup_filter, NoDup_filter, seq_NoDup.
      - intros i I. unfold core, actI in I. apply filter_In in I as [I1 I2]. apply filter_In in I1 as [I1 _]. apply filter_In. auto.
      - intros j. unfold core, actI. rewrite !filter_In, in_seq. split; [|intros [[[_ J] _]|J]; [auto|rewrite M2, J; apply orb_true_r]].
        intros J. destruct (isAct act j) eqn:E; auto. left. split; auto. split; auto. rewrite M2, E, orb_false_r in J. apply existsb_exists in J as (q & Iq & Eq). apply Nat.eqb_eq in Eq. destruct (Cf q Iq) as (i & _ & Ip & Ef). apply in_pas in Ip as [Ip _]. lia. }
    assert (Lc : lbIn (actI act') (S (lbCost x))).
    { intros a F. rewrite <- (nviol_perm a _ _ Pg). apply Co; auto. intros i Ii Ir. unfold core, actI. apply in_pas in Ii as [I1 I2]. rewrite !filter_In, in_seq, I2. split; [split; [lia|]|auto]. rewrite M2. apply orb_true_intro. left. apply existsb_exists. exists (rv i). split; auto. unfold f. rewrite core_rv by auto. apply Nat.eqb_refl. }
    clearbody act' core. clear Pg core M1 M2 Cf f. apply wpM_bind. eapply wpM_mono; [apply (rebuild_ok nv0 P HW n asm va si 0 z1); [exact Bz|apply ones_le; lia]|].
    cbv beta. intros _ w (Hw & Ow). apply wpM_bind, wpM_get. destruct (only_f _ _ Ow) as (G1 & G2 & _ & G3 & G4). change (lbCost z1) with (lbCost z) in G2. change (nbSat z1) with (nbSat z) in G1. change (tot_ z1) with (tot_ z) in G3. rewrite Lz in G2. rewrite G2, activeObj_ok, passiveAsm_ok by auto. destruct (perm_lt _ _ (act_perm act')) as [Ha' Hp'].
    apply wpM_bind. eapply wpM_mono; [apply (encode_weak (map rv (actI act')) (S (lbCost x)) w (nv0 + ns) P0 Hw); [apply below_rv; auto|rewrite G3, Tz; auto]|].
    cbv beta. intros _ v (t & nv2 & Q2' & O2 & T2 & Ln2 & H2 & S1 & S2). apply IH. split; auto. split; auto. split; [rewrite (onlyT_tot _ _ _ O2); auto|]. exists nv2, Q2'. destruct (onlyT_f _ _ _ O2) as (K1 & K2 & _ & K4).
    split; [eapply base_onlyT; [|exact O2]; eapply base_only; [|exact Ow]; exact Bz|]. rewrite K2, G2. split; [|split; [apply act_perm|right; split; [congruence|]; split; [apply K4, G4; exact Bez|]; split; [exact Lc|rewrite app_nil_r; auto]]].
    split; auto. split; auto. split; [intros l []|]. split; [intros a X; apply S1; auto|]. split; [intros a X _; apply S1; auto|]. intros _ a X C. destruct (S2 a X C) as (a' & A & Qa). exists a'. split; auto. split; auto. intros q [].
Qed.

(** ** MSU3, iterative *)
Lemma nviol_len : forall a l, nviol a l <= length l.
Proof. intros a l. unfold MaxAlg.nviol. induction l as [|i l IH]; cbn; auto. destruct (viol P a i); cbn; lia. Qed.
(** the outputs of the root that are assumed to be false are no relaxation variables *)
Lemma enc_fresh : forall x ls k enc nv Q T i, encoded x ls k enc nv Q T -> 0 < k -> NoDup ls -> (forall l, In l ls -> exists j, l = rv j) -> i < ns -> ~ In (neg (rv i)) enc.
Proof.
  intros x ls k enc nv Q T i [_ [(_ & _ & -> & _)|(R & Pm & -> & _)]] Hk N Hl Hi J; [destruct J|]. destruct R as [R1 R2 R3 R4 R5 R6 R7 Hn U H R8 R9 R10 R11].
  apply in_map_iff in J as (q & Eq & J). assert (q = rv i). { destruct q as [v s]. unfold neg, MaxAlg.rv in *. cbn in Eq. inversion Eq. f_equal. destruct s; auto; discriminate. } subst q.
  apply (In_nth _ _ (0, false)) in J as (m & Lm & Em). rewrite nth_skip in Em. rewrite skipn_length in Lm. destruct (R11 (fun v => v =? nv0 + i)) as (a' & A & C). apply canon_root in C. specialize (C (k + m) ltac:(lia)). pose proof (eq_trans (eq_sym (f_equal (lit_true a') Em)) C) as C0. clear C. rename C0 into C.
  rewrite <- (count_perm a' _ _ Pm) in C. unfold lit_true, MaxAlg.rv in C. cbn [fst snd xorb] in C.
  assert (Cl : count a' ls <= 1).
  { rewrite <- (count_agree (nv0 + ns) (fun v => v =? nv0 + i) a'); [|exact A|intros l I; apply (Permutation_in _ Pm) in I; apply R6; auto]. clear - N Hl. induction ls as [|l r IH]; [cbn; lia|]. inversion N; subst. rewrite count_cons. destruct (lit_true (fun v => v =? nv0 + i) l) eqn:E; [|apply IH; auto; intros; apply Hl; right; auto].
    assert (Z : count (fun v => v =? nv0 + i) r = 0); [|rewrite Z; auto]. destruct (Nat.eq_dec (count (fun v => v =? nv0 + i) r) 0) as [|Z]; auto. exfalso. apply count_pos in Z as (l' & I & E'). destruct (Hl l (or_introl eq_refl)) as (j & ->), (Hl l' (or_intror I)) as (j' & ->). unfold lit_true, MaxAlg.rv in E, E'. cbn in E, E'.
    apply H1. assert (j = j') as ->; auto. destruct (Nat.eqb_spec (nv0 + j) (nv0 + i)), (Nat.eqb_spec (nv0 + j') (nv0 + i)); try discriminate; lia. }
  rewrite <- A in C by lia. cbv beta in C. rewrite Nat.eqb_refl in C. destruct (Nat.ltb_spec (k + m) (count a' ls)); [lia|discriminate].
Qed.
Definition msIterInv (x : mx) (asms : list slit) (act : list bool) : Prop :=
  asm = true /\ length act = ns /\ (t_has (tot_ x) = true -> 0 < lbCost x) /\ exists enc nv Q T, stage x asms (actI act) (pasI act) enc nv Q /\ encoded x (map rv (actI act)) (lbCost x) enc nv Q T.
Lemma rv_inj : forall i j, rv i = rv j -> i = j.
Proof. intros i j H. unfold MaxAlg.rv in H. inversion H. lia. Qed.
Lemma msIter_ok : forall k x asms act, msIterInv x asms act -> wpM (msIterLoop os hd n k allR asms act) x post.
Proof.
  induction k as [|k IH]; intros x asms act (Ea & La & Hh & enc & nv & Q & T & St & En); [apply wpM_stuck|]. cbn [msIterLoop]. apply wpM_bind. pose proof St as (B & (H & Ln & Be & Q0 & Q1 & Q2) & Pm & Da). destruct (perm_lt _ _ Pm) as [Ha Hp].
  eapply wpM_mono; [apply (call_ok os n asms x nv Q H); auto|].
  { destruct Da as [(_ & -> & _)|(_ & _ & _ & ->)]; [intros l []|apply below_asm; auto]. }
  cbv beta. intros r y (Ey & Hy & R). destruct (after_f _ _ Ey) as (F1 & F2 & F3 & F4 & F5 & F6 & F7). destruct r as [[]|]; [| |apply cancel_ok; auto].
  - destruct R as (L & Qm & Am). apply (sat_branch x y asms _ _ enc nv Q (fun a => msIterLoop os hd n k allR a act) St Ey Hy L Qm Am). intros z N -> Ec -> Bz Bez Tz Sz Nz Lz L0. apply IH.
    assert (Ez : encoded z (map rv (actI act)) (lbCost z) [] nv Q T) by (rewrite Lz; eapply encoded_same; [exact En|auto|apply (on_slv y); auto]).
    split; auto. split; auto. split; [rewrite Tz, Lz; auto|]. exists [], nv, Q, T. split; [|exact Ez]. split; auto. split; [eapply encoded_ok; exact Ez|split; [apply act_perm|right; split; auto; split; auto; split]].
    + rewrite Lz, L0. intros a _. lia.
    + rewrite (act_nil act Ec), app_nil_r. reflexivity.
  - destruct R as (C1 & C2 & Nd). apply (unsat_branch x y asms _ _ enc nv Q _ St Ey C1 C2). intros z N -> Lb Bz Bez Tz Sz Nz Lz Lu Co.
    apply wpM_bind, wpM_get, wpM_bind, wpM_get. rewrite Sz. assert (Ez : soft z = relaxed true nv0 (p_soft P)) by (destruct Bz as (_ & _ & Bz & _); rewrite Ea in Bz; exact Bz). rewrite Ez.
    assert (Cn : conflict (slv y) <> []).
    { intros E. destruct (encoded_facts _ _ _ _ _ _ _ En) as (_ & _ & _ & _ & _ & Ex). destruct Bez as (_ & Fz & _). destruct (Ex _ (setR_P0 nv0 P HW _ Fz)) as (a' & _ & Qa & _). destruct (C2 a' Qa) as (q & Iq & _). rewrite E in Iq. destruct Iq. }
    destruct (conflict (slv y)) as [|q0 qr] eqn:Econf; [congruence|]. rewrite <- Econf in *. clear q0 qr Econf.
    apply wpM_bind, goOn_ok. intros b. destruct b; cbn [negb]; [|apply cancel_ok; exact Bz]. set (z1 := set_time _ z). cbv zeta.
    set (hits := flat_map (fun l => match coreIndex l (relaxed true nv0 (p_soft P)) 0 with Some i => [i] | None => [] end) (conflict (slv y))).
    assert (Hi : forall i, In i hits <-> i < ns /\ In (rv i) (conflict (slv y))).
    { intros i. unfold hits. rewrite in_flat_map. split.
      - intros (l & Il & Ii). destruct (coreIndex l _ 0) as [j|] eqn:E; [|destruct Ii]. destruct Ii as [->|[]]. apply core_out in E as [E ->]. auto.
      - intros [L I]. exists (rv i). split; auto. rewrite core_rv by auto. left; auto. }
    assert (Nh : NoDup hits).
    { unfold hits. clear - Nd. induction (conflict (slv y)) as [|l r IH]; cbn [flat_map]; [constructor|]. inversion Nd; subst. destruct (coreIndex l _ 0) as [i|] eqn:E; cbn; [|apply IH; auto]. constructor; [|apply IH; auto]. intros I. apply in_flat_map in I as (l' & I1 & I2). destruct (coreIndex l' _ 0) as [j|] eqn:E'; [|destruct I2]. destruct I2 as [->|[]]. apply core_out in E as [_ ->], E' as [_ ->]. contradiction. }
    assert (Nl : NoDup (map rv (actI act))) by (apply FinFun.Injective_map_NoDup; [intros i j; apply rv_inj|apply NoDup_filter, seq_NoDup]).
    assert (Hpas : forall i, In i hits -> In i (pasI act)).
    { intros i I. apply Hi in I as [I1 I2]. apply C1 in I2. apply in_app_or in I2 as [I2|I2].
      - rewrite map_map in I2. apply in_map_iff in I2 as (j & Ej & Ij). unfold neg, MaxAlg.rv in Ej. cbn in Ej. inversion Ej. replace i with j by lia. auto.
      - exfalso. destruct (t_has (tot_ x)) eqn:Eh; [|destruct En as [_ [(_ & _ & -> & _)|(X & _)]]; [destruct I2|destruct X; congruence]].
        eapply (enc_fresh _ _ _ _ _ _ _ i En (Hh eq_refl) Nl); auto. intros l I. apply in_map_iff in I as (j & <- & _). exists j; auto. }
    destruct (marks_ok _ (fun i => i) hits act) as [M1 M2]. { intros i I. apply Hi in I as [I _]. rewrite La. auto. }
    set (act' := fold_left (fun act i => mark i act) hits act) in *. assert (La' : length act' = ns) by congruence.
    assert (Pg : Permutation (actI act ++ hits) (actI act')).
    { apply act_grow; auto. intros j. rewrite M2, orb_true_iff, existsb_exists. split; intros [X|X]; auto; left; [destruct X as (i & I & E); apply Nat.eqb_eq in E; subst; auto|exists j; split; auto; apply Nat.eqb_refl]. }
    assert (Lc : lbIn (actI act') (S (lbCost x))).
    { intros a F. rewrite <- (nviol_perm a _ _ Pg). apply Co; auto. intros i Ii Ir. apply Hi. apply in_pas in Ii as [Ii _]. auto. }
    assert (Jn : map (fun i => match nth_error (relaxed true nv0 (p_soft P)) i with Some c => relax0 c | None => (0, false) end) hits = map rv hits).
    { apply map_ext_in. intros i I. apply Hi in I as [I _]. clear - I. unfold MaxAlg.ns in I. unfold MaxAlg.rv. revert i I. generalize nv0. induction (p_soft P) as [|wc r IH]; intros m i I; cbn [length] in I; [lia|]. destruct i; cbn [relaxed nth_error]; [rewrite Nat.add_0_r; auto|]. rewrite IH by lia. f_equal. lia. }
    rewrite Jn, activeObj_ok, passiveAsm_ok by auto. destruct (perm_lt _ _ (act_perm act')) as [Ha' Hp'].
    assert (Ll : S (lbCost x) <= length (map rv (actI act'))). { rewrite map_length. destruct Bez as (_ & Fz & _). specialize (Lc _ Fz). pose proof (nviol_len (of_list (mdl z)) (actI act')). lia. }
    clearbody act'. apply wpM_bind, wpM_get, wpM_bind, wpM_get. change (lbCost z1) with (lbCost z). rewrite Lz. assert (T1 : tot_ z1 = tot_ x) by exact Tz. rewrite T1. apply wpM_bind. assert (Hz : On z1 nv Q) by (apply (on_slv y); auto).
    assert (Fin : forall v t enc' nv' Q' T', onlyT z1 v t -> encoded v (map rv (actI act')) (S (lbCost x)) enc' nv' Q' T' -> wpM (msIterLoop os hd n k allR (map neg (map rv (pasI act')) ++ enc') act') v post).
    { intros v t enc' nv' Q' T' O1 Ev. destruct (onlyT_f _ _ _ O1) as (G1 & G2 & _ & G3). change (lbCost z1) with (lbCost z) in G2. change (nbSat z1) with (nbSat z) in G1. assert (Lv : lbCost v = S (lbCost x)) by congruence. rewrite <- Lv in Ev. apply IH. split; auto. split; auto. split; [rewrite Lv; lia|]. exists enc', nv', Q', T'. split; [|exact Ev].
      split; [eapply base_onlyT; [|exact O1]; exact Bz|]. split; [eapply encoded_ok; exact Ev|]. split; [apply act_perm|]. right. split; [congruence|]. split; [apply G3; exact Bez|]. split; [rewrite Lv; exact Lc|auto]. }
    assert (Upd : forall w t nv' Q' T', onlyT z1 w t -> ready w (nv0 + ns) nv' P0 Q' T' -> Permutation (map rv (actI act')) (leaves T') ->
      wpM (incUpdateCardinality n [] (S (lbCost x))) w (fun a v => wpM (msIterLoop os hd n k allR (map neg (map rv (pasI act')) ++ match a with Some a => a | None => [] end) act') v post)).
    { intros w t nv' Q' T' O1 R1 P1. eapply wpM_mono; [apply (update_encoded w _ (S (lbCost x)) nv' Q' T' R1 P1 Ll)|]. cbv beta. intros r v (enc' & Q2' & t' & -> & Ev & Hv & Ov). eapply Fin; [|exact Ev]. eapply onlyT_trans; eauto. }
    destruct (t_has (tot_ x)) eqn:Eh; cbn [negb].
    + destruct En as [Ti [(X & _)|(X & Pm' & _)]]; [congruence|]. assert (Rz : ready z1 (nv0 + ns) nv P0 Q T) by (eapply ready_same; [exact X|exact T1|exact Hz]). destruct hits as [|h0 hr] eqn:Eh0.
      * cbn [map]. apply (Upd z1 (tot_ z1) nv Q T); auto; [unfold onlyT; destruct z1; reflexivity|]. rewrite app_nil_r in Pg. rewrite <- (Permutation_map rv Pg). exact Pm'.
      * rewrite <- Eh0 in *. assert (Eh1 : map rv hits <> []) by (rewrite Eh0; discriminate). clear Eh0. change (incUpdateCardinality n (map rv hits) (S (lbCost x))) with ((match map rv hits with [] => mret tt | _ => join n (map rv hits) (S (lbCost x)) end) ;;> updateWith n (S (lbCost x))).
        destruct (map rv hits) as [|j0 jr] eqn:Ej; [congruence|]. rewrite <- Ej in *. apply wpM_bind. eapply wpM_mono; [apply (join_ready n (map rv hits) (S (lbCost x)) z1 (nv0 + ns) nv P0 Q T Rz); auto; [|lia]|].
        { apply below_rv. intros i I. apply Hi in I. tauto. }
        cbv beta. intros _ w ((T' & nv' & P' & R' & Pm2) & t & O). apply (Upd w t nv' P' T' O R'). rewrite <- (Permutation_map rv Pg), map_app. rewrite <- Pm2. apply Permutation_app_tail. exact Pm'.
    + destruct En as [Ti [(_ & Ce & -> & K0 & -> & -> & _ & Qe)|(X & _)]]; [|destruct X; congruence]. destruct (Nat.eqb_spec (S (lbCost x)) (length (map rv (actI act')))) as [El|Nl']; cbn [negb].
      * apply wpM_ret. apply (Fin z1 (tot_ z1) [] (nv0 + ns) Q Nil); [unfold onlyT; destruct z1; reflexivity|]. split; [rewrite T1; auto|]. left. rewrite T1. split; auto. split; auto. split; auto. split; auto. split; auto. split; auto. split; auto. eapply on_iff; [exact Hz|exact Qe].
      * apply wpM_bind. eapply wpM_mono; [apply (build_ready n (map rv (actI act')) (S (lbCost x)) z1 (nv0 + ns) P0); auto|].
        { eapply on_iff; [exact Hz|exact Qe]. } { apply below_rv; auto. } { rewrite T1; auto. } { rewrite T1; auto. } { lia. }
        cbv beta. intros _ w ((T' & nv' & P' & R' & Pm') & t & O). apply (Upd w t nv' P' T' O R' Pm').
Qed.
End Loop.
