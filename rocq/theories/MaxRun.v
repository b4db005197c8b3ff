(** * MaxSAT: searches, saved states and histories of a solver *)
From Coq Require Import List Bool Arith Lia Permutation Sorted.
From Verif Require Import SatSpec Sat SatProps MaxSpec MaxSat MaxBase MaxTot MaxAlg MaxLoop MaxBmo MaxWbo MaxSym.
Import ListNotations.

Section Run.
Variables (os : nat -> oracle) (hd : nat -> bool) (n : nat).
Hypothesis fair_os : forall i, fair (os i).
Variables (nv0 : nat) (P : problem).
Hypothesis HW : wfP nv0 P.
Hypothesis HO : ones P.
Variables (va : list nat) (si : nat).

(** the state between searches *)
Definition idle (x : mx) : Prop :=
  nbVars x = nv0 /\ hard x = p_hard P /\ soft x = clean (p_soft P) /\ valid x = va /\ stId x = si /\ nbSat x = 0 /\ lbCost x = 0.
(** a search returns a right verdict and leaves these fields *)
Definition done (r : verdict) (y : mx) : Prop := right nv0 P r /\ (exists t, hard y = p_hard P ++ t) /\ (exists t, map sc_lits (soft y) = map snd (p_soft P) ++ t) /\ valid y = va /\ stId y = si.
Lemma lits_relaxed : forall ss asm k, map sc_lits (relaxed asm k ss) = map snd ss.
Proof. induction ss as [|wc r IH]; intros; cbn [relaxed map sc_lits]; auto. f_equal. apply IH. Qed.
Lemma post_done : forall asm r y, post nv0 P asm va si r y -> done r y.
Proof. intros asm r y (R & _ & B1 & B2 & _ & B3 & B4). split; auto. split; [exists []; rewrite app_nil_r; auto|]. split; [exists []; rewrite app_nil_r, B2; apply lits_relaxed|auto]. Qed.
(** from a state between searches to the first call *)
Definition begun (asm : bool) (x : mx) : Prop := base nv0 P asm va si x /\ nbSat x = 0 /\ lbCost x = 0.
Lemma relax_ok : forall asm x, idle x -> nbInit x = nv0 -> wpM (initRelaxation asm) x (fun r y => r = allR nv0 P /\ begun asm y /\ tot_ y = tot_ x /\ weighted y = weighted x).
Proof.
  intros asm x (I1 & I2 & I3 & I4 & I5 & I6 & I7) N. unfold initRelaxation. apply wpM_bind, wpM_get. rewrite I3. apply wpM_bind. eapply wpM_mono; [apply initRelax_ok|]. cbv beta. intros p y [-> ->]. rewrite I1. apply wpM_bind, wpM_do, wpM_ret. cbn [fst snd].
  split; [apply objR|]. split; [|split; reflexivity]. split; [|split; auto]. split; [reflexivity|]. split; [exact I2|]. split; [reflexivity|]. split; [exact N|]. split; auto.
Qed.
Lemma only_keep : forall asm x y, only x y -> begun asm x -> begun asm y /\ tot_ y = tot_ x /\ weighted y = weighted x.
Proof. intros asm x y O B. unfold only in O. rewrite O. split; [exact B|auto]. Qed.
Lemma suNormal_ok : forall k x, idle x -> nbInit x = nv0 -> weighted x = false -> tot_ x = newTot -> wpM (suNormal os hd n k) x done.
Proof.
  intros k x1 I Ni We To. unfold suNormal. apply wpM_bind.
  eapply wpM_mono; [apply (relax_ok false x1); auto|]. cbv beta. intros r y (-> & By & Ty & Wy). apply wpM_bind, wpM_get, wpM_bind. eapply wpM_mono; [apply (rebuild_ok nv0 P HW n false va si 1 y); [apply By|apply ones_le; auto]|].
  cbv beta. intros _ z (Hz & Oz). destruct (only_keep _ _ _ Oz By) as ((Bz & Nz & Lz) & Tz & Wz). eapply wpM_mono; [|apply (post_done false)]. apply su_ok; auto. split; auto. split; [rewrite Wz, Wy; auto|]. rewrite Ty, To in Tz. exists (nv0 + ns P), (P0 nv0 P), Nil. split; [|left; rewrite Tz; auto].
  constructor; auto; try exact Logic.I; [rewrite Tz; auto|]. intros a. exists a. split; [apply agree_refl|exact Logic.I].
Qed.
Lemma suSearch_ok : forall k x, idle x -> curW x = 1 -> wpM (suSearch os hd n k) x done.
Proof.
  intros k x I C. unfold suSearch. apply wpM_bind, wpM_do, wpM_bind, wpM_do, wpM_bind, wpM_do, wpM_bind, wpM_do. cbn [curW set_nbInit set_swc_ set_tot_]. rewrite C. cbn [Nat.eqb]. apply suNormal_ok; try reflexivity; [exact I|destruct I; auto].
Qed.
Lemma suBmo_ones : forall k x, idle x -> curW x = 1 -> wpM (suBmo os hd n k) x done.
Proof.
  intros k x I C. unfold suBmo. apply wpM_bind, wpM_do, wpM_bind, wpM_do, wpM_bind, wpM_do, wpM_bind, wpM_get. cbn [curW set_nbInit set_swc_ set_tot_]. rewrite C. cbn [Nat.eqb]. apply wpM_bind, wpM_bind, wpM_do, wpM_ret, wpM_bind, wpM_get. cbn [weighted set_weighted andb]. apply suNormal_ok; try reflexivity; [exact I|destruct I; auto].
Qed.
(** the state before the first call of LinearUS and MSU3 *)
Lemma start_ok : forall inc (K : list slit -> M verdict) x, idle x ->
  (forall y, begun true y -> On y (nv0 + ns P) (P0 nv0 P) -> tot_ y = t_set_inc inc newTot -> wpM (K (allR nv0 P)) y (post nv0 P true va si)) ->
  wpM (mdo (set_tot_ newTot) ;;> mdo (fun x => set_nbInit (nbVars x) x) ;;> obj <<- initRelaxation true ;; rebuildSolver n 0 ;;> setT (t_set_inc inc) ;;> K obj) x done.
Proof.
  intros inc K x I H. apply wpM_bind, wpM_do, wpM_bind, wpM_do. set (x1 := set_nbInit _ _). apply wpM_bind. eapply wpM_mono; [apply (relax_ok true x1); [exact I|destruct I; auto]|]. cbv beta. intros r y (-> & By & Ty & Wy). apply wpM_bind. eapply wpM_mono; [apply (rebuild_ok nv0 P HW n true va si 0 y); [apply By|apply ones_le; auto]|].
  cbv beta. intros _ z (Hz & Oz). destruct (only_keep _ _ _ Oz By) as ((Bz & Nz & Lz) & Tz & Wz). apply wpM_bind, wpM_setT. eapply wpM_mono; [|apply (post_done true)]. apply H.
  - split; [exact Bz|auto].
  - apply (on_slv z); auto.
  - cbn [tot_ set_tot_]. rewrite Tz, Ty. reflexivity.
Qed.
Lemma start_stage : forall y, begun true y -> On y (nv0 + ns P) (P0 nv0 P) -> tot_ y = t_set_inc IncIterative newTot -> encoded nv0 P y (map (rv nv0) []) (lbCost y) [] (nv0 + ns P) (P0 nv0 P) Nil.
Proof. intros y (B & N & L) H T. split; [rewrite T; auto|]. left. rewrite T, L. split; auto. split; auto. split; auto. split; auto. split; auto. split; auto. split; auto. intros a. reflexivity. Qed.
Lemma usSearch_ok : forall inc k x, idle x -> wpM (usSearch os hd n inc k) x done.
Proof.
  intros inc k x I. unfold usSearch. apply (start_ok inc (fun obj => match inc with IncNone => usNoneLoop os hd n k obj | IncIterative => usIterLoop os hd n k obj [] end)); auto. intros y B H T. pose proof B as (B1 & N & L). destruct inc.
  - apply usNone_ok; auto. split; auto. split; [rewrite T; auto|]. exists (nv0 + ns P), (P0 nv0 P). split; auto. split; auto. split; auto. left. split; auto. split; auto. intros a X. exists a. split; [apply agree_refl|auto].
  - apply usIter_ok; auto. pose proof (start_stage y B H T) as E. exists [], (seq 0 (ns P)), [], (nv0 + ns P), (P0 nv0 P), Nil. split; [|split; [exact E|left; rewrite T; auto]]. split; auto. split; [eapply encoded_ok; [exact HW|exact E]|]. split; [apply Permutation_refl|left; auto 10].
Qed.
Lemma act_none : forall k, actI P (repeat false k) = [].
Proof. intros k. unfold actI. assert (G : forall i, isAct (repeat false k) i = false). { intros i. unfold isAct. revert i. induction k; intros [|i]; cbn; auto. } induction (seq 0 (ns P)) as [|i l IH]; cbn; auto. rewrite G. auto. Qed.
Lemma msSearch_ok : forall inc k x, idle x -> wpM (msSearch os hd n inc k) x done.
Proof.
  intros inc k x I. unfold msSearch. apply (start_ok inc (fun obj => m <<- mget (fun x => length (soft x)) ;; match inc with IncNone => msNoneLoop os hd n k obj [] (repeat false m) | IncIterative => msIterLoop os hd n k obj [] (repeat false m) end)); auto. intros y B H T. pose proof B as (B1 & N & L).
  apply wpM_bind, wpM_get. replace (length (soft y)) with (ns P) by (destruct B1 as (_ & _ & -> & _); rewrite len_relaxed; auto). destruct inc.
  - apply msNone_ok; auto. split; auto. split; [apply repeat_length|]. split; [rewrite T; auto|]. exists (nv0 + ns P), (P0 nv0 P). split; auto. rewrite act_none. split; [|split; [rewrite <- act_none with (k := ns P); apply act_perm|left; auto 10]].
    split; auto. split; auto. split; [intros l []|]. split; auto. split; [intros a _ _; cbn; lia|]. intros _ a X _. exists a. split; [apply agree_refl|]. split; auto; try (intros q []).
  - apply msIter_ok; auto. pose proof (start_stage y B H T) as E. split; auto. split; [apply repeat_length|]. split; [rewrite T; discriminate|]. exists [], (nv0 + ns P), (P0 nv0 P), Nil. rewrite act_none. split; [|exact E]. split; auto. split; [eapply encoded_ok; [exact HW|exact E]|]. split; [rewrite <- act_none with (k := ns P); apply act_perm|left; auto 10].
Qed.
End Run.

(** ** The search for BMO problems *)
Lemma weights_clean : forall ss, map sc_weight (clean ss) = map fst ss.
Proof. intros ss. unfold clean. rewrite map_map. auto. Qed.
Lemma insertD_in : forall w v l, In v (insertD w l) <-> v = w \/ In v l.
Proof. intros w v l. induction l as [|y r IH]; cbn; [intuition|]. destruct (y <=? w); cbn; [intuition|]. rewrite IH. intuition. Qed.
Lemma sortD_in : forall v l, In v (sortD l) <-> In v l.
Proof. intros v l. induction l as [|y r IH]; cbn; [tauto|]. unfold sortD in *. rewrite insertD_in, IH. intuition. Qed.
Lemma sortD_sorted : forall l, NoDup l -> StronglySorted gt (sortD l).
Proof.
  intros l N. induction N as [|w l H N IH]; cbn; [constructor|]. change (fold_right insertD [] l) with (sortD l). assert (Hw : ~ In w (sortD l)) by (rewrite sortD_in; auto). clear H N. induction IH as [|y r S IH' F]; cbn; [repeat constructor|].
  destruct (Nat.leb_spec y w) as [L|L].
  - assert (y <> w) by (intros ->; apply Hw; left; auto). constructor; [constructor; auto|]. constructor; [lia|]. rewrite Forall_forall in *. intros v I. specialize (F v I). lia.
  - constructor; [apply IH'; intros I; apply Hw; right; auto|]. rewrite Forall_forall in *. intros v I. apply insertD_in in I as [->|I]; [lia|auto].
Qed.
Lemma weight_lev : forall P w, In w (map fst (p_soft P)) <-> 0 < length (lev P w).
Proof.
  intros P w. split.
  - intros I. apply in_map_iff in I as (wc & <- & I). apply In_nth_error in I as (i & E). assert (J : In i (lev P (fst wc))). { apply filter_In. split; [apply in_seq; split; [lia|]; apply nth_error_Some; congruence|]. unfold wtS. rewrite E. apply Nat.eqb_refl. } destruct (lev P (fst wc)); [destruct J|cbn; lia].
  - intros L. destruct (lev P w) as [|i l] eqn:E; [cbn in L; lia|]. assert (J : In i (lev P w)) by (rewrite E; left; auto). apply lev_lt in J as [J1 J2]. unfold wtS in J2. destruct (nth_error (p_soft P) i) as [wc|] eqn:En; [|apply nth_error_None in En; unfold ns in J1; lia]. apply in_map_iff. exists wc. split; auto. eapply nth_error_In; eauto.
Qed.
Lemma nb_lev : forall P w, nbWeight (clean (p_soft P)) w = length (lev P w).
Proof.
  intros P w. unfold nbWeight, lev, ns, clean. induction (p_soft P) as [|wc r IH]; auto. cbn [map filter sc_weight length seq]. rewrite filter_S. change (wtS (wc :: r) 0) with (fst wc). destruct wc as [v ls]. cbn [fst snd] in *. destruct (v =? w); cbn [length]; rewrite map_length; [f_equal|]; exact IH.
Qed.
Lemma check_ok : forall P, bmo P -> forall ws pre, StronglySorted gt (pre ++ ws) -> (forall i, i < ns P -> In (wtS (p_soft P) i) (pre ++ ws)) -> (forall v, In v (pre ++ ws) -> 0 < length (lev P v)) ->
  bmoCheck (clean (p_soft P)) ws (list_sum (map (fun w => w * nbWeight (clean (p_soft P)) w) ws)) = true.
Proof.
  intros P HB. induction ws as [|w ws IH]; intros pre S A N; auto. cbn [bmoCheck map]. rewrite ls_cons. replace (w * nbWeight (clean (p_soft P)) w + list_sum (map (fun w => w * nbWeight (clean (p_soft P)) w) ws) - w * nbWeight (clean (p_soft P)) w) with (list_sum (map (fun w => w * nbWeight (clean (p_soft P)) w) ws)) by lia.
  assert (L : list_sum (map (fun w => w * nbWeight (clean (p_soft P)) w) ws) <= w). { rewrite (sum_ext _ (fun v => v * length (lev P v))) by (intros; rewrite nb_lev; auto). apply (bmo_levels P HB pre); auto. apply N, in_or_app; right; left; auto. }
  apply Nat.ltb_ge in L. rewrite L. apply (IH (pre ++ [w])); rewrite <- app_assoc; auto.
Qed.
Section Bmo.
Variables (os : nat -> oracle) (hd : nat -> bool) (n : nat).
Hypothesis fair_os : forall i, fair (os i).
Variables (nv0 : nat) (P : problem).
Hypothesis HW : wfP nv0 P.
Hypothesis HB : bmo P.
Hypothesis HN : forall wc, In wc (p_soft P) -> snd wc <> [].
Hypothesis HP : forall wc, In wc (p_soft P) -> 1 <= fst wc.
Variables (va : list nat) (si : nat).
Lemma suBmo_ok : forall k x, idle nv0 P va si x -> orderW x = [] -> curW x <> 1 -> p_soft P <> [] -> weighted x = true -> wpM (suBmo os hd n k) x (done nv0 P va si).
Proof.
  intros k x I Ow C Ne We. unfold suBmo. apply wpM_bind, wpM_do, wpM_bind, wpM_do, wpM_bind, wpM_do, wpM_bind, wpM_get. cbn [curW set_nbInit set_swc_ set_tot_]. apply Nat.eqb_neq in C. rewrite C. set (x1 := set_nbInit _ _). apply wpM_bind. unfold isBmo. apply wpM_bind, wpM_get, wpM_bind, wpM_get. change (orderW x1) with (orderW x). change (soft x1) with (soft x). rewrite Ow. replace (soft x) with (clean (p_soft P)) by (symmetry; apply I). cbn [app]. rewrite weights_clean.
  set (ws := sortD (nodup Nat.eq_dec (map fst (p_soft P)))). assert (Sw : StronglySorted gt ws) by (apply sortD_sorted, NoDup_nodup). assert (Iw : forall v, In v ws <-> In v (map fst (p_soft P))) by (intros v; unfold ws; rewrite sortD_in, nodup_In; tauto).
  assert (Al : forall i, i < ns P -> In (wtS (p_soft P) i) ws). { intros i L. apply Iw. unfold wtS. destruct (nth_error (p_soft P) i) as [wc|] eqn:E; [apply in_map; eapply nth_error_In; eauto|apply nth_error_None in E; unfold ns in L; lia]. }
  match goal with |- context [sortD ?l] => change (sortD l) with ws end. apply wpM_bind, wpM_do, wpM_ret. rewrite (check_ok P HB ws []); auto; [|intros v J; apply weight_lev, Iw; auto]. apply wpM_bind, wpM_get. change (weighted (set_orderW ws x1)) with (weighted x). rewrite We. cbn [andb]. unfold bmoSearch. apply wpM_bind.
  eapply wpM_mono; [eapply (wpM_and (initRelaxation false) _ _ (fun _ y => orderW y = ws))|].
  { apply (relax_ok nv0 P va si false (set_orderW ws x1)); [exact I|destruct I; auto]. }
  { unfold initRelaxation. apply wpM_bind, wpM_get. replace (soft (set_orderW ws x1)) with (clean (p_soft P)) by (symmetry; apply I). apply wpM_bind. eapply wpM_mono; [apply initRelax_ok|]. cbv beta. intros p y [-> ->]. apply wpM_bind, wpM_do, wpM_ret. reflexivity. }
  cbv beta. intros r y ((-> & (By & Ny & Ly) & Ty & _) & Oy). apply wpM_bind, wpM_get. rewrite Oy. clear Oy. destruct ws as [|w ws'] eqn:Ew.
  { exfalso. destruct (p_soft P) as [|wc r]; [congruence|]. apply (Iw (fst wc)). left; auto. }
  assert (Pos : forall v, In v (w :: ws') -> 0 < length (lev P v) /\ 0 < v). { intros v J. apply Iw in J. split; [apply weight_lev; auto|]. apply in_map_iff in J as (wc & <- & J). apply HP in J. lia. }
  apply wpM_bind. eapply wpM_mono; [apply (rebuildBMO_ok n nv0 P HW va si [] w y); auto; [apply Pos; left; auto|rewrite Ty; reflexivity]|]. cbv beta. intros obj z (-> & t & nv & Q & O & T & Ln & H & Q1 & Q2). apply wpM_bind, wpM_do. destruct (onlyT_f nv0 P _ _ _ O) as (F1 & F2 & _).
  eapply wpM_mono; [|apply (post_done nv0 P va si false)]. apply (bmoLoop_ok os hd n fair_os nv0 P HW HB HN va si k _ [] w ws' 0). split; [pose proof (base_onlyT nv0 P _ _ _ _ _ _ By O) as X; exact X|]. split; [cbn; rewrite (onlyT_tot _ _ _ O); auto|]. split; [constructor; auto; apply lexopt_nil|]. split; [cbn; lia|].
  exists nv, Q. split; auto. split; [exact H|]. split; auto. split; [left; auto|]. split; [|congruence]. intros _. left. split; [cbn; lia|congruence].
Qed.
End Bmo.

(** ** Saved states *)
Lemma weights_lits : forall (ss : list (nat * list (nat * bool))) cs t, map sc_lits cs = map snd ss ++ t -> length (firstn (length ss) cs) = length ss /\ map (fun p => Soft (sc_lits (fst p)) [] (snd p) None) (combine (firstn (length ss) cs) (map fst ss)) = clean ss.
Proof.
  induction ss as [|wc r IH]; intros cs t H; [split; reflexivity|]. destruct cs as [|c cs]; [discriminate|]. cbn [map app] in H. injection H as H1 H2. destruct (IH cs t H2) as [E1 E2]. cbn [length firstn map combine clean fst snd]. split; [f_equal; exact E1|]. unfold clean in E2. f_equal; [f_equal; exact H1|exact E2].
Qed.
Lemma lastPos_None : forall v l i, ~ In v l -> lastPos v l i = None.
Proof. induction l as [|y r IH]; intros i H; cbn; auto. rewrite IH by (intros I; apply H; right; auto). destruct (Nat.eqb_spec v y); auto. subst. exfalso; apply H; left; auto. Qed.
Lemma lastPos_last : forall v l i, lastPos v (l ++ [v]) i = Some (i + length l).
Proof. induction l as [|y r IH]; intros i; cbn; [rewrite Nat.eqb_refl; f_equal; lia|]. rewrite IH. f_equal. lia. Qed.
Lemma lastPos_Some : forall v l i j, lastPos v l i = Some j -> exists p q, l = p ++ v :: q /\ j = i + length p.
Proof.
  induction l as [|y r IH]; intros i j H; cbn in H; [discriminate|]. destruct (lastPos v r (S i)) as [m|] eqn:E.
  - inversion H; subst. apply IH in E as (p & q & -> & ->). exists (y :: p), q. cbn. split; auto; lia.
  - destruct (Nat.eqb_spec v y); [|discriminate]. inversion H; subst. exists [], r. cbn. split; auto; lia.
Qed.

Lemma firstn_app_exact : forall {A} (l t : list A), firstn (length l) (l ++ t) = l.
Proof. intros A l t. rewrite firstn_app, Nat.sub_diag, firstn_all. cbn. apply app_nil_r. Qed.
(** ** One search of the solver *)
Lemma inner_ok : forall hd search x nv0 P r y, wfP nv0 P -> idle nv0 P (valid x) (stId x) x -> orderW x = [] ->
  (forall x', idle nv0 P (valid x ++ [stId x]) (S (stId x)) x' -> curW x' = curW x -> weighted x' = weighted x -> orderW x' = [] -> wpM search x' (done nv0 P (valid x ++ [stId x]) (S (stId x)))) ->
  innerSearch hd search x <> MPanic /\
  (innerSearch hd search x = MRet r y -> right nv0 P r /\ (r <> Cancelled -> idle nv0 P (valid x ++ [stId x]) (S (stId x)) y /\ curW y = curW x /\ orderW y = [])).
Proof.
  intros hd search x nv0 P r y HW I Ow H.
  assert (G : wpM (innerSearch hd search) x (fun r y => right nv0 P r /\ (r <> Cancelled -> idle nv0 P (valid x ++ [stId x]) (S (stId x)) y /\ curW y = curW x /\ orderW y = []))).
  { unfold innerSearch. apply wpM_bind, goOn_ok. intros b. destruct b; cbn [negb]; [|apply wpM_ret; split; [exact Logic.I|congruence]]. apply wpM_bind. unfold msave, wpM at 1. cbn [stId set_time nbVars hard soft ubCost curW valid]. apply wpM_bind.
    destruct I as (I1 & I2 & I3 & I4 & I5 & I6 & I7). eapply wpM_mono; [apply H; [|reflexivity|reflexivity|exact Ow]; split; [exact I1|]; split; [exact I2|]; split; [exact I3|]; split; auto|]. cbv beta. intros r0 z (R & (th & D1) & (ts & D2) & D3 & D4). destruct (weights_lits (p_soft P) _ _ D2) as [D5 D6].
    apply wpM_bind, goOn_ok. intros b. destruct b; cbn [negb]; [|apply wpM_ret; split; [exact Logic.I|congruence]]. apply wpM_bind. unfold mload, wpM at 1. cbn [ms_id valid set_time soft ms_soft ms_weights hard]. rewrite D3, lastPos_last, I3.
    assert (Ln : length (clean (p_soft P)) = length (p_soft P)) by (unfold clean; apply map_length). rewrite Ln. rewrite weights_clean, map_length, D5, Nat.ltb_irrefl. apply wpM_ret. split; auto. intros _. split; [|split; reflexivity].
    split; [exact I1|]. cbn [hard soft valid stId nbSat lbCost ms_hard set_time]. rewrite I2, D1. split; [apply firstn_app_exact|]. split; [exact D6|]. split; [rewrite firstn_all2; auto; rewrite app_length; cbn; lia|]. split; auto. }
  unfold wpM in G. destruct (innerSearch hd search x) as [r' y'| |]; [|destruct G|split; congruence]. split; [congruence|]. intros E. inversion E; subst. exact G.
Qed.
(** the largest weight, at least 1 *)
Definition maxW (ss : list (nat * list slit)) : nat := fold_left (fun m wc => if m <? fst wc then fst wc else m) ss 1.
Lemma maxW_one : forall ss, (forall wc, In wc ss -> fst wc = 1) -> maxW ss = 1.
Proof. intros ss H. unfold maxW. induction ss as [|wc r IH]; cbn; auto. rewrite (H wc) by (left; auto). cbn. apply IH. intros; apply H; right; auto. Qed.
Lemma maxW_le : forall ss wc, In wc ss -> fst wc <= maxW ss.
Proof.
  intros ss wc I. unfold maxW. assert (G : forall (ss : list (nat * list slit)) m, m <= fold_left (fun m (wc : nat * list slit) => if m <? fst wc then fst wc else m) ss m /\ forall x, In x ss -> fst x <= fold_left (fun m (wc : nat * list slit) => if m <? fst wc then fst wc else m) ss m).
  { clear. induction ss as [|y r IH]; intros m; [split; [cbn; auto|intros ? []]|]. cbn [fold_left].
    assert (L : m <= (if m <? fst y then fst y else m) /\ fst y <= (if m <? fst y then fst y else m)) by (destruct (Nat.ltb_spec m (fst y)); lia). destruct (IH (if m <? fst y then fst y else m)) as [G1 G2]. split; [eapply Nat.le_trans; [apply L|exact G1]|]. intros x [<-|J]; [eapply Nat.le_trans; [apply L|exact G1]|auto]. }
  apply (G ss 1); auto.
Qed.
(** the problems that are covered: with all weights 1, for WBO without symmetry breaking all problems, and for LinearSU with BMO also those of Boolean multilevel optimization *)
Definition fits (alg : algo) (P : problem) : Prop := unweighted P \/ (exists ws, alg = WBO false ws) \/ (alg = LinearBMO /\ bmo P /\ forall wc, In wc (p_soft P) -> snd wc <> []).
Lemma run_ok : forall os hd n alg x nv0 P r y, (forall i, fair (os i)) -> wfP nv0 P -> fits alg P -> (forall wc, In wc (p_soft P) -> 1 <= fst wc) -> curW x = maxW (p_soft P) -> weighted x = negb (curW x =? 1) -> orderW x = [] -> idle nv0 P (valid x) (stId x) x ->
  runAlgo os hd n alg x <> MPanic /\
  (runAlgo os hd n alg x = MRet r y -> right nv0 P r /\ (r <> Cancelled -> idle nv0 P (valid x ++ [stId x]) (S (stId x)) y /\ curW y = curW x /\ orderW y = [])).
Proof.
  intros os hd n alg x nv0 P r y F HW Fi HP C W Ow I.
  assert (O1 : curW x = 1 -> ones P) by (intros E wc J; specialize (HP wc J); pose proof (maxW_le _ _ J) as L; rewrite <- C, E in L; apply Nat.le_antisymm; [exact L|exact HP]).
  assert (Wb : (exists ws, alg = WBO false ws) -> runAlgo os hd n alg x <> MPanic /\ (runAlgo os hd n alg x = MRet r y -> right nv0 P r /\ (r <> Cancelled -> idle nv0 P (valid x ++ [stId x]) (S (stId x)) y /\ curW y = curW x /\ orderW y = []))).
  { intros [ws ->]. cbn [runAlgo]. apply inner_ok; auto. intros x' (J1 & J2 & J3 & J4 & J5 & J6 & J7) C' W' _. apply (wboPlain_ok os hd n ws nv0 P _ _ F HW HP (weighted x)); auto; [|rewrite C'; auto]. rewrite W. intros Q. apply negb_false_iff, Nat.eqb_eq in Q. apply O1; auto. }
  assert (D : (ones P /\ curW x = 1) \/ (exists ws, alg = WBO false ws) \/ (alg = LinearBMO /\ bmo P /\ (forall wc, In wc (p_soft P) -> snd wc <> []) /\ curW x <> 1 /\ p_soft P <> [])).
  { destruct Fi as [O|[Ea|(Ea & HB & HN)]]; [left; split; auto; rewrite C; apply maxW_one; auto|auto|]. destruct (Nat.eq_dec (curW x) 1) as [E|N]; [left; split; auto|]. right. right. split; auto. split; auto. split; auto. split; auto. intros E. apply N. rewrite C, E. reflexivity. }
  destruct D as [(HO & C1)|[Ea|(-> & HB & HN & Nc & Ne)]].
  - assert (W' := W). rewrite C1 in W'. cbn [Nat.eqb negb] in W'. destruct alg as [| |i|i|[] ws]; [| | | | |apply Wb; exists ws; reflexivity]; cbn [runAlgo].
    + apply inner_ok; auto. intros x' I' C' _ _. apply suSearch_ok; auto. congruence.
    + apply inner_ok; auto. intros x' I' C' _ _. apply suBmo_ones; auto. congruence.
    + unfold mbind, mget. rewrite W'. apply inner_ok; auto. intros x' I' C' _ _. apply usSearch_ok; auto.
    + unfold mbind, mget. rewrite W'. apply inner_ok; auto. intros x' I' C' _ _. apply msSearch_ok; auto.
    + apply inner_ok; auto. intros x' (J1 & J2 & J3 & J4 & J5 & J6 & J7) C' W'' _. apply wboSym_ok; auto; congruence.
  - auto.
  - cbn [runAlgo]. apply inner_ok; auto. intros x' I' C' W' O'. apply suBmo_ok; auto; [congruence|]. rewrite W', W. apply Nat.eqb_neq in Nc. rewrite Nc. auto.
Qed.

(** ** Histories of a solver *)
Definition grow (P : problem) (hs : list (list (nat * bool))) (ss : list (nat * list (nat * bool))) : problem := Problem (p_hard P ++ hs) (p_soft P ++ ss).
(** The solver [s] of the algorithm [alg] was used correctly and now holds the problem [P] over [nv] variables. [H] are the
    saved states, each with the problem that the solver held when it was saved. Solve is called on problems that fit the algorithm and not cancelled. *)
Inductive reach (alg : algo) : msolver -> nat -> problem -> list (mstate * (nat * problem)) -> Prop :=
| r_new : reach alg newSolverM 0 (Problem [] []) []
| r_var : forall s nv P H, reach alg s nv P H -> reach alg (sVar s) (S nv) P H
| r_drop : forall s nv P H, reach alg s nv P H -> reach alg (sDrop s) nv P H
| r_hard : forall s nv P H c, reach alg s nv P H -> (forall l, In l c -> fst l < nv) -> reach alg (sHard c s) nv (grow P [c] []) H
| r_soft : forall s nv P H w c, reach alg s nv P H -> 1 <= w -> (forall l, In l c -> fst l < nv) -> reach alg (sSoft w c s) nv (grow P [] [(w, c)]) H
| r_solve : forall s nv P H os hd n v s', reach alg s nv P H -> fits alg P -> (forall i, fair (os i)) -> sSolve os hd n alg s = Some (v, s') -> v <> Cancelled -> reach alg s' nv P H
| r_save : forall s nv P H st s', reach alg s nv P H -> sSave s = Some (st, s') -> reach alg s' nv P ((st, (nv, P)) :: H)
| r_load : forall s nv P H st nv' P' s', reach alg s nv P H -> In (st, (nv', P')) H -> sLoad st s = Some (true, s') -> reach alg s' nv' P' H
| r_stale : forall s nv P H st q s', reach alg s nv P H -> In (st, q) H -> sLoad st s = Some (false, s') -> reach alg s' nv P H.

Definition prefix {A} (l1 l2 : list A) : Prop := exists r, l2 = l1 ++ r.
Definition sub (p q : nat * problem) : Prop := fst p <= fst q /\ prefix (p_hard (snd p)) (p_hard (snd q)) /\ prefix (p_soft (snd p)) (p_soft (snd q)).
Lemma prefix_refl : forall {A} (l : list A), prefix l l.
Proof. intros. exists []. rewrite app_nil_r. auto. Qed.
Lemma prefix_trans : forall {A} (l1 l2 l3 : list A), prefix l1 l2 -> prefix l2 l3 -> prefix l1 l3.
Proof. intros A l1 l2 l3 (r & ->) (t & ->). exists (r ++ t). rewrite app_assoc. auto. Qed.
Lemma sub_refl : forall p, sub p p.
Proof. intros p. split; auto. split; apply prefix_refl. Qed.
Lemma sub_trans : forall p q r, sub p q -> sub q r -> sub p r.
Proof. intros p q r (A1 & A2 & A3) (B1 & B2 & B3). split; [lia|]. split; eapply prefix_trans; eauto. Qed.
Definition matches (st : mstate) (nv : nat) (P : problem) : Prop :=
  ms_vars st = nv /\ ms_hard st = length (p_hard P) /\ ms_soft st = length (p_soft P) /\ ms_weights st = map fst (p_soft P) /\ ms_curW st = maxW (p_soft P).
Record inv (s : msolver) (nv : nat) (P : problem) (H : list (mstate * (nat * problem))) : Prop := {
  iv_idle : idle nv P (valid (m_alg s)) (stId (m_alg s)) (m_alg s); iv_curW : curW (m_alg s) = maxW (p_soft P); iv_wf : wfP nv P;
  iv_res : forall v, m_result s = Some v -> v = Cancelled \/ right nv P v;
  iv_nc : m_result s <> Some Cancelled; iv_pos : forall wc, In wc (p_soft P) -> 1 <= fst wc; iv_ow : orderW (m_alg s) = [];
  iv_sorted : StronglySorted lt (valid (m_alg s)); iv_lt : forall i, In i (valid (m_alg s)) -> i < stId (m_alg s);
  iv_saved : forall st nv' P', In (st, (nv', P')) H -> ms_id st < stId (m_alg s) /\ matches st nv' P' /\ wfP nv' P' /\ (In (ms_id st) (valid (m_alg s)) -> sub (nv', P') (nv, P));
  iv_ord : forall st1 p1 st2 p2, In (st1, p1) H -> In (st2, p2) H -> In (ms_id st1) (valid (m_alg s)) -> In (ms_id st2) (valid (m_alg s)) -> ms_id st1 <= ms_id st2 -> sub p1 p2 }.
Lemma wfP_grow : forall nv P hs ss, wfP nv P -> (forall c, In c hs -> below nv c) -> (forall wc, In wc ss -> below nv (snd wc)) -> wfP nv (grow P hs ss).
Proof. intros nv P hs ss [W1 W2] H1 H2. split; cbn; intros c I; apply in_app_or in I as [I|I]; auto. Qed.
Lemma sorted_app : forall l v, StronglySorted lt l -> (forall i, In i l -> i < v) -> StronglySorted lt (l ++ [v]).
Proof. intros l v S H. induction S as [|a l S IH F]; cbn; [repeat constructor|]. constructor; [apply IH; intros; apply H; right; auto|]. apply Forall_app. split; auto. constructor; auto. apply H; left; auto. Qed.
Lemma sorted_firstn : forall l k, StronglySorted lt l -> StronglySorted lt (firstn k l).
Proof. intros l k S. revert k. induction S as [|a l S IH F]; intros [|k]; cbn; constructor; auto. rewrite Forall_forall in *. intros i I. apply F. rewrite <- (firstn_skipn k l). apply in_or_app; auto. Qed.
(** a changed problem *)
Lemma inv_step : forall s nv P H x nv2 P2, inv s nv P H -> sub (nv, P) (nv2, P2) -> wfP nv2 P2 -> valid x = valid (m_alg s) -> stId x = stId (m_alg s) -> idle nv2 P2 (valid x) (stId x) x -> curW x = maxW (p_soft P2) -> (forall wc, In wc (p_soft P2) -> 1 <= fst wc) -> orderW x = [] -> inv (MSolver x None) nv2 P2 H.
Proof.
  intros s nv P H x nv2 P2 [I1 I2 I3 I4 I5 Ip Io I6 I7 I8 I9] Su W V St Id C Po Or. constructor; cbn [m_alg m_result]; auto; try congruence; try (rewrite V; exact I6).
  - rewrite V, St. auto.
  - intros st nv' P' J. destruct (I8 _ _ _ J) as (J1 & J2 & J3 & J4). rewrite V, St. split; auto. split; auto. split; auto. intros K. eapply sub_trans; eauto.
  - rewrite V. exact I9.
Qed.
Lemma reach_inv : forall alg s nv P H, reach alg s nv P H -> inv s nv P H.
Proof.
  intros alg s nv P H R. induction R as [|s nv P H R IH|s nv P H R IH|s nv P H c R IH Hc|s nv P H w c R IH Hw Hc|s nv P H os hd n v s' R IH Fi F E Nc|s nv P H st s' R IH E|s nv P H st nv' P' s' R IH J E|s nv P H st q s' R IH J E].
  - constructor; cbn; auto; try congruence; try (intros; contradiction); [repeat split|split; intros ? []|constructor].
  - pose proof IH as [(D1 & D2 & D3 & D4 & D5 & D6 & D7) I2 I3 I4 I5 Ip Io I6 I7 I8 I9]. eapply inv_step; [exact IH| | | | | | | |]; try reflexivity; try assumption.
    + split; [cbn; lia|]. split; apply prefix_refl.
    + destruct I3 as [W1 W2]. split; intros c I; [apply (below_le nv); [lia|auto]|apply (below_le nv); [lia|auto]].
    + split; [cbn; rewrite D1; auto|]. auto 12.
  - eapply inv_step; [exact IH|apply sub_refl|apply IH|reflexivity|reflexivity|apply IH|apply IH|apply IH|apply IH].
  - pose proof IH as [(D1 & D2 & D3 & D4 & D5 & D6 & D7) I2 I3 I4 I5 Ip Io I6 I7 I8 I9]. eapply inv_step; [exact IH| | | | | | | |]; try reflexivity; try assumption.
    + split; [cbn; lia|]. split; [exists [c]; auto|exists []; auto].
    + apply wfP_grow; auto; intros ? []; [subst; exact Hc|contradiction].
    + split; [exact D1|]. split; [cbn; rewrite D2; auto|]. split; [cbn; rewrite app_nil_r; auto|]. auto 12.
    + cbn. rewrite app_nil_r. exact I2.
    + cbn. rewrite app_nil_r. exact Ip.
  - pose proof IH as [(D1 & D2 & D3 & D4 & D5 & D6 & D7) I2 I3 I4 I5 Ip Io I6 I7 I8 I9]. eapply inv_step; [exact IH| | | | | | | |]; try reflexivity; try assumption.
    + split; [cbn; lia|]. split; [exists []; auto|exists [(w, c)]; auto].
    + apply wfP_grow; auto; intros ? []; [subst; exact Hc|contradiction].
    + split; [exact D1|]. split; [cbn; rewrite app_nil_r; auto|]. split; [cbn; rewrite D3; unfold clean; rewrite map_app; auto|]. auto 12.
    + cbn. unfold maxW. rewrite fold_left_app. cbn. unfold maxW in I2. rewrite I2. auto.
    + cbn. intros wc J. apply in_app_or in J as [J|[<-|[]]]; auto.
  - pose proof IH as [D I2 I3 I4 I5 Ip Io I6 I7 I8 I9]. unfold sSolve in E. destruct (m_result s) as [v0|] eqn:Em; [inversion E; subst; auto|].
    set (x := set_weighted (negb (curW (m_alg s) =? 1)) (m_alg s)) in *.
    destruct (runAlgo os hd n alg x) as [r y| |] eqn:Er; try discriminate. inversion E; subst r s'. destruct (run_ok os hd n alg x nv P v y F I3 Fi Ip I2 eq_refl Io D) as [_ G]. destruct (G Er) as [Ri G']. destruct (G' Nc) as (Id & Cy & Oy).
    assert (Vy : valid y = valid (m_alg s) ++ [stId (m_alg s)]) by (destruct Id as (_ & _ & _ & V & _); exact V). assert (Sy : stId y = S (stId (m_alg s))) by (destruct Id as (_ & _ & _ & _ & V & _); exact V).
    assert (Old : forall st p, In (st, p) H -> In (ms_id st) (valid y) -> In (ms_id st) (valid (m_alg s))). { intros st [nv' P'] J K. destruct (I8 _ _ _ J) as (J1 & _). rewrite Vy in K. apply in_app_or in K as [K|[K|[]]]; auto. lia. }
    constructor; cbn [m_alg m_result].
    + rewrite Vy, Sy. exact Id.
    + rewrite Cy. exact I2.
    + exact I3.
    + intros v1 E1. inversion E1; subst. auto.
    + congruence.
    + exact Ip.
    + exact Oy.
    + rewrite Vy. apply sorted_app; auto.
    + rewrite Vy, Sy. intros i J. apply in_app_or in J as [J|[J|[]]]; [apply I7 in J; lia|lia].
    + intros st nv' P' J. destruct (I8 _ _ _ J) as (J1 & J2 & J3 & J4). rewrite Sy. split; [lia|]. split; auto. split; auto. intros K. apply J4, (Old st (nv', P')); auto.
    + intros st1 p1 st2 p2 J1 J2 K1 K2 L. apply (I9 st1 p1 st2 p2); auto; eapply Old; eauto.
  - pose proof IH as [D I2 I3 I4 I5 Ip Io I6 I7 I8 I9]. unfold sSave, msave in E. inversion E; subst st s'. destruct D as (D1 & D2 & D3 & D4 & D5 & D6 & D7).
    assert (Old : forall st p, In (st, p) H -> In (ms_id st) (valid (m_alg s) ++ [stId (m_alg s)]) -> In (ms_id st) (valid (m_alg s))). { intros st [nv' P'] J K. destruct (I8 _ _ _ J) as (J1 & _). apply in_app_or in K as [K|[K|[]]]; auto. lia. }
    constructor; cbn [m_alg m_result stId set_stId valid set_valid]; auto.
    + split; [exact D1|]. auto 12.
    + apply sorted_app; auto.
    + intros i J. apply in_app_or in J as [J|[J|[]]]; [apply I7 in J; lia|lia].
    + intros st nv' P' [J|J].
      * inversion J; subst. cbn [ms_id]. split; [lia|]. split; [|split; auto; intros _; apply sub_refl]. split; auto. cbn. rewrite D2, D3, weights_clean, I2. unfold clean. rewrite map_length. auto.
      * destruct (I8 _ _ _ J) as (J1 & J2 & J3 & J4). split; [lia|]. split; auto. split; auto. intros K. apply J4, (Old st (nv', P')); auto.
    + intros st1 p1 st2 p2 J1 J2 K1 K2 L. destruct J1 as [J1|J1], J2 as [J2|J2].
      * inversion J1; inversion J2; subst. apply sub_refl.
      * inversion J1; subst. destruct p2 as [nv2 P2]. destruct (I8 _ _ _ J2) as (X & _). cbn [ms_id] in L. lia.
      * inversion J2; subst. destruct p1 as [nv1 P1]. destruct (I8 _ _ _ J1) as (_ & _ & _ & X). apply X, (Old st1 (nv1, P1)); auto.
      * apply (I9 st1 p1 st2 p2); auto; eapply Old; eauto.
  - pose proof IH as [D I2 I3 I4 I5 Ip Io I6 I7 I8 I9]. destruct (I8 _ _ _ J) as (J1 & (T1 & T2 & T3 & T4 & T5) & J3 & J4). unfold sLoad, mload in E. destruct (lastPos (ms_id st) (valid (m_alg s)) 0) as [i|] eqn:El; [|discriminate].
    apply lastPos_Some in El as (l1 & l2 & Ev & Ei). rewrite Nat.add_0_l in Ei. assert (K : In (ms_id st) (valid (m_alg s))) by (rewrite Ev; apply in_or_app; right; left; auto). specialize (J4 K) as (S1 & (rh & S2) & (rs & S3)). cbn [fst snd] in S1, S2, S3.
    destruct D as (D1 & D2 & D3 & D4 & D5 & D6 & D7). assert (Fs : firstn (ms_soft st) (soft (m_alg s)) = clean (p_soft P')). { rewrite D3, S3, T3. unfold clean. rewrite map_app, firstn_app, map_length, Nat.sub_diag. cbn. rewrite app_nil_r. apply firstn_all2. rewrite map_length. auto. }
    assert (Fv : firstn (S i) (valid (m_alg s)) = l1 ++ [ms_id st]). { rewrite Ev, Ei. replace (S (length l1)) with (length l1 + 1) by lia. rewrite firstn_app_2. auto. }
    rewrite Fs, T4 in E. assert (Lc : length (clean (p_soft P')) = length (p_soft P')) by (unfold clean; apply map_length). rewrite map_length, Lc, Nat.ltb_irrefl, Fv in E. inversion E; subst s'. clear E.
    assert (Old : forall j, In j (l1 ++ [ms_id st]) -> In j (valid (m_alg s))). { intros j Ij. rewrite Ev. apply in_or_app. apply in_app_or in Ij as [Ij|[Ij|[]]]; [left; auto|right; left; auto]. }
    assert (Le : forall j, In j (l1 ++ [ms_id st]) -> j <= ms_id st). { intros j Ij. apply in_app_or in Ij as [Ij|[Ij|[]]]; [|lia]. rewrite Ev in I6. clear - I6 Ij. induction l1 as [|y r IHl]; [destruct Ij|]. cbn in I6. inversion I6; subst. destruct Ij as [->|Ij]; [|apply IHl; auto]. rewrite Forall_forall in H2. specialize (H2 (ms_id st) ltac:(apply in_or_app; right; left; auto)). lia. }
    constructor; cbn [m_alg m_result valid stId curW hard soft nbVars nbSat lbCost]; auto; try congruence.
    + split; [exact T1|]. cbn [hard soft valid stId nbSat lbCost]. split; [rewrite D2, S2, T2, firstn_app, Nat.sub_diag; cbn; rewrite app_nil_r; apply firstn_all|]. split; [|split; auto].
      clear. unfold clean. induction (p_soft P') as [|wc r IHr]; cbn; auto. f_equal. exact IHr.
    + intros wc J'. apply Ip. rewrite S3. apply in_or_app; auto.
    + rewrite <- Fv. apply sorted_firstn; auto.
    + intros st2 nv2 P2 J2. destruct (I8 _ _ _ J2) as (X1 & X2 & X3 & X4). split; auto. split; auto. split; auto. intros K2. apply (I9 st2 _ st _ J2 J); auto.
    + intros st1 p1 st2 p2 K1 K2 L1 L2 L. apply (I9 st1 p1 st2 p2); auto.
  - unfold sLoad, mload in E. destruct (lastPos (ms_id st) (valid (m_alg s)) 0) as [i|] eqn:El; [destruct (_ <? _); discriminate|]. inversion E; subst. eapply inv_step; [exact IH|apply sub_refl|apply IH|reflexivity|reflexivity|apply IH|apply IH|apply IH|apply IH].
Qed.
