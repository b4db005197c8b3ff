(** * The MaxSAT solver on formulas

    The model is MaxApi.v on top of MaxSat.v and of the factory; [lstep] (NfApi.v) are the operations of a client of the factory. *)
From Coq Require Import String Ascii List Bool Arith ZArith NArith Lia DecimalString.
From Verif Require SatSpec SatProps.
From Verif Require Import MaxSpec MaxSat MaxBase MaxAlg MaxRun MaxProps.
From Verif Require Import Spec Factory FactoryProofs FactoryProofs2 FactoryProofs3 FactoryApi FactoryProps Assign AssignProps EncSpec EncApi EncPbc EncProps NormalForm NfBase NfAssign NfEnc NfNnf NfCnf NfFun NfTseitin NfPg NfAig NfApi NfProps SatApi SatApiInv SatApiPg MaxApi MaxApiInv.
Import ListNotations.
Local Close Scope N_scope.

(** ** Specification *)
(** the sum of the weights of the violated soft formulas *)
Definition violated (ss : list (nat * tree)) (b : asg) : nat := list_sum (map (fun q => if eval b (snd q) then 0 else fst q) ss).
(** the algorithm is proved right for these weights: all are 1, or it is WBO without symmetry breaking, or it is LinearSU with BMO and no weight is smaller
    than the sum of all weights below it *)
Definition fitsW (alg : algo) (ws : list nat) : Prop :=
  (forall v, In v ws -> v = 1) \/ (exists st, alg = WBO false st) \/ (alg = LinearBMO /\ forall v, In v ws -> list_sum (filter (fun x => x <? v) ws) <= v).
(** no variable has a name that the library uses itself *)
Definition freeT (t : tree) : Prop := forall x, occurs x t -> reserved x = false /\ String.prefix "@SEL_SOFT_" x = false.
Definition answerLits (a : answer) : list formula := match a with AOptimum _ ls => ls | _ => [] end.

(** [mclient … s H X K w hs ss]: a client uses a factory, now in state [s], and one MaxSAT solver, now in state [w]; they hold the formulas [H], the
    auxiliary states [X] and the saved solver states [K], each with the hard and the soft formulas of the time it was saved; [hs] are the hard formulas they
    added, [ss] the soft ones with their weights, after the last successful load.  No search was cancelled. *)
Section Client.
Variables (cf : encConfig) (nf : cnfConfig) (alg : algo) (cv : bool).
Inductive mclient : state -> list formula -> list auxState -> list (mstate * (list tree * list (nat * tree))) -> maxw -> list tree -> list (nat * tree) -> Prop :=
| mc_new : mclient (newFactory cv) [ffalse; ftrue] [] [] newMaxw [] []
| mc_lib : forall s H X K s' H' X' w hs ss, mclient s H X K w hs ss -> lstep (s, H, X) (s', H', X') -> mclient s' H' X' K w hs ss
| mc_hard : forall s H X K w hs ss f t s' w', mclient s H X K w hs ss -> In f H -> Reads s f t -> encodable cf t -> freeT t ->
    returns (fun n => addHardFormula cf nf n f w) s w' s' -> mclient s' H X K w' (hs ++ [t]) ss
| mc_soft : forall s H X K w hs ss f t wt s' w', mclient s H X K w hs ss -> In f H -> Reads s f t -> encodable cf t -> freeT t ->
    returns (fun n => addSoftFormula cf nf n f wt w) s (true, w') s' -> mclient s' H X K w' hs (ss ++ [(Z.to_nat wt, t)])
| mc_reject : forall s H X K w hs ss f wt s' w', mclient s H X K w hs ss ->
    returns (fun n => addSoftFormula cf nf n f wt w) s (false, w') s' -> (wt < 1)%Z -> mclient s' H X K w' hs ss
| mc_solve : forall s H X K w hs ss os hd k a s' w', mclient s H X K w hs ss -> fitsW alg (map fst ss) -> (forall i, SatProps.fair (os i)) ->
    returns (fun _ => solveFormulas os hd k alg w) s (a, w') s' -> a <> ACancelled -> mclient s' (answerLits a ++ H) X K w' hs ss
| mc_save : forall s H X K w hs ss st w', mclient s H X K w hs ss -> saveW w = Some (st, w') -> mclient s H X ((st, (hs, ss)) :: K) w' hs ss
| mc_load : forall s H X K w hs ss st hs' ss' w', mclient s H X K w hs ss -> In (st, (hs', ss')) K -> loadW st w = Some (true, w') -> mclient s H X K w' hs' ss'
| mc_stale : forall s H X K w hs ss st q w', mclient s H X K w hs ss -> In (st, q) K -> loadW st w = Some (false, w') -> mclient s H X K w' hs ss.

(** soft formulas with the numbers of their selectors *)
Definition goalOf (hs : list tree) (js : list (nat * (nat * tree))) (b : asg) : Prop :=
  (forall t, In t hs -> eval b t = true) /\ forall j, In j js -> b (selName (fst j)) = eval b (snd (snd j)).
Definition selsOf (js : list (nat * (nat * tree))) : list (nat * string) := map (fun j => (fst (snd j), selName (fst j))) js.
Definition jsOk (n : nat) (ss : list (nat * tree)) (js : list (nat * (nat * tree))) : Prop := map snd js = ss /\ NoDup (map fst js) /\ forall j, In j js -> fst j < n.
Definition saved (V : asg -> Prop) (w : maxw) (HH : list (mstate * (nat * problem))) (st : mstate) (hs : list tree) (ss : list (nat * tree)) : Prop :=
  exists ns P js, In (st, (length ns, P)) HH /\ NoDup ns /\ (forall b, feasible P (view ns b) -> goalOf hs js b) /\ (forall b, V b -> goalOf hs js b -> feasible P (view ns b)) /\
    Forall2 (softIs ns) (p_soft P) (selsOf js) /\ jsOk (selCtr w) ss js /\ (In (ms_id st) (valid (m_alg (mcore w))) -> exists l, mnames w = ns ++ l).
Record minv (s : state) (H : list formula) (X : list auxState) (K : list (mstate * (list tree * list (nat * tree)))) (w : maxw) (hs : list tree) (ss : list (nat * tree)) (V : asg -> Prop) : Prop := {
  mi_linv : linv s V H X; mi_names : forall x, In x (mnames w) -> isName s x;
  mi_free : forall t, In t (hs ++ map snd ss) -> freeT t;
  mi_freeK : forall st hs' ss' t, In (st, (hs', ss')) K -> In t (hs' ++ map snd ss') -> freeT t;
  mi_mok : padded w = false -> exists HH P js, mok alg HH V w P (goalOf hs js) (selsOf js) /\ jsOk (selCtr w) ss js /\ forall st hs' ss', In (st, (hs', ss')) K -> saved V w HH st hs' ss' }.

Lemma selsOf_fst n ss js : jsOk n ss js -> map fst (selsOf js) = map fst ss.
Proof. intros (<- & _). unfold selsOf. rewrite !map_map. auto. Qed.
Lemma jsOk_le n n' ss js : n <= n' -> jsOk n ss js -> jsOk n' ss js.
Proof. intros L (A & B & C). split; auto. split; auto. intros j J. specialize (C j J). lia. Qed.
Lemma jsOk_add n ss js q : jsOk n ss js -> jsOk (S n) (ss ++ [q]) (js ++ [(n, q)]).
Proof.
  intros (A & B & C). split; [rewrite map_app, A; auto|]. split.
  - rewrite map_app. cbn [map fst]. apply NoDup_Add with (a := n) (l := map fst js); [|split; auto].
    + rewrite <- (app_nil_r (map fst js)) at 1. apply Add_app.
    + intros J. apply in_map_iff in J as (j & E & J). specialize (C j J). lia.
  - intros j J. apply in_app_or in J as [J|[<-|[]]]; [specialize (C j J); lia|cbn; lia].
Qed.
Lemma saved_step (V V' : asg -> Prop) w w' HH HH' st hs ss : (forall b, V' b -> V b) -> selCtr w <= selCtr w' -> incl HH HH' ->
  (In (ms_id st) (valid (m_alg (mcore w'))) -> In (ms_id st) (valid (m_alg (mcore w)))) -> (exists l, mnames w' = mnames w ++ l) -> saved V w HH st hs ss -> saved V' w' HH' st hs ss.
Proof.
  intros HV L HI Hi (l & El) (ns & P & js & A1 & A2 & A3 & A4 & A5 & A6 & A7). exists ns, P, js. repeat (split; auto); try (eapply jsOk_le; eauto; fail).
  intros J. destruct (A7 (Hi J)) as (l' & E'). exists (l' ++ l). rewrite El, E', app_assoc. auto.
Qed.
(** the states that can be loaded are among those before; all others were saved later *)
Lemma load_valid st c c' b : sLoad st c = Some (b, c') -> forall i, In i (valid (m_alg c')) -> In i (valid (m_alg c)).
Proof.
  unfold sLoad, mload. destruct (lastPos (ms_id st) (valid (m_alg c)) 0) as [i|].
  - destruct (_ <? _); [discriminate|]. intros E. injection E as <- <-. cbn [m_alg valid]. intros j J. rewrite <- (firstn_skipn (S i) (valid (m_alg c))). apply in_or_app. left. exact J.
  - intros E. injection E as <- <-. auto.
Qed.
Lemma load_in st c c' : sLoad st c = Some (true, c') -> In (ms_id st) (valid (m_alg c)).
Proof.
  unfold sLoad, mload. destruct (lastPos (ms_id st) (valid (m_alg c)) 0) as [i|] eqn:El; [|discriminate]. intros _. apply lastPos_Some in El as (l1 & l2 & -> & _). apply in_or_app. right. left. auto.
Qed.
Lemma solve_valid os hd k c nv P HH v c' : reach alg c nv P HH -> fits alg P -> (forall i, SatProps.fair (os i)) -> sSolve os hd k alg c = Some (v, c') -> v <> Cancelled ->
  forall st p, In (st, p) HH -> In (ms_id st) (valid (m_alg c')) -> In (ms_id st) (valid (m_alg c)).
Proof.
  intros R Fi F E Nc st [nv' P'] J. pose proof (reach_inv _ _ _ _ _ R) as [D I2 I3 I4 I5 Ip Io I6 I7 I8 I9]. unfold sSolve in E. destruct (m_result c) as [v0|] eqn:Em; [injection E as <- <-; auto|].
  set (x := set_weighted (negb (curW (m_alg c) =? 1)) (m_alg c)) in *. destruct (runAlgo os hd k alg x) as [r y| |] eqn:Er; try discriminate. injection E as -> <-. destruct (run_ok os hd k alg x nv P v y F I3 Fi Ip I2 eq_refl Io D) as [_ G]. destruct (G Er) as [_ G']. destruct (G' Nc) as ((_ & _ & _ & V & _) & _).
  cbn [m_alg]. rewrite V. intros K. apply in_app_or in K as [K|[K|[]]]; auto. exfalso. destruct (I8 _ _ _ J) as (J1 & _). change (stId x) with (stId (m_alg c)) in K. lia.
Qed.
Lemma softIs_fst ns : forall l sels, Forall2 (softIs ns) l sels -> map fst l = map fst sels.
Proof. induction 1 as [|wc q l sels [E _] _ IH]; auto. cbn. rewrite E. f_equal. auto. Qed.
Lemma fits_of HH V w P G n ss js : mok alg HH V w P G (selsOf js) -> jsOk n ss js -> fitsW alg (map fst ss) -> fits alg P.
Proof.
  intros O Jk F. pose proof (softIs_fst _ _ _ (mo_soft _ _ _ _ _ _ _ O)) as E. rewrite (selsOf_fst _ _ _ Jk) in E. destruct F as [F|[F|[F1 F2]]]; [left|right; left; auto|right; right].
  - intros wc I. apply F. rewrite <- E. apply in_map; auto.
  - split; auto. split.
    + intros wc I. assert (J : In (fst wc) (map fst ss)) by (rewrite <- E; apply in_map; auto). specialize (F2 _ J). rewrite <- E in F2. etransitivity; [|exact F2]. apply Nat.eq_le_incl. f_equal. clear. induction (p_soft P) as [|x l IH]; auto. cbn [map filter]. destruct (fst x <? fst wc); cbn [map]; [f_equal|]; exact IH.
    + intros wc I. destruct (Forall2_in_l _ _ _ _ (mo_soft _ _ _ _ _ _ _ O) I) as (q & _ & _ & j & -> & _). discriminate.
Qed.
Lemma Reads_of s f t H X V : linv s V H X -> Reads s f t -> Den s f t.
Proof. intros L. apply Reads_Den. apply (i_winv _ _ _ _ L). Qed.

Lemma solve_lits s V w os hd k z m c : winv s V -> (forall x, In x (mnames w) -> isName s x) -> sSolve os hd k alg (mcore w) = Some (Optimum z m, c) ->
  wp (fun _ => solveFormulas os hd k alg w) s V (fun r s' V' => exists ls, r = (AOptimum z ls, MaxW c (mnames w) (selCtr w) (padded w)) /\
    Forall2 (litDen s') ls (filter (fun p => negb (String.prefix selPrefix (fst p))) (combine (mnames w) m))).
Proof.
  intros I Nm E. unfold solveFormulas. rewrite E. set (nps := filter _ _).
  eapply wp_bind; [apply (wp_mapM (fun _ p => up (Lit (fst p) (snd p))) (fun s p q => p = q /\ isName s (fst p)) (fun s V l q => litDen s l q)) with (cs := nps)|].
  - intros s1 V1 s2 V2 X a q [-> J]. split; auto. eapply isName_ext; eauto.
  - intros s1 V1 s2 V2 X a q D. apply (e_node _ _ (x_ext _ _ _ _ X)). exact D.
  - intros p q Ip Iq s1 V1 I1 X1 [-> (l & b & D)]. eapply wp_conseq; [apply rp_wp; [exact I1|apply (rp_lit (fst q) (snd q) s1); [apply I1|]]|].
    + apply (lit_name s1 l (fst q, b)); [apply I1|exact D].
    + cbv beta. intros a s2 V2 I2 X2 (_ & D2). destruct q. exact D2.
  - exact I.
  - assert (K : forall p, In p nps -> isName s (fst p)). { intros [x b] J. apply filter_In in J as [J _]. apply in_combine_l in J. apply Nm. exact J. }
    clear - K. induction nps as [|p l IH]; constructor; auto. split; auto. apply K; left; auto. apply IH. intros q J. apply K. right; auto.
  - cbv beta. intros ls s1 V1 I1 X1 F. apply wp_ret; auto. exists ls. auto.
Qed.

Lemma pick_HH s H X K w hs ss V : minv s H X K w hs ss V -> exists HH, padded w = false -> exists P js, mok alg HH V w P (goalOf hs js) (selsOf js) /\ jsOk (selCtr w) ss js /\ forall st hs' ss', In (st, (hs', ss')) K -> saved V w HH st hs' ss'.
Proof. intros M. destruct (padded w) eqn:Pw; [exists []; discriminate|]. destruct (mi_mok _ _ _ _ _ _ _ _ M Pw) as (HH & Q). exists HH. auto. Qed.
Lemma mclient_inv s H X K w hs ss : mclient s H X K w hs ss -> exists V, minv s H X K w hs ss V.
Proof.
  induction 1 as [|s H X K s' H' X' w hs ss _ (V & IH) L|s H X K w hs ss f t s' w' _ (V & IH) If Rf En Fr Rt|s H X K w hs ss f t wt s' w' _ (V & IH) If Rf En Fr Rt|s H X K w hs ss f wt s' w' _ (V & IH) Rt Lt|s H X K w hs ss os hd k a s' w' _ (V & IH) Fi Fa Rt Na|s H X K w hs ss st w' _ (V & IH) Es|s H X K w hs ss st hs' ss' w' _ (V & IH) Ik El|s H X K w hs ss st q w' _ (V & IH) Ik El].
  - exists (fun _ => True). constructor.
    + constructor; [apply new_winv|apply held_new|constructor].
    + intros x [].
    + intros t [].
    + intros st hs' ss' t [].
    + intros _. exists [], (Problem [] []), []. split; [|split; [split; [auto|split; [constructor|intros j []]]|intros st hs' ss' []]]. constructor; try constructor; try (intros; intros c []).
      * intros t [].
      * intros j [].
  - destruct IH as [A C D Dk E]. destruct (step_linv _ _ _ _ _ _ _ A L) as (V' & A' & X2). exists V'. constructor; auto.
    + intros x J. eapply isName_ext; eauto.
    + intros Pd. destruct (E Pd) as (HH & P & js & O & Jk & Sv). exists HH, P, js. split; [eapply mok_sub; [|exact O]; apply X2|]. split; auto.
      intros st hs' ss' J. eapply saved_step; [| | | | |apply Sv; exact J]; auto; [apply X2|apply incl_refl|exists []; rewrite app_nil_r; auto].
  - destruct (pick_HH _ _ _ _ _ _ _ _ IH) as (HH & E). destruct IH as [A C D Dk _]. pose proof (Reads_of _ _ _ _ _ _ A Rf) as Df. destruct (addAsCNF_hard alg HH cf nf f t s V w (i_winv _ _ _ _ A) Df En) as (n0 & r & s2 & V' & Hn & I' & X2 & (B1 & Bg & B0 & B2)).
    destruct (returns_fun _ s _ _ _ _ Rt (ex_intro _ n0 Hn)) as [E1 E2]. subst r s2. exists V'. constructor; auto.
    + eapply linv_ext; eauto.
    + intros x J. destruct (B0 x J) as [J'|J']; auto. eapply isName_ext; eauto.
    + intros u J. rewrite <- app_assoc in J. apply in_app_or in J as [J|[<-|J]]; auto; apply D, in_or_app; auto.
    + intros Pd. destruct (B2 Pd) as [Pd0 B3]. destruct (E Pd0) as (P & js & O & Jk & Sv). destruct (B3 V' P _ _ (fun b Hb => Hb) (mok_sub alg HH V V' _ _ _ _ (x_sub _ _ _ _ X2) O)) as [P' O']. exists HH, P', js. split; [|split].
      * eapply mok_G; [|exact O']. intros b. unfold goalOf. split.
        -- intros [[G1 G2] G3]. split; auto. intros u J. apply in_app_or in J as [J|[<-|[]]]; auto.
        -- intros [G1 G2]. split; [split; auto; intros u J; apply G1, in_or_app; auto|]. apply G1, in_or_app. right; left; auto.
      * rewrite B1. auto.
      * intros st hs' ss' J. destruct Bg as [Bg1 Bg2]. eapply saved_step; [| | | | |apply Sv; exact J]; auto; [apply X2|lia|apply incl_refl|rewrite Bg2; auto].
  - destruct (pick_HH _ _ _ _ _ _ _ _ IH) as (HH & E). destruct IH as [A C D Dk _]. pose proof (Reads_of _ _ _ _ _ _ A Rf) as Df. destruct (Z.ltb_spec wt 1) as [Lw|Lw].
    { exfalso. destruct Rt as [n0 Rt]. specialize (Rt n0 (Nat.le_refl _)). unfold addSoftFormula in Rt. rewrite (proj2 (Z.ltb_lt wt 1) Lw) in Rt. cbn in Rt. discriminate. }
    destruct (addSoft_ok alg HH cf nf f t s V w wt (i_winv _ _ _ _ A) Df En Lw) as (n0 & r & s2 & V' & Hn & I' & X2 & (B9 & B1 & Bg & B0 & B2)).
    destruct (returns_fun _ s _ _ _ _ Rt (ex_intro _ n0 Hn)) as [E1 E2]. subst r s2. cbn [fst snd] in *. exists V'. constructor; auto.
    + eapply linv_ext; eauto.
    + intros x J. destruct (B0 x J) as [J'|J']; auto. eapply isName_ext; eauto.
    + intros u J. rewrite map_app, app_assoc in J. apply in_app_or in J as [J|[<-|[]]]; auto.
    + intros Pd. destruct (B2 Pd) as [Pd0 B3]. destruct (E Pd0) as (P & js & O & Jk & Sv). destruct (B3 V' P _ _ (fun b Hb => Hb) (mok_sub alg HH V V' _ _ _ _ (x_sub _ _ _ _ X2) O)) as [P' O']. exists HH, P', (js ++ [(selCtr w, (Z.to_nat wt, t))]). split; [|split].
      * unfold selsOf. rewrite map_app. eapply mok_G; [|exact O']. intros b. unfold goalOf. split.
        -- intros [[G1 G2] G3]. split; auto. intros j J. apply in_app_or in J as [J|[<-|[]]]; auto.
        -- intros [G1 G2]. split; [split; auto; intros j J; apply G2, in_or_app; auto|]. apply (G2 (selCtr w, (Z.to_nat wt, t))). apply in_or_app. right; left; auto.
      * rewrite B1. apply jsOk_add. auto.
      * intros st hs' ss' J. destruct Bg as [Bg1 Bg2]. eapply saved_step; [| | | | |apply Sv; exact J]; auto; [apply X2|lia|apply incl_refl|rewrite Bg2; auto].
  - assert (E : s' = s /\ w' = w). { destruct Rt as [n0 Rt]. specialize (Rt n0 (Nat.le_refl _)). unfold addSoftFormula in Rt. rewrite (proj2 (Z.ltb_lt wt 1) Lt) in Rt. inversion Rt; auto. }
    destruct E as [-> ->]. exists V. exact IH.
  - destruct IH as [A C D Dk E]. destruct Rt as [n0 Rt]. pose proof (Rt n0 (Nat.le_refl _)) as R0.
    destruct (sSolve os hd k alg (mcore w)) as [[v c]|] eqn:Es; [|unfold solveFormulas in R0; rewrite Es in R0; discriminate].
    assert (Q : forall V' : asg -> Prop, (forall b : asg, V' b -> V b) -> v <> Cancelled -> padded w = false -> let w1 := MaxW c (mnames w) (selCtr w) (padded w) in
      exists HH P js, mok alg HH V' w1 P (goalOf hs js) (selsOf js) /\ jsOk (selCtr w) ss js /\ forall st hs' ss', In (st, (hs', ss')) K -> saved V' w1 HH st hs' ss').
    { intros V' HV Nv Pd w1. destruct (E Pd) as (HH & P & js & O & Jk & Sv). pose proof (fits_of _ _ _ _ _ _ _ _ O Jk Fi) as Ft. exists HH, P, js. split; [|split; auto].
      - destruct (mok_sub alg HH V V' _ _ _ _ HV O) as [O1 O2 O3 O4 O5]. constructor; auto. cbn [w1 mcore mnames]. eapply r_solve; eauto.
      - intros st hs' ss' J. pose proof (Sv _ _ _ J) as S0. eapply saved_step; [exact HV| | | | |exact S0]; auto; [apply incl_refl| |exists []; cbn [w1 mnames]; rewrite app_nil_r; auto].
        cbn [w1 mcore]. destruct S0 as (ns & P0 & js0 & J0 & _). exact (solve_valid _ _ _ _ _ _ _ _ _ (mo_reach _ _ _ _ _ _ _ O) Ft Fa Es Nv _ _ J0). }
    destruct v as [| |z m].
    + unfold solveFormulas in R0. rewrite Es in R0. inversion R0; subst. exfalso; auto.
    + unfold solveFormulas in R0. rewrite Es in R0. inversion R0; subst. exists V. constructor; auto. cbn [padded]. intros Pd. apply Q; auto. discriminate.
    + destruct (solve_lits s V w os hd k z m c (i_winv _ _ _ _ A) C Es) as (n1 & r & s2 & V' & Hn & I' & X2 & (ls & Er & F)). rewrite (Hn (max n0 n1)) in R0 by lia. subst r. injection R0 as <- <- <-. exists V'. pose proof (linv_ext _ _ _ _ _ _ X2 I' A) as [A1 A2 A3]. constructor; auto.
      * constructor; auto. cbn [answerLits]. apply Forall_app. split; auto. eapply litDens_known; eauto.
      * cbn [mnames]. intros x J. eapply isName_ext; eauto.
      * cbn [padded]. intros Pd. apply Q; auto; [apply X2|discriminate].
  - unfold saveW in Es. destruct (sSave (mcore w)) as [[st0 c]|] eqn:E0; [|discriminate]. injection Es as -> <-. destruct IH as [A C D Dk E]. exists V. constructor; auto.
    + intros st1 hs1 ss1 t [J|J] It; [injection J as <- <- <-; auto|eapply Dk; eauto].
    + cbn [padded]. intros Pd. destruct (E Pd) as (HH & P & js & O & Jk & Sv). pose proof O as [O1 O2 O3 O4 O5]. exists ((st, (length (mnames w), P)) :: HH), P, js. split; [|split; auto].
      * constructor; auto. cbn [mcore mnames]. eapply r_save; eauto.
      * intros st1 hs1 ss1 [J|J].
        -- injection J as <- <- <-. exists (mnames w), P, js. split; [left; auto|]. repeat (split; [assumption|]). intros _. exists []. rewrite app_nil_r. auto.
        -- pose proof (Sv _ _ _ J) as S0. eapply saved_step; [| | | | |exact S0]; auto; [intros e Ie; right; exact Ie| |exists []; cbn [mnames]; rewrite app_nil_r; auto].
           cbn [mcore]. destruct S0 as (ns & P0 & js0 & J0 & _). pose proof (reach_inv _ _ _ _ _ O1) as Iv. destruct (iv_saved _ _ _ _ Iv _ _ _ J0) as (Lt & _). unfold sSave, msave in E0. injection E0 as <- <-. cbn [m_alg valid set_valid set_stId]. intros In1. apply in_app_or in In1 as [In1|[In1|[]]]; auto. lia.
  - unfold loadW in El. destruct (sLoad st (mcore w)) as [[[|] c]|] eqn:E0; try discriminate. injection El as <-. destruct IH as [A C D Dk E]. exists V. constructor; auto.
    + cbn [mnames]. intros x J. apply C. rewrite <- (firstn_skipn (ms_vars st) (mnames w)). apply in_or_app; auto.
    + intros t J. eapply Dk; eauto.
    + cbn [padded]. intros Pd. destruct (E Pd) as (HH & P & js & O & Jk & Sv). destruct (Sv _ _ _ Ik) as (ns & P' & js' & A1 & A2 & A3 & A4 & A5 & A6 & A7).
      pose proof (r_load _ _ _ _ _ _ _ _ _ (mo_reach _ _ _ _ _ _ _ O) A1 E0) as R'. destruct (A7 (load_in _ _ _ E0)) as (l & En).
      pose proof (reach_inv _ _ _ _ _ (mo_reach _ _ _ _ _ _ _ O)) as Iv. destruct (iv_saved _ _ _ _ Iv _ _ _ A1) as (_ & (Mv & _) & _).
      assert (Ef : firstn (ms_vars st) (mnames w) = ns) by (rewrite En, Mv, firstn_app, Nat.sub_diag, firstn_all; cbn; apply app_nil_r).
      rewrite Ef. exists HH, P', js'. split; [constructor; auto|]. split; [exact A6|]. intros st2 hs2 ss2 J2. destruct (Sv _ _ _ J2) as (ns2 & P2 & js2 & B1 & B2 & B3 & B4 & B5 & B6 & B7).
      exists ns2, P2, js2. repeat (split; [assumption|]). cbn [mcore mnames]. intros I2. destruct (B7 (load_valid _ _ _ _ E0 _ I2)) as (l2 & En2).
      destruct (iv_saved _ _ _ _ (reach_inv _ _ _ _ _ R') _ _ _ B1) as (_ & _ & _ & Su). destruct (Su I2) as [Le _]. cbn [fst] in Le.
      exists (firstn (length ns - length ns2) l2). assert (Eq : ns = firstn (length ns) (mnames w)) by (rewrite En, firstn_app, Nat.sub_diag, firstn_all; cbn; rewrite app_nil_r; auto).
      rewrite Eq at 1. rewrite En2, firstn_app, firstn_all2 by lia. auto.
  - unfold loadW in El. destruct (sLoad st (mcore w)) as [[[|] c]|] eqn:E0; try discriminate. injection El as <-. destruct IH as [A C D Dk E]. exists V. constructor; auto.
    cbn [padded]. intros Pd. destruct (E Pd) as (HH & P & js & O & Jk & Sv). pose proof O as [O1 O2 O3 O4 O5]. exists HH, P, js. split; [|split; auto].
    + constructor; auto. cbn [mcore mnames]. destruct q as [hq sq]. destruct (Sv _ _ _ Ik) as (ns & P0 & js0 & J0 & _). eapply r_stale; eauto.
    + intros st1 hs1 ss1 J. pose proof (Sv _ _ _ J) as S0. eapply saved_step; [| | | | |exact S0]; auto; [apply incl_refl| |exists []; cbn [mnames]; rewrite app_nil_r; auto]. cbn [mcore]. apply (load_valid _ _ _ _ E0).
Qed.

(** the cost of the numbered problem is that of the formulas *)
Lemma cost_sels ns b : forall soft sels, Forall2 (softIs ns) soft sels -> costs soft (view ns b) = list_sum (map (fun q => if b (snd q) then 0 else fst q) sels).
Proof.
  induction 1 as [|wc q soft sels [E (j & Ej & Nj)] _ IH]; auto.
  assert (Et : true_in (view ns b) (snd wc) = b (snd q)). { rewrite Ej. unfold true_in, view, SatSpec.lit_true. cbn [existsb fst snd]. rewrite (nth_error_nth _ _ EmptyString Nj), orb_false_r. auto. }
  unfold costs in *. cbn [map]. rewrite Et, E. change (list_sum ?x) with (fold_right Nat.add 0 x) in *. cbn [fold_right]. f_equal. exact IH.
Qed.
Lemma sels_violated b js : (forall j, In j js -> b (selName (fst j)) = eval b (snd (snd j))) ->
  list_sum (map (fun q => if b (snd q) then 0 else fst q) (selsOf js)) = violated (map snd js) b.
Proof. intros Hj. unfold violated, selsOf. rewrite !map_map. f_equal. apply map_ext_in. intros j J. cbn [fst snd]. rewrite Hj; auto. Qed.
Lemma prefix_app p x : String.prefix p (p ++ x) = true.
Proof. induction p as [|a p IH]; [destruct x; auto|]. cbn. destruct (ascii_dec a a); congruence. Qed.
Lemma sel_prefix i : String.prefix selPrefix (selName i) = true.
Proof. apply prefix_app. Qed.
Lemma selName_inj i j : selName i = selName j -> i = j.
Proof. unfold selName. intros E. cbn in E. injection E as E. apply digits_inj in E. apply Nat2N.inj; auto. Qed.
Lemma free_eval t b b' : freeT t -> (forall x, reserved x = false -> String.prefix selPrefix x = false -> b' x = b x) -> eval b' t = eval b t.
Proof. intros F A. apply eval_agree. intros x O. destruct (F x O) as [F1 F2]. auto. Qed.
Lemma violated_eq ss b b' : (forall t, In t (map snd ss) -> eval b' t = eval b t) -> violated ss b' = violated ss b.
Proof. intros A. unfold violated. f_equal. apply map_ext_in. intros q I. rewrite A; auto. apply in_map; auto. Qed.

(** every assignment that makes the hard formulas true, with matching selectors *)
Lemma with_sels s H X K w hs ss V b n js : minv s H X K w hs ss V -> jsOk n ss js -> (forall t, In t hs -> eval b t = true) ->
  exists b', V b' /\ goalOf hs js b' /\ violated ss b' = violated ss b.
Proof.
  intros M (Es & Nd & _) Hb. pose proof M as [A C D Dk E].
  set (b1 := fun x => match find (fun j => String.eqb x (selName (fst j))) js with Some j => eval b (snd (snd j)) | None => b x end).
  destruct (v_total _ _ (i_winv _ _ _ _ A) b1) as (b2 & Hv & Ag). exists b2.
  assert (Eq : forall t, In t (hs ++ map snd ss) -> eval b2 t = eval b t).
  { intros t J. apply free_eval; [apply D; auto|]. intros x R P. rewrite Ag by (apply nonreserved_aux; auto). unfold b1. destruct (find _ _) as [i|] eqn:Ef; auto. apply find_some in Ef as [_ Ef]. apply String.eqb_eq in Ef. subst x. rewrite sel_prefix in P. discriminate. }
  split; auto. split; [split|].
  - intros t J. rewrite Eq by (apply in_or_app; auto). auto.
  - intros j Ij. rewrite Eq by (apply in_or_app; right; subst ss; apply in_map, in_map; exact Ij). rewrite Ag by (apply nonreserved_aux, sel_reserved). unfold b1.
    destruct (find _ _) as [j'|] eqn:Ef.
    + apply find_some in Ef as [Ij' Ef]. apply String.eqb_eq in Ef. apply selName_inj in Ef. assert (j = j') as ->; auto. clear - Nd Ij Ij' Ef. induction js as [|k js IH]; [destruct Ij|]. cbn in Nd. inversion Nd; subst. destruct Ij as [->|Ij], Ij' as [->|Ij']; auto.
      * exfalso. apply H1. rewrite Ef. apply in_map; auto.
      * exfalso. apply H1. rewrite <- Ef. apply in_map; auto.
    + exfalso. pose proof (find_none _ _ Ef j Ij) as N. cbv beta in N. rewrite String.eqb_refl in N. discriminate.
  - apply violated_eq. intros t J. apply Eq, in_or_app; auto.
Qed.
Lemma goal_cost HH V w P hs n ss js b : mok alg HH V w P (goalOf hs js) (selsOf js) -> jsOk n ss js -> goalOf hs js b -> cost P (view (mnames w) b) = violated ss b.
Proof. intros O (<- & _) [_ G]. unfold cost. rewrite (cost_sels _ b _ _ (mo_soft _ _ _ _ _ _ _ O)). apply sels_violated. exact G. Qed.

Lemma lookup_model (ns : list string) (m : list bool) (b : asg) : NoDup ns -> length m = length ns ->
  (forall p, In p (filter (fun p => negb (String.prefix selPrefix (fst p))) (combine ns m)) -> eval_lit b p = true) ->
  exists b', (forall x, String.prefix selPrefix x = false -> b' x = b x) /\ forall i, i < length ns -> view ns b' i = of_list m i.
Proof.
  intros N L Hb. exists (fun x => if String.prefix selPrefix x then match indexOf x ns with Some i => nth i m false | None => false end else b x). split.
  - intros x E. rewrite E. auto.
  - intros i Li. unfold view, of_list. set (x := nth i ns EmptyString). assert (Ex : nth_error ns i = Some x) by (apply nth_error_nth'; auto).
    destruct (String.prefix selPrefix x) eqn:Ep.
    + destruct (indexOf x ns) as [j|] eqn:Ej.
      * apply indexOf_some in Ej. assert (j = i) as ->; auto. apply (proj1 (NoDup_nth_error ns) N); [apply nth_error_Some; congruence|congruence].
      * apply indexOf_none in Ej. exfalso. apply Ej. eapply nth_error_In; eauto.
    + assert (J : In (x, nth i m false) (combine ns m)). { replace (x, nth i m false) with (nth i (combine ns m) (EmptyString, false)) by (rewrite combine_nth; auto). apply nth_In. rewrite combine_length, L, Nat.min_id. auto. }
      specialize (Hb (x, nth i m false)). unfold eval_lit in Hb. cbn [fst snd] in Hb. rewrite filter_In in Hb. cbn [fst] in Hb. rewrite Ep in Hb. specialize (Hb (conj J eq_refl)). destruct (nth i m false); [auto|]. destruct (b x); auto; discriminate.
Qed.

(** ** C61 *)
Theorem C61_optimum_partial : forall s H X K w hs ss os hd k z ls s' w', mclient s H X K w hs ss -> padded w = false -> fitsW alg (map fst ss) -> (forall i, SatProps.fair (os i)) ->
  returns (fun _ => solveFormulas os hd k alg w) s (AOptimum z ls, w') s' ->
  exists nps, Forall2 (fun l np => Reads s' l (TLit np)) ls nps /\ NoDup (map fst nps) /\ (forall np, In np nps -> String.prefix "@SEL_SOFT_" (fst np) = false) /\
    (forall b, (forall np, In np nps -> eval_lit b np = true) -> (forall t, In t hs -> eval b t = true) /\ violated ss b = z) /\
    (forall b, (forall t, In t hs -> eval b t = true) -> z <= violated ss b).
Proof.
  intros s H X K w hs ss os hd k z ls s' w' Hc Pd Fi Fa Rt. destruct (mclient_inv _ _ _ _ _ _ _ Hc) as (V & M). pose proof M as [A C D Dk E]. destruct (E Pd) as (HH & P & js & O & Jk & _). pose proof (fits_of _ _ _ _ _ _ _ _ O Jk Fi) as Ft.
  destruct Rt as [n0 Rt]. pose proof (Rt n0 (Nat.le_refl _)) as R0. destruct (sSolve os hd k alg (mcore w)) as [[v c]|] eqn:Es; [|unfold solveFormulas in R0; rewrite Es in R0; discriminate].
  destruct v as [| |z' m]; try (unfold solveFormulas in R0; rewrite Es in R0; discriminate).
  destruct (solve_lits s V w os hd k z' m c (i_winv _ _ _ _ A) C Es) as (n1 & r & s2 & V' & Hn & I' & X2 & (ls' & Er & F)). rewrite (Hn (max n0 n1)) in R0 by lia. subst r. injection R0 as -> -> <- <-.
  pose proof (solve_right _ _ _ _ _ _ _ _ _ _ (mo_reach _ _ _ _ _ _ _ O) Ft Fa Es) as (Lm & Fe & Co & Op). set (nps := filter _ _) in F. exists nps. split; [|split; [|split; [|split]]].
  - eapply Forall2_impl; [|exact F]. intros l np Dl. apply Reads_Den; [apply I'|]. apply litDen_Den. exact Dl.
  - subst nps. pose proof (mo_nodup _ _ _ _ _ _ _ O) as Nd. clear - Nd. revert m. induction (mnames w) as [|x ns IH]; intros m; [constructor|]. destruct m as [|e m]; [constructor|]. inversion Nd; subst. cbn [combine filter]. specialize (IH H2 m). destruct (negb _); auto. cbn [map]. constructor; auto.
    cbn [fst]. intros J. apply in_map_iff in J as ([y d] & Ey & J). apply filter_In in J as [J _]. apply in_combine_l in J. cbn in Ey. congruence.
  - intros np J. subst nps. apply filter_In in J as [_ J]. apply negb_true_iff in J. exact J.
  - intros b Hb. destruct (lookup_model (mnames w) m b (mo_nodup _ _ _ _ _ _ _ O) Lm Hb) as (b' & Hx & Hvw).
    assert (Ag : MaxBase.agree (length (mnames w)) (of_list m) (view (mnames w) b')) by (intros i Li; symmetry; auto).
    assert (G : goalOf hs js b') by (apply (mo_sound _ _ _ _ _ _ _ O); eapply feasible_agree; [eapply mok_wf; exact O|exact Ag|exact Fe]).
    assert (Eq : forall t, In t (hs ++ map snd ss) -> eval b' t = eval b t) by (intros t J; apply free_eval; [apply D; auto|auto]).
    split.
    + intros t J. rewrite <- Eq by (apply in_or_app; auto). apply G; auto.
    + rewrite <- (violated_eq ss b b') by (intros t J; apply Eq, in_or_app; auto). rewrite <- (goal_cost _ _ _ _ _ _ _ _ _ O Jk G), <- Co. symmetry. apply (cost_agree (length (mnames w))); auto. eapply mok_wf; exact O.
  - intros b Hb. destruct (with_sels _ _ _ _ _ _ _ _ b _ _ M Jk Hb) as (b' & Hv & G & <-). rewrite <- (goal_cost _ _ _ _ _ _ _ _ _ O Jk G). apply Op. apply (mo_compl _ _ _ _ _ _ _ O); auto.
Qed.
Theorem C61_unsat_partial : forall s H X K w hs ss os hd k s' w', mclient s H X K w hs ss -> padded w = false -> fitsW alg (map fst ss) -> (forall i, SatProps.fair (os i)) ->
  returns (fun _ => solveFormulas os hd k alg w) s (AUnsat, w') s' -> forall b, exists t, In t hs /\ eval b t = false.
Proof.
  intros s H X K w hs ss os hd k s' w' Hc Pd Fi Fa Rt b. destruct (mclient_inv _ _ _ _ _ _ _ Hc) as (V & M). pose proof M as [A C D Dk E]. destruct (E Pd) as (HH & P & js & O & Jk & _). pose proof (fits_of _ _ _ _ _ _ _ _ O Jk Fi) as Ft.
  destruct Rt as [n0 Rt]. pose proof (Rt n0 (Nat.le_refl _)) as R0. destruct (sSolve os hd k alg (mcore w)) as [[v c]|] eqn:Es; [|unfold solveFormulas in R0; rewrite Es in R0; discriminate].
  destruct v as [| |z m].
  - unfold solveFormulas in R0. rewrite Es in R0. discriminate.
  - pose proof (solve_right _ _ _ _ _ _ _ _ _ _ (mo_reach _ _ _ _ _ _ _ O) Ft Fa Es) as Ri. cbn in Ri.
    destruct (forallb (eval b) hs) eqn:Eh.
    + exfalso. rewrite forallb_forall in Eh. destruct (with_sels _ _ _ _ _ _ _ _ b _ _ M Jk Eh) as (b' & Hv & G & _). apply (Ri (view (mnames w) b')). apply (mo_compl _ _ _ _ _ _ _ O); auto.
    + clear - Eh. induction hs as [|t hs IH]; [discriminate|]. cbn in Eh. destruct (eval b t) eqn:Et; [|exists t; cbn; auto]. destruct (IH Eh) as (u & J & Eu). exists u. cbn. auto.
  - destruct (solve_lits s V w os hd k z m c (i_winv _ _ _ _ A) C Es) as (n1 & r & s2 & V' & Hn & I' & X2 & (ls' & Er & F)). rewrite (Hn (max n0 n1)) in R0 by lia. subst r. discriminate.
Qed.
(** no load of a saved state panics; a load that the solver refuses leaves the formulas as they are ([mc_stale]) *)
Theorem C61_load_no_panic_partial : forall s H X K w hs ss st q, mclient s H X K w hs ss -> padded w = false -> In (st, q) K -> loadW st w <> None.
Proof.
  intros s H X K w hs ss st [hs' ss'] Hc Pd Ik. destruct (mclient_inv _ _ _ _ _ _ _ Hc) as (V & M). destruct (mi_mok _ _ _ _ _ _ _ _ M Pd) as (HH & P & js & O & _ & Sv). destruct (Sv _ _ _ Ik) as (ns & P0 & js0 & J0 & _).
  pose proof (C57_load_no_panic _ _ _ _ _ _ _ (mo_reach _ _ _ _ _ _ _ O) J0) as N. unfold loadW. destruct (sLoad st (mcore w)) as [[[|] c]|]; congruence.
Qed.
End Client.
Print Assumptions C61_optimum_partial.
Print Assumptions C61_unsat_partial.
Print Assumptions C61_load_no_panic_partial.

(** ** A concrete history and refutations *)
Lemma mclient_library cf nf alg cv s H X : library cv s H X -> mclient cf nf alg cv s H X [] newMaxw [] [].
Proof.
  intros L. unfold library in L. remember (newFactory cv, [ffalse; ftrue], []) as p. remember (s, H, X) as q. revert s H X Heqq. induction L as [w|w1 w2 w3 _ IH St]; intros s H X E; subst.
  - inversion E; subst. apply mc_new.
  - destruct w2 as [[s2 H2] X2]. eapply mc_lib; [apply (IH eq_refl s2 H2 X2 eq_refl)|exact St].
Qed.
Definition getR {A} (d : A) (r : option (A * state)) : A := match r with Some (a, _) => a | None => d end.
Definition getT {A} (d : state) (r : option (A * state)) : state := match r with Some (_, s) => s | None => d end.
Lemma ex_ret {A} (m : nat -> M A) s a s' : (forall n, m (20 + n) s = Some (a, s')) -> returns m s a s'.
Proof. intros H. exists 20. intros n Hn. replace n with (20 + (n - 20)) by lia. apply H. Qed.
Ltac run := apply ex_ret; intros n; vm_compute; reflexivity.
Ltac held := apply inb_in; vm_compute; reflexivity.
Ltac reads := apply (readf_ok 9); vm_compute; reflexivity.
Ltac free := intros x Hx; simpl in Hx; repeat (destruct Hx as [Hx|Hx]); try contradiction; subst; split; reflexivity.
Definition exNf' : cnfConfig := exNf CNFAdvanced CNFTseitin.
Definition exAlg : algo := WBO false WeightNormal.
Definition exOs : nat -> Sat.oracle := fun _ => SatProps.goO.

(** hard (a | b) <=> c; soft ~a with weight 2, ~b with weight 3, c with weight 4 *)
Definition hMax : list (list formula -> FactoryApi.call) :=
  [fun _ => CVar "a"; fun _ => CVar "b"; fun _ => CVar "c"; fun H => COr [nthf 2 H; nthf 1 H]; fun H => CEquiv (nthf 0 H) (nthf 1 H); fun _ => CLit "a" false; fun _ => CLit "b" false]%string.
Definition xs0 : state := fst (lworld hMax).
Definition xH : list formula := snd (lworld hMax).
Definition xr1 := addHardFormula exCf exNf' 20 (nthf 2 xH) newMaxw xs0.
Definition xw1 := getR newMaxw xr1. Definition xs1 := getT xs0 xr1.
Definition xr2 := addSoftFormula exCf exNf' 20 (nthf 1 xH) 2 xw1 xs1.
Definition xw2 := snd (getR (true, newMaxw) xr2). Definition xs2 := getT xs0 xr2.
Definition xr3 := addSoftFormula exCf exNf' 20 (nthf 0 xH) 3 xw2 xs2.
Definition xw3 := snd (getR (true, newMaxw) xr3). Definition xs3 := getT xs0 xr3.
Definition xr4 := addSoftFormula exCf exNf' 20 (nthf 4 xH) 4 xw3 xs3.
Definition xw4 := snd (getR (true, newMaxw) xr4). Definition xs4 := getT xs0 xr4.
Definition xna : tree := TLit ("a", false)%string. Definition xnb : tree := TLit ("b", false)%string.
Example ex_formulas : mclient exCf exNf' exAlg false xs4 xH [] [] xw4 [tEq] [(2, xna); (3, xnb); (4, vc)] /\ padded xw4 = false /\ fitsW exAlg [2; 3; 4] /\
  match solveFormulas exOs go 200 exAlg xw4 xs4 with Some (AOptimum k ls, _, s) => k = 2 /\ map (readf 9 s) ls = map Some [va; vc; xnb] | _ => False end.
Proof.
  assert (C0 : mclient exCf exNf' exAlg false xs0 xH [] [] newMaxw [] []) by (apply mclient_library, lworld_library; vm_compute; discriminate).
  assert (C1 : mclient exCf exNf' exAlg false xs1 xH [] [] xw1 [tEq] []). { eapply (mc_hard _ _ _ _ _ _ _ _ _ [] _ (nthf 2 xH) tEq); [exact C0|held|reads|apply pbfree_encodable; reflexivity|free|]. run. }
  assert (C2 : mclient exCf exNf' exAlg false xs2 xH [] [] xw2 [tEq] [(2, xna)]). { eapply (mc_soft _ _ _ _ _ _ _ _ _ _ [] (nthf 1 xH) xna 2); [exact C1|held|reads|exact I|free|]. run. }
  assert (C3 : mclient exCf exNf' exAlg false xs3 xH [] [] xw3 [tEq] [(2, xna); (3, xnb)]). { eapply (mc_soft _ _ _ _ _ _ _ _ _ _ [(2, xna)] (nthf 0 xH) xnb 3); [exact C2|held|reads|exact I|free|]. run. }
  assert (C4 : mclient exCf exNf' exAlg false xs4 xH [] [] xw4 [tEq] [(2, xna); (3, xnb); (4, vc)]). { eapply (mc_soft _ _ _ _ _ _ _ _ _ _ [(2, xna); (3, xnb)] (nthf 4 xH) vc 4); [exact C3|held|reads|exact I|free|]. run. }
  split; [exact C4|]. split; [vm_compute; reflexivity|]. split; [right; left; eexists; reflexivity|]. vm_compute. split; reflexivity.
Qed.

(** the state with the first two soft formulas is saved, c is added as a hard formula, and the problem is solved; after the load the soft formulas are the two again, and the next
    one does not reuse a selector *)
Definition vr := saveW xw3. Definition vst := match vr with Some (st, _) => st | None => MState 0 0 0 0 0 0 [] end.
Definition vw3 := match vr with Some (_, w) => w | None => newMaxw end.
Definition vr4 := addHardFormula exCf exNf' 20 (nthf 4 xH) vw3 xs3.
Definition vw4 := getR newMaxw vr4. Definition vs4 := getT xs0 vr4.
Definition vr5 := solveFormulas exOs go 200 exAlg vw4 vs4.
Definition va5 := fst (getR (AUnsat, newMaxw) vr5). Definition vw5 := snd (getR (AUnsat, newMaxw) vr5). Definition vs5 := getT xs0 vr5.
Definition vw6 := match loadW vst vw5 with Some (_, w) => w | None => newMaxw end.
Definition vr7 := addSoftFormula exCf exNf' 20 (nthf 4 xH) 4 vw6 vs5.
Definition vw7 := snd (getR (true, newMaxw) vr7). Definition vs7 := getT xs0 vr7.
Example ex_saved : mclient exCf exNf' exAlg false vs7 (answerLits va5 ++ xH) [] [(vst, ([tEq], [(2, xna); (3, xnb)]))] vw7 [tEq] [(2, xna); (3, xnb); (4, vc)] /\ padded vw7 = false /\
  match va5 with AOptimum k _ => k = 2 | _ => False end /\ length (mnames vw5) = length (mnames vw6) /\ selCtr vw7 = 3 /\
  match solveFormulas exOs go 200 exAlg vw7 vs7 with Some (AOptimum k ls, _, s) => k = 2 /\ map (readf 9 s) ls = map Some [va; vc; xnb] | _ => False end.
Proof.
  assert (C0 : mclient exCf exNf' exAlg false xs0 xH [] [] newMaxw [] []) by (apply mclient_library, lworld_library; vm_compute; discriminate).
  assert (C1 : mclient exCf exNf' exAlg false xs1 xH [] [] xw1 [tEq] []). { eapply (mc_hard _ _ _ _ _ _ _ _ _ [] _ (nthf 2 xH) tEq); [exact C0|held|reads|apply pbfree_encodable; reflexivity|free|]. run. }
  assert (C2 : mclient exCf exNf' exAlg false xs2 xH [] [] xw2 [tEq] [(2, xna)]). { eapply (mc_soft _ _ _ _ _ _ _ _ _ _ [] (nthf 1 xH) xna 2); [exact C1|held|reads|exact I|free|]. run. }
  assert (C3 : mclient exCf exNf' exAlg false xs3 xH [] [] xw3 [tEq] [(2, xna); (3, xnb)]). { eapply (mc_soft _ _ _ _ _ _ _ _ _ _ [(2, xna)] (nthf 0 xH) xnb 3); [exact C2|held|reads|exact I|free|]. run. }
  assert (S3 : mclient exCf exNf' exAlg false xs3 xH [] [(vst, ([tEq], [(2, xna); (3, xnb)]))] vw3 [tEq] [(2, xna); (3, xnb)]). { apply (mc_save _ _ _ _ _ _ _ [] xw3); [exact C3|vm_compute; reflexivity]. }
  assert (S4 : mclient exCf exNf' exAlg false vs4 xH [] [(vst, ([tEq], [(2, xna); (3, xnb)]))] vw4 [tEq; vc] [(2, xna); (3, xnb)]). { eapply (mc_hard _ _ _ _ _ _ _ _ _ [tEq] _ (nthf 4 xH) vc); [exact S3|held|reads|exact I|free|]. run. }
  assert (S5 : mclient exCf exNf' exAlg false vs5 (answerLits va5 ++ xH) [] [(vst, ([tEq], [(2, xna); (3, xnb)]))] vw5 [tEq; vc] [(2, xna); (3, xnb)]). { eapply (mc_solve _ _ _ _ _ _ _ _ _ _ _ exOs go 200); [exact S4|right; left; eexists; reflexivity|intros i; apply goO_fair|run|vm_compute; discriminate]. }
  assert (S6 : mclient exCf exNf' exAlg false vs5 (answerLits va5 ++ xH) [] [(vst, ([tEq], [(2, xna); (3, xnb)]))] vw6 [tEq] [(2, xna); (3, xnb)]). { eapply mc_load; [exact S5|left; reflexivity|vm_compute; reflexivity]. }
  assert (S7 : mclient exCf exNf' exAlg false vs7 (answerLits va5 ++ xH) [] [(vst, ([tEq], [(2, xna); (3, xnb)]))] vw7 [tEq] [(2, xna); (3, xnb); (4, vc)]). { eapply (mc_soft _ _ _ _ _ _ _ _ _ _ [(2, xna); (3, xnb)] (nthf 4 xH) vc 4); [exact S6|apply in_or_app; right; held|reads|exact I|free|]. run. }
  split; [exact S7|]. split; [vm_compute; reflexivity|]. split; [vm_compute; reflexivity|]. split; [vm_compute; reflexivity|]. split; [vm_compute; reflexivity|]. vm_compute. split; reflexivity.
Qed.

(** The constant false has one atom and no literal, so its clause vector is filled up with the number 0, the positive literal of the first variable: after a
    and the constant false as hard formulas the solver still reports an optimum. *)
Definition yr1 := addHardFormula exCf exNf' 20 (nthf 6 xH) newMaxw xs0.
Definition yw1 := getR newMaxw yr1. Definition ys1 := getT xs0 yr1.
Definition yr2 := addHardFormula exCf exNf' 20 ffalse yw1 ys1.
Definition yw2 := getR newMaxw yr2. Definition ys2 := getT xs0 yr2.
Theorem C61_hard_false_refuted : forall alg, In alg [LinearSU; LinearUS IncNone; MSU3 IncIterative; WBO false WeightNone; WBO true WeightDiversify] ->
  exists s H w k s' w' ls, mclient exCf exNf' alg false s H [] [] w [va; TFalse] [] /\ (forall i, SatProps.fair (exOs i)) /\ solveFormulas exOs go k alg w s = Some (AOptimum 0 ls, w', s').
Proof.
  intros alg Ia. assert (C0 : mclient exCf exNf' alg false xs0 xH [] [] newMaxw [] []) by (apply mclient_library, lworld_library; vm_compute; discriminate).
  assert (C1 : mclient exCf exNf' alg false ys1 xH [] [] yw1 [va] []). { eapply (mc_hard _ _ _ _ _ _ _ _ _ [] _ (nthf 6 xH) va); [exact C0|held|reads|exact I|free|]. run. }
  assert (C2 : mclient exCf exNf' alg false ys2 xH [] [] yw2 [va; TFalse] []). { eapply (mc_hard _ _ _ _ _ _ _ _ _ [va] _ ffalse TFalse); [exact C1|held|reads|exact I|intros x []|]. run. }
  exists ys2, xH, yw2, 60. repeat destruct Ia as [<-|Ia]; try contradiction; do 3 eexists; (split; [exact C2|]); (split; [intros i; apply goO_fair|]); vm_compute; reflexivity.
Qed.
Print Assumptions C61_hard_false_refuted.

(** A clause built with a repeated literal keeps it, and is its own conjunctive normal form: its vector has two entries and one literal, and is filled up in
    the same way.  The hard formulas a, (b | b) and ~b have no model, but the solver reports an optimum. *)
Definition hTwice : list (list formula -> FactoryApi.call) := [fun _ => CVar "a"; fun _ => CVar "b"; fun H => CClause [nthf 0 H; nthf 0 H]; fun _ => CLit "b" false]%string.
Definition zs0 : state := fst (lworld hTwice).
Definition zH : list formula := snd (lworld hTwice).
Definition zr1 := addHardFormula exCf exNf' 20 (nthf 3 zH) newMaxw zs0.
Definition zw1 := getR newMaxw zr1. Definition zs1 := getT zs0 zr1.
Definition zr2 := addHardFormula exCf exNf' 20 (nthf 1 zH) zw1 zs1.
Definition zw2 := getR newMaxw zr2. Definition zs2 := getT zs0 zr2.
Definition zr3 := addHardFormula exCf exNf' 20 (nthf 0 zH) zw2 zs2.
Definition zw3 := getR newMaxw zr3. Definition zs3 := getT zs0 zr3.
Theorem C61_repeated_literal_refuted : forall alg, In alg [LinearSU; LinearUS IncNone; MSU3 IncIterative; WBO false WeightNone; WBO true WeightDiversify] ->
  exists s H w k s' w' ls, mclient exCf exNf' alg false s H [] [] w [va; TOr [vb; vb]; xnb] [] /\ (forall i, SatProps.fair (exOs i)) /\ solveFormulas exOs go k alg w s = Some (AOptimum 0 ls, w', s').
Proof.
  intros alg Ia. assert (C0 : mclient exCf exNf' alg false zs0 zH [] [] newMaxw [] []) by (apply mclient_library, lworld_library; vm_compute; discriminate).
  assert (C1 : mclient exCf exNf' alg false zs1 zH [] [] zw1 [va] []). { eapply (mc_hard _ _ _ _ _ _ _ _ _ [] _ (nthf 3 zH) va); [exact C0|held|reads|exact I|free|]. run. }
  assert (C2 : mclient exCf exNf' alg false zs2 zH [] [] zw2 [va; TOr [vb; vb]] []). { eapply (mc_hard _ _ _ _ _ _ _ _ _ [va] _ (nthf 1 zH) (TOr [vb; vb])); [exact C1|held|reads|apply pbfree_encodable; reflexivity|free|]. run. }
  assert (C3 : mclient exCf exNf' alg false zs3 zH [] [] zw3 [va; TOr [vb; vb]; xnb] []). { eapply (mc_hard _ _ _ _ _ _ _ _ _ [va; TOr [vb; vb]] _ (nthf 0 zH) xnb); [exact C2|held|reads|exact I|free|]. run. }
  exists zs3, zH, zw3, 60. repeat destruct Ia as [<-|Ia]; try contradiction; do 3 eexists; (split; [exact C3|]); (split; [intros i; apply goO_fair|]); vm_compute; reflexivity.
Qed.
Print Assumptions C61_repeated_literal_refuted.
