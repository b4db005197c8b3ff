(** * C28: the advanced simplifier and the propagation of backbones *)
From Coq Require Import String Ascii List Bool ZArith NArith Lia.
From Verif Require Import Spec Factory FactoryProofs FactoryProofs2 FactoryProofs3 FactoryApi FactoryProps Assign NormalForm NfBase NfAssign AssignProps NfEnc NfNnf NfCnf NfFun NfTseitin Simplify SimpBase SimpProofs SubsProofs BddPaths NfApi NfProps SimplifyProps PrimeSpec ExplainSpec Advanced AdvancedSpec AdvProofs.
From Verif Require Solver Smus Primes SmusProps DnnfCompile.
Import ListNotations.
Local Open Scope list_scope.

(** The advanced simplifier: for every configuration, every rating function, every printed length and all
    right answers of the solvers.  Equivalent and over the variables of the formula; cancelled only if a
    handler said so.  With constraints it needs that negations are not minimized, which may return an
    encoding. *)
Theorem C28_advanced : forall cv s H X len cf less cfg start bb E1 E2 f t, library cv s H X -> Reads s f t ->
  Solver.env_ok E1 -> Solver.env_ok E2 -> SmusProps.plain t -> bbRight s t bb -> (ac_negations cfg = true -> pbfree t = true) ->
  exists r s', returns (fun n => advanced len cf less cfg n start bb E1 E2 f) s r s' /\ keeps s s' /\
    match r with
    | AdvOk g => exists u, Reads s' g u /\ equiv t u /\ within t u
    | AdvCancelled => start = false \/ (bb = BbCancelled /\ ac_backbone cfg = true) \/ ~ Solver.uncancelled E1 \/ ~ Solver.uncancelled E2
    end.
Proof.
  intros cv s H X len cf less cfg start bb E1 E2 f t Hl Hr O1 O2 Pl B HN.
  destruct (library_wp (fun n => advanced len cf less cfg n start bb E1 E2 f) cv s H X f t
    (fun r s' _ => AdvPost E1 E2 t r s' \/ (r = AdvCancelled /\ (start = false \/ (bb = BbCancelled /\ ac_backbone cfg = true)))) Hl Hr) as (r & s' & V' & R & Kp & I' & HP).
  { intros V [I _ _] D. apply advanced_ok; auto. }
  exists r, s'. split; auto. split; auto. destruct r as [g|].
  - destruct HP as [(u & Du & Eu & Nu)|[E _]]; [|discriminate]. exists u. split; [eapply winv_Reads; eauto|]. auto.
  - destruct HP as [HP|(_ & HP)]; [cbn in HP|]; tauto.
Qed.
(** The Quine-McCluskey simplifier: a smallest disjunction of prime implicants *)
Theorem C28_qmc : forall cv s H X len cf less bb E1 E2 f t, library cv s H X -> Reads s f t ->
  Solver.env_ok E1 -> Solver.env_ok E2 -> SmusProps.plain t ->
  exists r s', returns (fun n => advanced len cf less qmcAdv n true bb E1 E2 f) s r s' /\ keeps s s' /\
    match r with
    | AdvOk g => exists u, Reads s' g u /\ equiv t u /\ within t u /\ minDNF t u
    | AdvCancelled => ~ Solver.uncancelled E1 \/ ~ Solver.uncancelled E2
    end.
Proof.
  intros cv s H X len cf less bb E1 E2 f t Hl Hr O1 O2 Pl.
  destruct (library_wp (fun n => advanced len cf less qmcAdv n true bb E1 E2 f) cv s H X f t (fun r s' _ => DNFPost E1 E2 t r s') Hl Hr) as (r & s' & V' & R & Kp & I' & HP).
  { intros V [I _ _] D. apply qmc_ok; auto. }
  exists r, s'. split; auto. split; auto. destruct r as [g|]; auto. destruct HP as (u & Du & Eu & Nu & M). exists u. split; [eapply winv_Reads; eauto|]. split; auto. split; auto. apply narrow2_narrow; auto.
Qed.

(** the answer of a backbone computation without handler *)
Definition bbOf (bb : option (list formula * list formula)) : bbAnswer := match bb with None => BbUnsat | Some (ps, ns) => BbSat ps ns end.
Lemma negLits_ok s V ns ys : winv s V -> Forall2 (litDen s) ns (map (fun x => (x, true)) ys) ->
  wp (fun _ => mapM (fun v => np <- DnnfCompile.litName v ;; up (Lit (fst np) (negb (snd np)))) ns) s V (fun ls s' V' => Forall2 (litDen s') ls (map (fun x => (x, false)) ys)).
Proof.
  intros I Fn. eapply wp_conseq.
  { apply (wp_mapM (fun _ v => np <- DnnfCompile.litName v ;; up (Lit (fst np) (negb (snd np)))) (fun s l q => litDen s l (q, true)) (fun s V l q => litDen s l (q, false))) with (cs := ys); auto.
    - intros t1 W1 t2 W2 X a q Da. eapply wext_litDen; eauto.
    - intros t1 W1 t2 W2 X a q Da. eapply wext_litDen; eauto.
    - intros a q _ _ t2 W2 J2 X2 Da. unfold DnnfCompile.litName. apply (wp_get _ (fun _ np => up (Lit (fst np) (negb (snd np))))).
      pose proof (v_wf _ _ J2) as [W T]. assert (E : literals t2 a = Some (q, true)) by (apply node_lit; auto). rewrite E. cbn [fst snd negb].
      apply wp_up_last. destruct (Lit q false t2) as [r t3] eqn:E3. destruct (winv_lit _ _ _ _ _ _ J2 (v_fresh t2 W2 J2 q (lit_name t2 a (q, true) (conj W T) Da)) E3) as (I3 & X3 & D3). eapply wp_up; [exact E3|exact X3|]. apply wp_ret; auto.
    - clear - Fn. revert ns Fn. induction ys as [|y ys IH]; intros ns F; inversion F; subst; constructor; auto. }
  cbv beta. intros ls s1 V1 _ _ G. clear - G. induction G; cbn; constructor; auto.
Qed.
(** PropagateBackbone: for every formula and every right answer of the solver *)
Theorem C28_propagateBackbone : forall cv s H X bb f t, library cv s H X -> Reads s f t -> bbRight s t (bbOf bb) ->
  exists g s' u, returns (fun n => DnnfCompile.propagateBackbone n bb f) s g s' /\ keeps s s' /\ Reads s' g u /\ equiv t u /\ within t u.
Proof.
  intros cv s H X bb f t Hl Hr B.
  destruct (library_wp (fun n => DnnfCompile.propagateBackbone n bb f) cv s H X f t (fun g s' _ => same t g s') Hl Hr) as (g & s' & V' & R & Kp & I' & u & Du & Eu & Nu).
  { intros V [I _ _] D. destruct bb as [[ps ns]|]; cbn [bbOf bbRight] in B.
    - destruct B as (Sat & xs & ys & Rp & Rn & Hx & Hy).
      assert (Go : wp (fun n => nls <- mapM (fun v => np <- DnnfCompile.litName v ;; up (Lit (fst np) (negb (snd np)))) ns ;; b <- up (Minterm (ps ++ nls)) ;;
        match newAssignment (ps ++ nls) with None => fail | Some a => r <- restrict n a f ;; up (And [b; r]) end) s V (fun g s' V' => same t g s')).
      { eapply wp_bind; [apply (negLits_ok s V ns ys I); eapply reads_lits; eauto|]. cbv beta. intros nls s1 V1 I1 X1 G.
        assert (F : Forall2 (litDen s1) (ps ++ nls) (bbNames xs ys)) by (apply Forall2_app; auto; eapply wext_litDens; [exact X1|eapply reads_lits; eauto]).
        destruct (Minterm (ps ++ nls) s1) as [m s2] eqn:E. destruct (winv_minterm _ _ _ _ _ _ I1 F E) as (I2 & X2 & w & Dw & Eqw & Hw). eapply wp_up; [exact E|exact X2|].
        destruct (newAssignment_some s1 _ _ (v_wf _ _ I1) F (bbNames_consistent t xs ys Hx Hy Sat)) as (a & Ea). rewrite Ea.
        assert (F2 : Forall2 (litDen s2) (ps ++ nls) (bbNames xs ys)) by (eapply wext_litDens; eauto).
        eapply wp_bind; [apply (restrict_full a (bbNames xs ys) t s2 V1 f I2); [exists (ps ++ nls); auto|eapply wext_Den; [exact X2|eapply wext_Den; eauto]]|]. cbv beta. intros g s3 V3 I3 X3 (t1 & Dg & Rt & Nt).
        eapply wp_conseq; [apply (wp_nary2 SAnd s3 V3 [m; g] [w; t1] (or_introl eq_refl) I3)|].
        { constructor; auto. eapply wext_Den; eauto. }
        cbv beta. intros h s4 V4 _ _ (-> & x & Dx & Ex & Nx & _). exists x. split; auto. split.
        - intros b. rewrite Ex. cbn. rewrite andb_true_r, (bb_eval t xs ys Hx Hy t1 Sat Rt b), Eqw, eval_and_lits. auto.
        - eapply narrow2_trans'; [exact Nx|]. intros y Oy. apply (occ2_mk SAnd y [w; t1] (or_introl eq_refl)) in Oy as (z & [<-|[<-|[]]] & Oz); [|apply Nt; auto].
          assert (T : termish w) by (eapply mintermish_eq; eauto). destruct y as [y|]; [|apply occ2_pbfree in Oz; rewrite (termish_free w T) in Oz; discriminate].
          apply occ2_occurs in Oz. destruct (termish_occurs w y T Oz) as (p & Lp). rewrite Hw in Lp. apply term_lits in Lp. apply occ2_occurs. apply (bbNames_in t xs ys Hx Hy) in Lp. apply Lp. }
      unfold DnnfCompile.propagateBackbone. destruct ps as [|p ps]; [destruct ns as [|q ns]|]; auto. apply wp_ret; auto. exists t. split; auto. split; [intros b; auto|intros x; auto].
    - apply wp_ret; auto. exists TFalse. split; [apply Den_false|]. split; [exact B|intros [x|] O; destruct O]. }
  exists g, s', u. split; auto. split; auto. split; [eapply winv_Reads; eauto|]. split; auto. apply narrow2_narrow; auto.
Qed.

(** ** The hypotheses are met *)
(** a & ~d & ((b & c) | (b & e) | d); its backbone is a, b and ~d *)
Definition hAdv : list (list formula -> call) :=
  [ (fun _ => CVar "a"); (fun _ => CVar "b"); (fun _ => CVar "c"); (fun _ => CVar "d"); (fun _ => CVar "e"); (fun _ => CLit "d" false);
    (fun h => CAnd [nthf 4 h; nthf 3 h]); (fun h => CAnd [nthf 5 h; nthf 2 h]); (fun h => COr [nthf 1 h; nthf 0 h; nthf 4 h]);
    (fun h => CAnd [nthf 8 h; nthf 3 h; nthf 0 h]) ]%string.
Definition sAdv : state := fst (lworld hAdv).
Definition fAdv : formula := nthf 0 (snd (lworld hAdv)).
Definition tAdv : tree := TAnd [cl "a" true; cl "d" false; TOr [TAnd [cl "b" true; cl "c" true]; TAnd [cl "b" true; cl "e" true]; cl "d" true]].
Definition bbPos : list formula := [nthf 9 (snd (lworld hAdv)); nthf 8 (snd (lworld hAdv))].
Definition bbNeg : list formula := [nthf 6 (snd (lworld hAdv))].
Definition advForm (r : advRes) : formula := match r with AdvOk g => g | AdvCancelled => fzero end.
(** a rating that prefers the formula created first *)
Definition early : rating := fun _ g f => N.ltb (fid g) (fid f).
Lemma forced_ex x v : In (x, v) [("a", true); ("b", true); ("d", false)]%string -> forced tAdv x v.
Proof.
  intros J. split.
  - cbn in J. destruct J as [E|[E|[E|[]]]]; injection E as <- <-; cbn; tauto.
  - intros b E. cbn in E, J. unfold eval_lit in E. cbn in E. destruct J as [K|[K|[K|[]]]]; injection K as <- <-; destruct (b "a"%string), (b "d"%string), (b "b"%string); cbn in E; auto; discriminate.
Qed.
Example advanced_example :
  library false sAdv (snd (lworld hAdv)) [] /\ Reads sAdv fAdv tAdv /\ Solver.env_ok Solver.bruteEnv /\ Solver.uncancelled Solver.bruteEnv /\
  SmusProps.plain tAdv /\ bbRight sAdv tAdv (BbSat bbPos bbNeg) /\ pbfree tAdv = true /\
  result (fun n => advanced fid exCf (fun _ _ _ => true) (AdvCfg true true true true) n true (BbSat bbPos bbNeg) Solver.bruteEnv Solver.bruteEnv fAdv) 20 advForm sAdv =
    Some (TAnd [cl "a" true; cl "b" true; cl "d" false; TOr [cl "e" true; cl "c" true]]) /\
  result (fun n => DnnfCompile.propagateBackbone n (Some (bbPos, bbNeg)) fAdv) 20 (fun g => g) sAdv =
    Some (TAnd [cl "a" true; cl "b" true; cl "d" false; TOr [cl "c" true; cl "e" true]]).
Proof.
  split; [apply lworld_library; vm_compute; discriminate|]. split; [apply (readf_ok 9); vm_compute; reflexivity|]. split; [apply Solver.bruteEnv_ok|]. split; [apply Solver.bruteEnv_ok|].
  split; [|split; [|split; [reflexivity|]]].
  - intros x Hx [i [-> | ->]]; cbn in Hx; repeat (destruct Hx as [Hx|Hx]; [discriminate Hx|]); exact Hx.
  - cbn [bbRight]. split; [exists (fun x => negb (String.eqb x "d")); reflexivity|]. exists ["a"; "b"]%string, ["d"]%string.
    split; [repeat constructor; apply (readf_ok 9); vm_compute; reflexivity|]. split; [repeat constructor; apply (readf_ok 9); vm_compute; reflexivity|].
    split; intros x J; apply forced_ex; cbn in *; destruct J as [<-|J]; auto; destruct J as [<-|J]; auto; destruct J.
  - split; vm_compute; reflexivity.
Qed.
(** (a & b) | (~a & c) | (b & c): three prime implicants, two of them are enough *)
Definition hQmc : list (list formula -> call) :=
  [ (fun _ => CVar "a"); (fun _ => CVar "b"); (fun _ => CVar "c"); (fun _ => CLit "a" false);
    (fun h => CAnd [nthf 3 h; nthf 2 h]); (fun h => CAnd [nthf 1 h; nthf 2 h]); (fun h => CAnd [nthf 4 h; nthf 3 h]); (fun h => COr [nthf 2 h; nthf 1 h; nthf 0 h]) ]%string.
Definition sQmc : state := fst (lworld hQmc).
Definition fQmc : formula := nthf 0 (snd (lworld hQmc)).
Definition tQmc : tree := TOr [TAnd [cl "a" true; cl "b" true]; TAnd [cl "a" false; cl "c" true]; TAnd [cl "b" true; cl "c" true]].
Example qmc_example :
  library false sQmc (snd (lworld hQmc)) [] /\ Reads sQmc fQmc tQmc /\ SmusProps.plain tQmc /\
  result (fun n => advanced fid exCf early qmcAdv n true BbUnsat Solver.bruteEnv Solver.bruteEnv fQmc) 20 advForm sQmc =
    Some (TOr [TAnd [cl "a" false; cl "c" true]; TAnd [cl "a" true; cl "b" true]]).
Proof.
  split; [apply lworld_library; vm_compute; discriminate|]. split; [apply (readf_ok 9); vm_compute; reflexivity|].
  split; [|vm_compute; reflexivity].
  intros x Hx [i [-> | ->]]; cbn in Hx; repeat (destruct Hx as [Hx|Hx]; [discriminate Hx|]); exact Hx.
Qed.

Print Assumptions C28_advanced.
Print Assumptions C28_qmc.
Print Assumptions C28_propagateBackbone.
