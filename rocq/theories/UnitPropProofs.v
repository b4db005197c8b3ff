(** * Unit propagation: the lemmas *)
From Coq Require Import String Ascii List Bool Arith ZArith NArith Lia.
From Verif Require Sat SatSpec SatInv SatProp SatSearch SatSolve SatLoop SatProps.
From Verif Require Import Spec Factory FactoryProofs FactoryProofs2 FactoryProofs3 FactoryApi FactoryProps Assign AssignProps EncSpec EncApi EncPbc EncProps NormalForm NfBase NfAssign NfEnc NfNnf NfCnf NfFun NfTseitin NfPg NfAig NfApi NfProps SatApi SatApiInv SatApiPg SatApiAdd SatApiHist Simplify SimpBase UnitPropSpec UnitProp.
Import ListNotations.
Local Close Scope N_scope.
Local Open Scope list_scope.

(** ** No variable of the propagator has a name that the solver makes *)
Definition clean (w : solver) : Prop := forall x, In x (vnames w) -> forall i, x <> pgName i.
Lemma literalOf_names cfg l s w p s' w' : literalOf cfg l s w = SRet p s' w' -> s' = s /\ forall x, In x (vnames w') -> In x (vnames w) \/ x = EmptyString \/ exists l q, literals s l = Some (x, q).
Proof.
  unfold literalOf, namePhase, liftF, get, sbind, solverLiteral, getW, sret, newNamed, liftC, putW. unfold sbind.
  set (np := match literals s l with Some np => np | None => (EmptyString, false) end).
  assert (N : fst np = EmptyString \/ exists l q, literals s l = Some (fst np, q)). { unfold np. destruct (literals s l) as [[x q]|] eqn:E; auto. right. exists l, q. auto. }
  clearbody np. cbn [fst snd]. destruct (indexOf (fst np) (vnames w)) as [i|]; [intros E; inversion E; subst; auto|].
  destruct (Sat.newVar _ _ (core w)) as [v c| |]; try discriminate. intros E. inversion E; subst. split; auto. cbn [vnames]. intros x J. apply in_app_iff in J as [J|[<-|[]]]; auto.
Qed.
Lemma literals_names cfg : forall ls s w ps s' w', mapS (literalOf cfg) ls s w = SRet ps s' w' -> s' = s /\ forall x, In x (vnames w') -> In x (vnames w) \/ x = EmptyString \/ exists l q, literals s l = Some (x, q).
Proof.
  induction ls as [|l ls IH]; intros s w ps s' w' E; cbn [mapS] in E; [inversion E; subst; auto|].
  unfold sbind at 1 in E. destruct (literalOf cfg l s w) as [p s1 w1| |] eqn:E1; try discriminate. destruct (literalOf_names _ _ _ _ _ _ _ E1) as [-> H1].
  unfold sbind in E. destruct (mapS (literalOf cfg) ls s w1) as [qs s2 w2| |] eqn:E2; try discriminate. destruct (IH _ _ _ _ _ E2) as [-> H2]. inversion E; subst. split; auto.
  intros x J. destruct (H2 x J) as [J1|J1]; auto.
Qed.
Lemma addClauseF_names cfg k n f s w s' w' : addClauseF cfg k n f s w = SRet tt s' w' -> forall x, In x (vnames w') -> In x (vnames w) \/ x = EmptyString \/ exists l q, literals s' l = Some (x, q).
Proof.
  unfold addClauseF, generateClauseVector. unfold sbind at 1. unfold liftF. destruct (literalsOf n f s) as [[ls s1]|]; try discriminate.
  unfold sbind at 1. destruct (mapS (literalOf cfg) (sortF ls) s1 w) as [ps s2 w2| |] eqn:E; try discriminate. destruct (literals_names _ _ _ _ _ _ _ E) as [-> H].
  unfold addClauseC, sbind, liftC, sret. destruct (Sat.addClause k ps (core w2)); try discriminate. intros E2. inversion E2; subst. cbn [vnames]. exact H.
Qed.
Lemma pgName_nonempty i : EmptyString <> pgName i. Proof. discriminate. Qed.

Section Add.
Variables (cfg : satConfig) (k : nat) (G : asg -> Prop).
Notation sinv := (sinv cfg G [] []).
Notation awp := (awp cfg G [] []).
Lemma addClauseF_clean f s V w cs defs Q : clean w -> awp (fun n => addClauseF cfg k n f) s V w cs defs [] [] Q ->
  awp (fun n => addClauseF cfg k n f) s V w cs defs [] [] (fun a s' V' w' cs' defs' => clean w' /\ Q a s' V' w' cs' defs').
Proof.
  intros C (n0 & r & E & H). exists n0, r. split; auto. destruct r as [[] s' w'| |]; auto. destruct H as (V' & cs' & defs' & X & S & Gr & Kp & HQ). exists V', cs', defs'.
  split; auto. split; auto. split; auto. split; auto. split; auto. intros x J i Ex. pose proof (E n0 (le_n _)) as E0.
  destruct (addClauseF_names _ _ _ _ _ _ _ _ E0 x J) as [J'|[J'|(l & q & J')]].
  - exact (C x J' i Ex).
  - subst. exact (pgName_nonempty i (eq_sym J')).
  - pose proof (si_winv _ _ _ _ _ _ _ _ _ _ S) as I. apply (v_fresh _ _ I x); [|right; eauto]. pose proof (v_wf _ _ I) as W. apply (lit_name s' l (x, q) W). apply node_lit; auto. apply W.
Qed.
Lemma addClauses_clean : forall ts fs s V w cs defs, sinv s V w cs defs [] -> clean w -> Forall2 (Den s) fs ts -> forallb clauseT ts = true -> (forall t, In t ts -> goal G V t true) ->
  awp (fun n => eachS (addClauseF cfg k n) fs) s V w cs defs [] [] (fun _ s' V' w' cs' defs' => clean w' /\ forall t, In t ts -> says (vnames w') cs' t true).
Proof.
  induction ts as [|t ts IH]; intros fs s V w cs defs S C D Hc HG; inversion D; subst; cbn [eachS]; [apply awp_ret; auto; split; auto; intros t []|].
  cbn in Hc. apply andb_true_iff in Hc as [Hc Hcs]. eapply awp_bind; [apply addClauseF_clean; auto; apply (addClauseF_ok cfg k G [] [] x t); auto; apply HG; left; auto|apply incl_refl|].
  cbv beta. intros _ s1 V1 w1 cs1 defs1 X1 S1 Gr1 [C1 Sy1].
  eapply awp_conseq; [apply (IH l s1 V1 w1 cs1 defs1); auto|].
  - clear - X1 H3. induction H3; constructor; auto. eapply wext_Den; eauto.
  - intros u Ju. eapply goal_sub; [|apply HG; right; auto]. apply X1.
  - cbv beta. intros _ s2 V2 w2 cs2 defs2 _ _ Gr2 [C2 Sy2]. split; auto. intros u [<-|Ju]; auto. eapply says_grow; eauto.
Qed.
Lemma addClauseSet_clean f t s V w cs defs : sinv s V w cs defs [] -> clean w -> Den s f t -> is_cnf t = true -> goal G V t true ->
  awp (fun n => addClauseSet cfg k n f) s V w cs defs [] [] (fun _ s' V' w' cs' defs' => clean w' /\ says (vnames w') cs' t true).
Proof.
  intros S C Hd Hc HG. pose proof (si_winv _ _ _ _ _ _ _ _ _ _ S) as I. unfold addClauseSet. rewrite (Den_sort _ _ _ Hd).
  destruct t; try discriminate; try (apply addClauseF_clean; auto; apply (addClauseF_ok cfg k G [] [] f); auto; fail).
  - apply awp_ret; auto. split; auto. intros b _. reflexivity.
  - apply (awp_get cfg G [] []). eapply awp_conseq; [apply (addClauses_clean ts); auto|].
    + apply opNary_and; auto. apply I.
    + apply forallb_forall. intros u Ju. simpl in Hc. rewrite forallb_forall in Hc. specialize (Hc u Ju). destruct u; auto.
    + intros u Ju b Hb Hg. assert (E : eval b (TAnd ts) = true) by (apply HG; auto). simpl in E. rewrite forallb_forall in E. auto.
    + cbv beta. intros _ s1 V1 w1 cs1 defs1 _ _ _ [C1 F]. split; auto. intros b M. simpl. apply forallb_forall. intros u Ju. apply (F u Ju b M).
Qed.
End Add.

(** ** The formula of the solver *)
Definition nameL (ns : list string) (l : nat * bool) : lit := (nth (fst l) ns EmptyString, negb (snd l)).
Definition named (s : state) (ns : list string) : Prop := forall x, In x ns -> ~ freshN s x.
Lemma named_ext s V s' V' ns : wext s V s' V' -> named s ns -> named s' ns.
Proof. intros X H x J F. apply (H x J). eapply fresh_mono; [apply X|auto]. Qed.
Lemma alit_name ns b l : SatInv.alit (view ns b) l = eval_lit b (nameL ns l).
Proof. unfold SatInv.alit, view, eval_lit, nameL. cbn. destruct (snd l), (b _); auto. Qed.
Lemma litForm_ok ns l s V : winv s V -> named s ns -> fst l < length ns -> wp (fun _ => litForm ns l) s V (fun f s' V' => litDen s' f (nameL ns l)).
Proof.
  intros I N L. unfold litForm. apply wp_up_last. destruct (Lit (nth (fst l) ns EmptyString) (negb (snd l)) s) as [r s'] eqn:E.
  destruct (winv_lit _ _ _ _ _ _ I (N _ (nth_In _ _ L)) E) as (I' & X' & D). eapply wp_up; [exact E|exact X'|]. apply wp_ret; auto.
Qed.
Definition freeL (c : Sat.sat) (ls : list (nat * bool)) : list (nat * bool) := filter (fun l => match Sat.val c l with None => true | _ => false end) ls.
Lemma flatO_lits ls : flatO (map TLit ls) = map TLit ls.
Proof. induction ls as [|a ls IH]; simpl; auto. rewrite IH. reflexivity. Qed.
Definition clauseShape (c : Sat.sat) (ns : list string) (ls : list (nat * bool)) (ks : list lit) (u : tree) : Prop :=
  (u = TTrue \/ forall t, In t (opsOf SOr u) <-> In t (map TLit (ks ++ map (nameL ns) (freeL c ls)))) /\ ((exists l, In l ls /\ Sat.val c l = Some true) -> u = TTrue).
Definition clausePost (c : Sat.sat) (ns : list string) (ls : list (nat * bool)) (ks : list lit) (f : formula) (s' : state) : Prop :=
  exists u, Den s' f u /\ (forall b, eval b u = true <-> existsb (eval_lit b) ks = true \/ exists l, In l ls /\ (Sat.val c l = Some true \/ (Sat.val c l = None /\ eval_lit b (nameL ns l) = true))) /\
  clauseShape c ns ls ks u.
Lemma clauseForm_ok c ns : forall ls acc ks s V, winv s V -> named s ns -> (forall l, In l ls -> fst l < length ns) -> Forall2 (litDen s) acc ks ->
  wp (fun _ => clauseForm c ns ls acc) s V (fun f s' V' => clausePost c ns ls ks f s').
Proof.
  induction ls as [|l ls IH]; intros acc ks s V I N L F; cbn [clauseForm].
  - eapply wp_conseq; [apply (wp_nary SOr s V acc (map TLit ks) (or_intror eq_refl) I)|].
    + clear - F. induction F; cbn; constructor; auto. apply litDen_Den; auto.
    + cbv beta. intros f s' V' _ _ (_ & u & D & Eq & _ & (Ri & Rc & _) & _). exists u. split; auto. split.
      2:{ split; [|intros (y & [] & _)]. cbn [freeL filter map flatT absorb neutral] in *. rewrite app_nil_r. rewrite flatO_lits in Ri, Rc. destruct Rc as [Rc|Rc]; auto. right. intros t. split; [apply Ri|]. intros J. destruct (Rc t J) as [-> |]; auto. apply in_map_iff in J as (y & Ey & _). discriminate. }
      intros b. rewrite Eq. cbn [mk]. assert (E : eval b (TOr (map TLit ks)) = existsb (eval_lit b) ks) by (clear; cbn; induction ks; cbn; auto; rewrite IHks; auto). rewrite E. split; auto. intros [H|(l & [] & _)]; auto.
  - destruct (Sat.val c l) as [[|]|] eqn:Ev.
    + apply wp_ret; auto. exists TTrue. split; [apply Den_true|]. split; [|split; auto]. intros b. split; [intros _; right; exists l; split; [left; auto|auto]|auto].
    + eapply wp_conseq; [apply (IH acc ks s V I N); auto; intros m J; apply L; right; auto|]. cbv beta. intros f s' V' _ _ (u & D & H & Sh). exists u. split; auto. split; [|destruct Sh as [Sh Tt]; split; [unfold freeL; cbn [filter]; rewrite Ev; exact Sh|intros (y & [<-|Jy] & Ey); [congruence|apply Tt; exists y; auto]]]. intros b. rewrite H. split.
      * intros [A|(m & J & A)]; auto. right. exists m. split; [right|]; auto.
      * intros [A|(m & [<-|J] & A)]; auto; [|right; exists m; auto]. exfalso. destruct A as [A|[A _]]; congruence.
    + eapply wp_bind; [apply (litForm_ok ns l s V I N); apply L; left; auto|]. cbv beta. intros x s1 V1 I1 X1 Dx.
      eapply wp_conseq; [apply (IH (acc ++ [x]) (ks ++ [nameL ns l]) s1 V1 I1); [eapply named_ext; eauto|intros m J; apply L; right; auto|]|].
      { apply Forall2_app; [eapply wext_litDens; eauto|constructor; auto]. }
      cbv beta. intros f s' V' _ _ (u & D & H & Sh). exists u. split; auto. split; [|destruct Sh as [Sh Tt]; split; [unfold freeL; cbn [filter]; rewrite Ev; rewrite <- app_assoc in Sh; exact Sh|intros (y & [<-|Jy] & Ey); [congruence|apply Tt; exists y; auto]]]. intros b. rewrite H, existsb_app. cbn [existsb]. rewrite orb_false_r, orb_true_iff. split.
      * intros [[A|A]|(m & J & A)]; auto; right; [exists l; split; [left|]; auto|exists m; split; [right|]; auto].
      * intros [A|(m & [<-|J] & A)]; auto; [|right; exists m; auto]. destruct A as [A|[_ A]]; [congruence|auto].
Qed.
(** a conjunct of the result: true, a literal on the trail, or a disjunction of at least two literals of free variables *)
Definition conjOK (c : Sat.sat) (ns : list string) (t : tree) : Prop :=
  t = TTrue \/ (exists l, In l (Sat.trail c) /\ t = TLit (nameL ns l)) \/
  exists us, t = TOr us /\ forall v, In v us -> exists m, v = TLit (nameL ns m) /\ Sat.val c m = None /\ fst m < length ns.
Definition twoFree (c : Sat.sat) (ls : list (nat * bool)) : Prop :=
  (exists l, In l ls /\ Sat.val c l = Some true) \/ exists l m, In l ls /\ In m ls /\ l <> m /\ Sat.val c l = None /\ Sat.val c m = None.
Lemma nameL_inj ns l m : NoDup ns -> fst l < length ns -> fst m < length ns -> nameL ns l = nameL ns m -> l = m.
Proof.
  intros N L M E. unfold nameL in E. injection E as E1 E2. destruct l as [v p], m as [v' p']. cbn in *. f_equal; [|destruct p, p'; auto; discriminate]. apply (proj1 (NoDup_nth ns EmptyString) N); auto.
Qed.
Lemma clause_conj c ns ls u : NoDup ns -> (forall l, In l ls -> fst l < length ns) -> twoFree c ls -> clauseShape c ns ls [] u -> forall t, In t (flatA [u]) -> conjOK c ns t.
Proof.
  intros N L Tf [Sh Tt] t J. assert (C : u = TTrue -> conjOK c ns t) by (intros ->; cbn in J; destruct J as [<-|[]]; left; auto).
  destruct Tf as [Tf|(l & m & Jl & Jm & Ne & Vl & Vm)]; [auto|]. destruct Sh as [Sh|Sh]; [auto|].
  assert (P : forall y, In y ls -> Sat.val c y = None -> In (TLit (nameL ns y)) (opsOf SOr u)) by (intros y Jy Vy; apply Sh, in_map; cbn; apply in_map; unfold freeL; apply filter_In; rewrite Vy; auto).
  assert (Pl := P l Jl Vl). assert (Pm := P m Jm Vm).
  assert (Nn : nameL ns l <> nameL ns m) by (intros E; apply Ne; eapply nameL_inj; eauto).
  destruct u; cbn [opsOf] in Pl, Pm; try (destruct Pl as [Pl|[]], Pm as [Pm|[]]; congruence); try destruct Pl.
  cbn in J. destruct J as [<-|[]]. right. right. exists ts. split; auto. intros v Jv. apply Sh in Jv. apply in_map_iff in Jv as (y & <- & Jy). cbn in Jy. apply in_map_iff in Jy as (z & <- & Jz). unfold freeL in Jz. apply filter_In in Jz as [Jz Vz]. exists z. split; auto. destruct (Sat.val c z); [discriminate|auto].
Qed.
Lemma solverForm_ok c ns s V : winv s V -> named s ns -> (forall i l, In i (Sat.clauses c) -> In l (Sat.c_lits (Sat.db c i)) -> fst l < length ns) -> (forall l, In l (Sat.trail c) -> fst l < length ns) ->
  NoDup ns -> (forall i, In i (Sat.clauses c) -> twoFree c (Sat.c_lits (Sat.db c i))) ->
  wp (fun _ => solverForm c ns) s V (fun f s' V' => exists u, Den s' f u /\ (forall t, In t (opsOf SAnd u) -> conjOK c ns t) /\ forall b, eval b u = true <->
    (forall i, In i (Sat.clauses c) -> exists l, In l (Sat.c_lits (Sat.db c i)) /\ (Sat.val c l = Some true \/ (Sat.val c l = None /\ eval_lit b (nameL ns l) = true))) /\
    (forall l, In l (Sat.trail c) -> eval_lit b (nameL ns l) = true)).
Proof.
  intros I N Lc Lt Nd Tf. unfold solverForm. eapply wp_bind.
  { apply (wp_mapM (fun _ i => clauseForm c ns (Sat.c_lits (Sat.db c i)) []) (fun _ i j => i = j) (fun s V f i => clausePost c ns (Sat.c_lits (Sat.db c i)) [] f s)) with (cs := Sat.clauses c); auto.
    - intros t1 W1 t2 W2 X f i (u & D & H). exists u. split; auto. eapply wext_Den; eauto.
    - intros i j Ji _ s1 V1 I1 X1 <-. apply clauseForm_ok; auto; [eapply named_ext; eauto|intros l J; eapply Lc; eauto].
    - clear. induction (Sat.clauses c); constructor; auto. }
  cbv beta. intros fs s1 V1 I1 X1 F1. eapply wp_bind.
  { apply (wp_mapM (fun _ l => litForm ns l) (fun _ i j => i = j) (fun s V f l => litDen s f (nameL ns l))) with (cs := Sat.trail c); auto.
    - intros t1 W1 t2 W2 X f i D. eapply wext_litDen; eauto.
    - intros l j Jl _ s2 V2 I2 X2 <-. apply litForm_ok; auto. eapply named_ext; [exact X2|eapply named_ext; eauto].
    - clear. induction (Sat.trail c); constructor; auto. }
  cbv beta. intros gs s2 V2 I2 X2 F2.
  assert (Ex : exists us, Forall2 (Den s2) fs us /\ (forall b, forallb (eval b) us = true <-> forall i, In i (Sat.clauses c) -> exists l, In l (Sat.c_lits (Sat.db c i)) /\ (Sat.val c l = Some true \/ (Sat.val c l = None /\ eval_lit b (nameL ns l) = true))) /\ forall t, In t (flatA us) -> conjOK c ns t).
  { clear - F1 X2 Nd Tf Lc. induction F1 as [|f i fs is (u & D & H & Sh) F IH]; [exists []; split; auto; split; [intros b; split; auto; intros _ i []|intros t []]|].
    destruct IH as (us & Fu & Hu & Cu); [intros; eapply Lc; eauto; right; auto|intros; apply Tf; right; auto|]. exists (u :: us). split; [constructor; auto; eapply wext_Den; eauto|]. split.
    2:{ intros t J. change (u :: us) with ([u] ++ us) in J. unfold flatA in J. rewrite flat_map_app in J. apply in_app_iff in J as [J|J]; [|apply Cu; exact J]. eapply clause_conj; [exact Nd| | |exact Sh|exact J]; [intros y Jy; eapply Lc; [left; auto|auto]|apply Tf; left; auto]. }
    intros b. cbn [forallb]. rewrite andb_true_iff, Hu, H. split.
    - intros [[A|A] B] j [<-|J]; auto. discriminate.
    - intros A. split; [right; apply A; left; auto|intros j J; apply A; right; auto]. }
  destruct Ex as (us & Fu & Hu & Cu).
  eapply wp_conseq; [apply (wp_nary SAnd s2 V2 (fs ++ gs) (us ++ map (fun l => TLit (nameL ns l)) (Sat.trail c)) (or_introl eq_refl) I2)|].
  - apply Forall2_app; auto. clear - F2. induction F2; cbn; constructor; auto. apply litDen_Den; auto.
  - cbv beta. intros f s' V' _ _ (_ & u & D & Eq & _ & (Ri & _) & _). exists u. split; auto. split.
    { intros t J. apply Ri in J. cbn [flatT] in J. unfold flatA in J. rewrite flat_map_app in J. apply in_app_iff in J as [J|J]; [apply Cu; exact J|]. apply in_flat_map in J as (v & Jv & J). apply in_map_iff in Jv as (l & <- & Jl). destruct J as [<-|[]]. right. left. exists l. auto. }
    intros b. rewrite Eq. cbn [mk]. assert (E : eval b (TAnd (us ++ map (fun l => TLit (nameL ns l)) (Sat.trail c))) = forallb (eval b) (us ++ map (fun l => TLit (nameL ns l)) (Sat.trail c))) by (clear; cbn; induction (us ++ map (fun l => TLit (nameL ns l)) (Sat.trail c)); cbn; auto; rewrite IHl; auto).
    rewrite E, forallb_app, andb_true_iff, Hu. split; intros [A B]; split; auto.
    + intros l J. rewrite forallb_forall in B. apply (B (TLit (nameL ns l))). apply in_map_iff. exists l. auto.
    + apply forallb_forall. intros v J. apply in_map_iff in J as (l & <- & J). apply (B l J).
Qed.

(** ** What stands on the solver is what its formula says *)
Lemma named_clean cfg G s V w cs defs : sinv cfg G [] [] s V w cs defs [] -> clean w -> named s (vnames w).
Proof.
  intros S C x J. destruct (In_nth_error _ _ J) as [i Ei]. destruct (ct_names _ _ _ _ _ _ (si_content _ _ _ _ _ _ _ _ _ _ S) i x Ei) as [Ex|Ex]; auto. exfalso. exact (C x J i Ex).
Qed.
Lemma twoFree_ok c i : SatInv.Wat c -> SatInv.Proc c SatProp.NoE -> (forall l, SatInv.tru c l -> In l (Sat.trail c)) -> Sat.qhead c = length (Sat.trail c) -> In i (Sat.clauses c) -> Sat.c_atm (Sat.db c i) = false -> twoFree c (Sat.c_lits (Sat.db c i)).
Proof.
  intros W P T Q J At. assert (I : In i (SatInv.att c)) by (unfold SatInv.att; apply in_or_app; auto). pose proof (SatInv.wt_cl _ W i I) as (C1 & C2 & _).
  assert (K : forall q, SatInv.tru c q -> In q (SatInv.wset (Sat.db c i)) -> SatInv.wok c q i).
  { intros q Tq Wq. assert (Iq : In q (firstn (Sat.qhead c) (Sat.trail c))) by (rewrite Q, firstn_all; auto).
    assert (Bd : SatInv.big (Sat.db c i) \/ ~ SatInv.big (Sat.db c i)). { unfold SatInv.big. rewrite At. destruct (le_lt_dec (length (Sat.c_lits (Sat.db c i))) 2); [right|left; right; auto]. intros [?|?]; [discriminate|lia]. }
    destruct (P q i Iq) as [[]|]; auto. destruct Bd as [B|B]; [left; destruct (SatInv.wt_fw _ W i q I B Wq) as (b & X)|right; destruct (SatInv.wt_fwb _ W i q I B Wq) as (b & X)]; eapply SatProp.In_map_fst; eauto. }
  assert (F : forall l, In l (firstn 2 (Sat.c_lits (Sat.db c i))) -> Sat.val c l = Some false -> exists t, In t (Sat.c_lits (Sat.db c i)) /\ Sat.val c t = Some true).
  { intros l Jl Fl. assert (Tq : SatInv.tru c (Sat.neg l)) by (apply SatInv.tru_neg; exact Fl). specialize (K _ Tq). unfold SatInv.wset in K. rewrite At in K. specialize (K (in_map Sat.neg _ _ Jl)). unfold SatInv.wok in K. rewrite At in K.
    destruct K as (t & [Bt|Bt] & Tt & _); exists t; split; auto.
    - destruct (SatInv.wt_bw _ W _ _ _ Bt) as (_ & _ & _ & Z). rewrite At in Z. destruct Z as (t' & Et & Jt). injection Et as <-. exact Jt.
    - clear - Bt. destruct (Sat.c_lits (Sat.db c i)) as [|a [|b r]]; cbn in *; tauto. }
  destruct (Sat.c_lits (Sat.db c i)) as [|a [|b r]] eqn:El; cbn in C2; try lia. cbn [firstn] in F.
  destruct (Sat.val c a) as [[|]|] eqn:Va; [left; exists a; split; [left|]; auto|left; apply (F a); [left|]; auto|].
  destruct (Sat.val c b) as [[|]|] eqn:Vb; [left; exists b; split; [right; left|]; auto|left; apply (F b); [right; left|]; auto|].
  right. exists a, b. split; [left; auto|]. split; [right; left; auto|]. split; auto. intros ->. inversion C1; subst. apply H1. left; auto.
Qed.
Lemma conj_unitFree c ns u : NoDup ns -> (forall l, In l (Sat.trail c) -> fst l < length ns) -> (forall l, In l (Sat.trail c) -> SatInv.tru c l) -> (forall t, In t (opsOf SAnd u) -> conjOK c ns t) -> unitFree u.
Proof.
  intros N L T H. assert (H' : forall t, In t (conjuncts u) -> t = TFalse \/ conjOK c ns t) by (intros t J; destruct u; cbn in J, H; try destruct J as [<-|[]]; auto).
  intros l t Jl Jt O. destruct (H' _ Jl) as [E|[E|[(x & Jx & E)|(us & E & _)]]]; try discriminate. injection E as ->.
  destruct (H' _ Jt) as [-> |[-> |[(y & Jy & ->)|(us & -> & Hu)]]]; try (destruct O; fail).
  - cbn in O. assert (Fx : fst x = fst y) by (apply (proj1 (NoDup_nth ns EmptyString) N); auto; symmetry; exact O || exact O). f_equal. f_equal. 
    pose proof (T x Jx) as Tx. pose proof (T y Jy) as Ty. unfold SatInv.tru, Sat.val in Tx, Ty. rewrite Fx in Tx. destruct x as [v p], y as [v' p']. cbn in *. subst v'. f_equal. destruct (Sat.val_ c v) as [[|]|], p, p'; cbn in *; congruence.
  - exfalso. assert (Ov : exists v, In v us /\ occurs (fst (nameL ns x)) v) by (clear - O; cbn [occurs] in O; induction us as [|a us IH]; [destruct O|]; destruct O as [O|O]; [exists a; split; [left|]; auto|destruct (IH O) as (v & J & Q); exists v; split; [right|]; auto]).
    destruct Ov as (v & Jv & Ov). destruct (Hu v Jv) as (m & -> & Vm & Lm). cbn in Ov. assert (Fx : fst x = fst m) by (apply (proj1 (NoDup_nth ns EmptyString) N); auto; symmetry; exact Ov || exact Ov).
    pose proof (T x Jx) as Tx. unfold SatInv.tru, Sat.val in Tx, Vm. rewrite Fx in Tx. destruct (Sat.val_ c (fst m)); discriminate.
Qed.
Lemma propagateFormula_ok cfg k G s V w cs defs : g_min cfg = Sat.MinBasic -> sinv cfg G [] [] s V w cs defs [] -> clean w ->
  match propagateFormula k s w with
  | SRet g s' _ => exists V' u, winv s' V' /\ wext s V s' V' /\ Den s' g u /\ unitFree u /\ forall b, eval b u = true <-> mods cs (vnames w) b
  | SPanic => False
  | SStuck => True
  end.
Proof.
  intros Em S C. pose proof (si_winv _ _ _ _ _ _ _ _ _ _ S) as I. pose proof (named_clean _ _ _ _ _ _ _ S C) as N.
  pose proof (SatProps.reach_SI _ _ _ _ _ _ _ (si_reach _ _ _ _ _ _ _ _ _ _ S)) as [[B L] Nv Na _ _ _ _ _ _ _ _ _]. specialize (Na Em).
  unfold propagateFormula, getW. unfold sbind at 1. cbv beta iota. destruct (Sat.ok (core w)) eqn:Eo.
  - destruct L as ((P & X & Pr) & Eq & Cm). destruct P as [A W En].
    destruct k as [|k]; [exact Logic.I|]. assert (Ep : Sat.propagate (Datatypes.S k) (core w) = Sat.Ret None (core w)). { cbn [Sat.propagate]. rewrite Eq. assert (En0 : nth_error (Sat.trail (core w)) (length (Sat.trail (core w))) = None) by (apply nth_error_None; lia). rewrite En0. reflexivity. }
    unfold liftC, sbind. rewrite Ep. cbn [core vnames].
    assert (Lc : forall i l, In i (Sat.clauses (core w)) -> In l (Sat.c_lits (Sat.db (core w) i)) -> fst l < length (vnames w)).
    { intros i l J Jl. rewrite <- Nv. apply (SatInv.wt_cl _ W i); auto. unfold SatInv.att. apply in_or_app; auto. }
    assert (Lt : forall l, In l (Sat.trail (core w)) -> fst l < length (vnames w)) by (intros l J; rewrite <- Nv; apply (SatInv.as_vars _ _ _ A); auto).
    assert (Nd : NoDup (vnames w)) by apply (ct_nodup _ _ _ _ _ _ (si_content _ _ _ _ _ _ _ _ _ _ S)).
    assert (Tf : forall i, In i (Sat.clauses (core w)) -> twoFree (core w) (Sat.c_lits (Sat.db (core w) i))) by (intros i J; apply twoFree_ok; auto; intros l; apply (SatInv.as_val _ _ _ A)).
    destruct (solverForm_ok (core w) (vnames w) s V I N Lc Lt Nd Tf) as (n0 & g & s' & V' & E & I' & X' & u & D & Cj & H). unfold liftF. rewrite (E n0 (le_n _)).
    exists V', u. split; auto. split; auto. split; auto. split; [eapply conj_unitFree; eauto; intros l; apply (SatInv.as_val _ _ _ A)|]. intros b. rewrite H. split.
    + intros [H1 H2]. apply Cm.
      * intros c J. unfold SatInv.csat. rewrite Na. destruct (H1 c J) as (l & Jl & [T|[_ T]]); exists l; split; auto; rewrite alit_name; auto. apply H2, (SatInv.as_val _ _ _ A). exact T.
      * intros l J. rewrite alit_name. apply H2. apply (SatSearch.ex_units _ X l J).
    + intros M. assert (T0 : forall l, In l (Sat.trail (core w)) -> eval_lit b (nameL (vnames w) l) = true).
      { intros l J. rewrite <- alit_name. apply (SatInv.as_l0 _ _ _ A l (view (vnames w) b) J); auto. pose proof (SatInv.as_lev _ _ _ A l J) as Q. unfold Sat.dl in Q. rewrite (SatSolve.ba_tlim _ B) in Q. cbn in Q. lia. }
      split; auto. intros i J. assert (Sx : SatInv.csat (view (vnames w) b) (Sat.db (core w) i)) by (apply En; auto; unfold SatInv.att; apply in_or_app; auto).
      unfold SatInv.csat in Sx. rewrite Na in Sx. destruct Sx as (l & Jl & T). exists l. split; auto. destruct (Sat.val (core w) l) as [[|]|] eqn:Ev; auto; [|right; split; auto; rewrite <- alit_name; auto].
      exfalso. assert (F : SatInv.tru (core w) (Sat.neg l)) by (apply SatInv.tru_neg; exact Ev). apply (SatInv.as_val _ _ _ A) in F. apply T0 in F. rewrite <- alit_name in F. unfold SatInv.alit, Sat.neg in *. cbn in *. destruct (snd l), (view (vnames w) b (fst l)); discriminate.
  - cbn. exists V, TFalse. split; auto. split; [apply wext_refl|]. split; [apply Den_false|]. split; [intros l t [E|[]]; discriminate E|]. intros b. cbn. split; [discriminate|]. intros M. exfalso. exact (L _ M).
Qed.

Lemma new_sinv cfg G s V : winv s V -> sinv cfg G [] [] s V newSolver [] [] [].
Proof.
  intros I. constructor; simpl; [auto|apply SatProps.reach_new| |intros f p pos neg H; discriminate].
  constructor; simpl; [constructor|intros [|i] x E; discriminate|intros c []|intros p t []|intros p t u []|intros b _ _ _ c []].
Qed.
Definition upPost (s : state) (V : asg -> Prop) (f : formula) (t : tree) (r : sres formula) : Prop :=
  match r with
  | SRet g s' _ => exists V' u, winv s' V' /\ wext s V s' V' /\ Den s' g u /\ unitFree u /\ (forall b, eval b u = true -> eval b t = true) /\ (forall b, V' b -> eval b t = true -> eval b u = true) /\ lookupTrans TransUnitProp f s' = Some g
  | SPanic => False
  | SStuck => True
  end.
Lemma propagateUnits_ok cf nf k f t s V w : winv s V -> Den s f t -> encodable cf t -> lookupTrans TransUnitProp f s = None ->
  exists n0 r, (forall n, n0 <= n -> propagateUnits cf nf k n f s w = r) /\ upPost s V f t r.
Proof.
  intros I Hd He Hn. destruct (CNF_ok cf nf t s V f I Hd He) as (n1 & g & s1 & V1 & E1 & I1 & X1 & u0 & D0 & N0 & R1 & R2 & _).
  set (G := fun b => eval b u0 = true). assert (C0 : clean newSolver) by (intros x []).
  destruct (addClauseSet_clean (upConfig cf nf) k G g u0 s1 V1 newSolver [] [] (new_sinv _ _ _ _ I1) C0 D0 N0) as (n2 & r & E2 & H2); [intros b _ Hb; exact Hb|].
  set (fin := fun g => (_ <~ liftF (put (setTrans TransUnitProp f g)) ;; sret g) : SM formula).
  exists (Nat.max n1 n2), (match r with SRet _ s2 w2 => sbind (propagateFormula k) fin s2 w2 | SPanic => SPanic | SStuck => SStuck end). split.
  - intros n L. unfold propagateUnits, upAdd, liftF, get, putW, sbind. rewrite Hn, E1, E2 by lia. reflexivity.
  - destruct r as [[] s2 w2| |]; try exact H2. destruct H2 as (V2 & cs & defs & X2 & S2 & _ & _ & C2 & Sy).
    pose proof (propagateFormula_ok (upConfig cf nf) k G s2 V2 w2 cs defs eq_refl S2 C2) as H3. unfold sbind at 1. destruct (propagateFormula k s2 w2) as [h s3 w3| |]; try exact H3.
    destruct H3 as (V3 & u & I3 & X3 & D3 & Uf & H3). unfold fin, sbind, liftF, put, sret. cbn [upPost].
    assert (X13 : wext s1 V1 s3 V3) by (eapply wext_trans; eauto). assert (X : wext s V s3 V3) by (eapply wext_trans; eauto).
    destruct (winv_setTrans s3 V3 TransUnitProp f h t u I3) as [I4 X4]; [eapply wext_Den; eauto|auto|exact Logic.I|].
    exists V3, u. split; auto. split; [eapply wext_trans; eauto|]. split; [eapply wext_Den; eauto|]. split; [exact Uf|]. split; [|split].
    + intros b Hb. apply R1, (Sy b), H3, Hb.
    + intros b Hv Hb. apply H3. pose proof (si_content _ _ _ _ _ _ _ _ _ _ S2) as Ct. apply (ct_compl _ _ _ _ _ _ Ct).
      * apply X3; auto.
      * intros p v J. exfalso. destruct (ct_defs _ _ _ _ _ _ Ct p v J) as [Ep _]. apply nth_error_In in Ep. exact (C2 _ Ep p eq_refl).
      * apply R2; auto. apply X13; auto.
    + unfold lookupTrans, setTrans. cbn. rewrite feqb_refl. reflexivity.
Qed.
