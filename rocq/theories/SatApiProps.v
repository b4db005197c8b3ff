(** * The solver on formulas: answers, models, saved states (property C53) *)
From Coq Require Import String Ascii List Bool Arith ZArith NArith Lia.
From Verif Require Sat SatSpec SatProps.
From Verif Require Import Spec Factory FactoryProofs FactoryProofs2 FactoryProofs3 FactoryApi FactoryProps Assign AssignProps EncSpec EncApi EncPbc EncProps NormalForm NfBase NfAssign NfEnc NfNnf NfCnf NfFun NfTseitin NfPg NfAig NfApi NfProps SatApi SatApiInv SatApiPg SatApiAdd SatApiHist.
Import ListNotations.
Local Close Scope N_scope.

(** an assignment under which all formulas hold *)
Definition satisfies (b : asg) (ts : list tree) : Prop := forall t, In t ts -> eval b t = true.

(** a call that is not cancelled answers whether the formulas on the solver and the additional
    formulas can hold together *)
Theorem C53_answer cfg cv s H X w ts stk k o fs us vs xs a m s' w' : client cfg cv s H X w ts stk -> Forall2 (addOK cfg s H) fs us -> Forall2 (varOK s H) vs xs -> SatProps.fair o ->
  sreturns (fun n => call cfg k n o fs vs) s w (Some a, m) s' w' -> (a = true <-> exists b, satisfies b (us ++ ts)).
Proof.
  intros C F Fv Fo R. destruct (client_cinv _ _ _ _ _ _ _ _ C) as (V & cs & defs & stkC & hs & CI).
  destruct (call_ok cfg k o fs us vs xs s V H X w cs defs ts stkC hs stk CI F Fv Fo) as (n0 & r & E & HH). rewrite (sret_eq _ _ _ _ _ _ _ _ E R) in HH.
  destruct HH as (V' & cs' & defs' & stkC' & hs' & _ & _ & _ & Sp). destruct a; simpl in Sp.
  - destruct Sp as (nps & _ & _ & (b & Gb & _) & _). split; auto. intros _. exists b. exact Gb.
  - destruct Sp as [_ N]. split; [discriminate|]. intros Hb. contradiction.
Qed.
(** the model has literals of the given variables only; an assignment that satisfies all
    formulas makes them true; if the given variables are all that occur, then every assignment
    that makes them true satisfies all formulas *)
Theorem C53_model cfg cv s H X w ts stk k o fs us vs xs m s' w' : client cfg cv s H X w ts stk -> Forall2 (addOK cfg s H) fs us -> Forall2 (varOK s H) vs xs -> SatProps.fair o ->
  sreturns (fun n => call cfg k n o fs vs) s w (Some true, m) s' w' -> exists nps, Forall2 (Reads s') m (map TLit nps) /\ (forall x p, In (x, p) nps -> In x xs) /\
  (exists b, satisfies b (us ++ ts) /\ forall l, In l nps -> eval_lit b l = true) /\
  ((forall t x, In t (us ++ ts) -> occurs x t -> In x xs) -> forall b, (forall l, In l nps -> eval_lit b l = true) -> satisfies b (us ++ ts)).
Proof.
  intros C F Fv Fo R. destruct (client_cinv _ _ _ _ _ _ _ _ C) as (V & cs & defs & stkC & hs & CI).
  destruct (call_ok cfg k o fs us vs xs s V H X w cs defs ts stkC hs stk CI F Fv Fo) as (n0 & r & E & HH). rewrite (sret_eq _ _ _ _ _ _ _ _ E R) in HH.
  destruct HH as (V' & cs' & defs' & stkC' & hs' & _ & _ & _ & Sp). exact Sp.
Qed.
(** no model without a satisfiable answer *)
Theorem C53_no_model cfg cv s H X w ts stk k o fs us vs xs r m s' w' : client cfg cv s H X w ts stk -> Forall2 (addOK cfg s H) fs us -> Forall2 (varOK s H) vs xs -> SatProps.fair o ->
  sreturns (fun n => call cfg k n o fs vs) s w (r, m) s' w' -> r <> Some true -> m = [].
Proof.
  intros C F Fv Fo R Nr. destruct (client_cinv _ _ _ _ _ _ _ _ C) as (V & cs & defs & stkC & hs & CI).
  destruct (call_ok cfg k o fs us vs xs s V H X w cs defs ts stkC hs stk CI F Fv Fo) as (n0 & r0 & E & HH). rewrite (sret_eq _ _ _ _ _ _ _ _ E R) in HH.
  destruct HH as (V' & cs' & defs' & stkC' & hs' & _ & _ & _ & Sp). destruct r as [[|]|]; simpl in Sp; tauto.
Qed.
(** a call changes no answer: the same formulas are on the solver before and after (this is how
    [client] continues after a call); here for two calls in sequence *)
Theorem C53_call_keeps cfg cv s H X w ts stk k o fs us vs xs r m s1 w1 k2 o2 gs qs ys zs a m2 s2 w2 : client cfg cv s H X w ts stk -> Forall2 (addOK cfg s H) fs us -> Forall2 (varOK s H) vs xs -> SatProps.fair o ->
  sreturns (fun n => call cfg k n o fs vs) s w (r, m) s1 w1 ->
  Forall2 (addOK cfg s1 (m ++ H)) gs qs -> Forall2 (varOK s1 (m ++ H)) ys zs -> SatProps.fair o2 -> sreturns (fun n => call cfg k2 n o2 gs ys) s1 w1 (Some a, m2) s2 w2 ->
  (a = true <-> exists b, satisfies b (qs ++ ts)).
Proof. intros C F Fv Fo R F2 Fv2 Fo2 R2. refine (C53_answer _ _ _ _ _ _ _ _ _ _ _ _ _ _ _ _ _ _ _ F2 Fv2 Fo2 R2). eapply cl_call; [exact C|exact F|exact Fv|exact Fo|exact R]. Qed.
(** after loading a saved state the answers are about the formulas that were on the solver when
    it was saved *)
Theorem C53_load cfg cv s H X w ts above x ts' stk k b s1 w1 k2 o2 gs qs ys zs a m2 s2 w2 : client cfg cv s H X w ts (above ++ (x, ts') :: stk) -> sreturns (fun _ => loadState k x) s w b s1 w1 ->
  Forall2 (addOK cfg s1 H) gs qs -> Forall2 (varOK s1 H) ys zs -> SatProps.fair o2 -> sreturns (fun n => call cfg k2 n o2 gs ys) s1 w1 (Some a, m2) s2 w2 ->
  b = true /\ (a = true <-> exists b, satisfies b (qs ++ ts')).
Proof.
  intros C R F2 Fv2 Fo2 R2. split; [|refine (C53_answer _ _ _ _ _ _ _ _ _ _ _ _ _ _ _ _ _ _ _ F2 Fv2 Fo2 R2); eapply cl_load; [exact C|exact R]].
  destruct (client_cinv _ _ _ _ _ _ _ _ C) as (V & cs & defs & stkC & hs & [L S Sd P Sk Ih]). destruct (stkok_find s V _ _ _ Sk above x ts' stk eq_refl) as (ac & nv & cs' & rc & -> & Ln & Lv & Sk').
  pose proof (load_ok cfg k s V w cs ac x nv cs' rc hs ts' (i_winv _ _ _ _ L) (si_reach _ _ _ _ _ _ _ _ _ _ S)) as LD.
  assert (Ix : In x hs). { apply Ih. rewrite map_app. apply in_or_app. right. left. auto. } specialize (LD Ix Ln Lv).
  assert (Er : loadState k x s w = SRet b s1 w1) by (eapply (sret_eq (fun _ => loadState k x)) with (n0 := 0); [|exact R]; auto). rewrite Er in LD. tauto.
Qed.
(** nothing panics *)
Theorem C53_no_panic cfg cv s H X w ts stk : client cfg cv s H X w ts stk ->
  (forall k fs us, Forall2 (addOK cfg s H) fs us -> exists n0, forall n, n0 <= n -> add cfg k n fs s w <> SPanic) /\
  (forall k o fs us vs xs, Forall2 (addOK cfg s H) fs us -> Forall2 (varOK s H) vs xs -> SatProps.fair o -> exists n0, forall n, n0 <= n -> call cfg k n o fs vs s w <> SPanic) /\
  (exists x s' w', saveState s w = SRet x s' w') /\
  (forall k x ts', In (x, ts') stk -> loadState k x s w <> SPanic).
Proof.
  intros C. destruct (client_cinv _ _ _ _ _ _ _ _ C) as (V & cs & defs & stkC & hs & CI). pose proof CI as [L S Sd P Sk Ih]. split; [|split; [|split]].
  - intros k fs us F. destruct (adds_ok cfg k ts stkC hs s V w cs defs H X stk fs us CI F) as (n0 & r & E & HH). exists n0. intros n Hn. rewrite E by auto. intros ->. exact HH.
  - intros k o fs us vs xs F Fv Fo. destruct (call_ok cfg k o fs us vs xs s V H X w cs defs ts stkC hs stk CI F Fv Fo) as (n0 & r & E & HH). exists n0. intros n Hn. rewrite E by auto. intros ->. exact HH.
  - destruct (SatProps.C38_save _ _ _ _ _ _ _ (si_reach _ _ _ _ _ _ _ _ _ _ S)) as (y & c & E & _). unfold saveState, liftC. rewrite E. eauto.
  - intros k x ts' I. apply in_split in I. destruct I as (l1 & l2 & ->). destruct (stkok_find s V _ _ _ Sk l1 x ts' l2 eq_refl) as (ac & nv & cs' & rc & -> & Ln & Lv & Sk').
    assert (Ix : In x hs). { apply Ih. rewrite map_app. apply in_or_app. right. left. auto. }
    pose proof (load_ok cfg k s V w cs ac x nv cs' rc hs ts' (i_winv _ _ _ _ L) (si_reach _ _ _ _ _ _ _ _ _ _ S) Ix Ln Lv) as LD. intros E. rewrite E in LD. exact LD.
Qed.

(** ** A concrete history *)
Definition getS {A} (d : state) (r : sres A) : state := match r with SRet _ s _ => s | _ => d end.
Definition getW' {A} (d : solver) (r : sres A) : solver := match r with SRet _ _ w => w | _ => d end.
Definition getA {A} (d : A) (r : sres A) : A := match r with SRet a _ _ => a | _ => d end.
Definition exCfg : satConfig := SatCfg CNFFullPG true false Sat.MinDeep exCf (exNf CNFAdvanced CNFTseitin).
(** a, b, c, (a | b) <=> c, a + b + c <= 1, a | c *)
Definition hSat : list (list formula -> FactoryApi.call) :=
  [fun _ => CVar "a"; fun _ => CVar "b"; fun _ => CVar "c"; fun H => COr [nthf 2 H; nthf 1 H]; fun H => CEquiv (nthf 0 H) (nthf 1 H);
   fun H => CAMO [nthf 4 H; nthf 3 H; nthf 2 H]; fun H => COr [nthf 5 H; nthf 3 H]]%string.
Definition s0 : state := fst (lworld hSat).
Definition H0 : list formula := snd (lworld hSat).
Definition tAmo : tree := TPBC true LE 1 (map (fun x => (x, true)) ["a"; "b"; "c"]%string) [1; 1; 1]%Z.
Definition tAc : tree := TOr [va; vc].
Definition exO : Sat.oracle := SatProps.fairO 3.
Definition rAdd := add exCfg 30 20 [nthf 2 H0; nthf 1 H0] s0 newSolver.
Definition s1 := getS s0 rAdd. Definition w1 := getW' newSolver rAdd.
Definition rCall1 := call exCfg 30 20 exO [nthf 0 H0] [nthf 6 H0; nthf 5 H0; nthf 4 H0] s1 w1.
Definition s2 := getS s1 rCall1. Definition w2 := getW' w1 rCall1.
Definition rSave := saveState s2 w2.
Definition s3 := getS s2 rSave. Definition w3 := getW' w2 rSave. Definition x3 := getA (Sat.Saved 0 true 0 0 0) rSave.
Definition rAdd2 := add exCfg 30 20 [nthf 4 H0] s3 w3.
Definition s4 := getS s3 rAdd2. Definition w4 := getW' w3 rAdd2.
Definition rCall2 := call exCfg 30 20 exO [] [nthf 6 H0] s4 w4.
Definition s5 := getS s4 rCall2. Definition w5 := getW' w4 rCall2.
Definition rLoad := loadState 30 x3 s5 w5.
Definition s6 := getS s5 rLoad. Definition w6 := getW' w5 rLoad.
Definition rCall3 := call exCfg 30 20 exO [] [nthf 6 H0; nthf 5 H0; nthf 4 H0] s6 w6.
Definition s7 := getS s6 rCall3. Definition w7 := getW' w6 rCall3.
Lemma ex_ret {A} (m : nat -> SM A) s w a s' w' : (forall n, m (20 + n) s w = SRet a s' w') -> sreturns m s w a s' w'.
Proof. intros H. exists 20. intros n Hn. replace n with (20 + (n - 20)) by lia. apply H. Qed.
Definition bindA (r : sres (option bool * list formula)) : sres (list formula) := match r with SRet a s w => SRet (snd a) s w | SPanic => SPanic | SStuck => SStuck end.
Definition m7 := getA [] (bindA rCall3).
Ltac run := apply ex_ret; intros n; vm_compute; reflexivity.
Lemma ex_add : sreturns (fun n => add exCfg 30 n [nthf 2 H0; nthf 1 H0]) s0 newSolver tt s1 w1. Proof. run. Qed.
Lemma ex_call1 : sreturns (fun n => call exCfg 30 n exO [nthf 0 H0] [nthf 6 H0; nthf 5 H0; nthf 4 H0]) s1 w1 (Some false, []) s2 w2. Proof. run. Qed.
Lemma ex_save : sreturns (fun _ => saveState) s2 w2 x3 s3 w3. Proof. run. Qed.
Lemma ex_add2 : sreturns (fun n => add exCfg 30 n [nthf 4 H0]) s3 w3 tt s4 w4. Proof. run. Qed.
Lemma ex_call2 : sreturns (fun n => call exCfg 30 n exO [] [nthf 6 H0]) s4 w4 (Some false, []) s5 w5. Proof. run. Qed.
Lemma ex_load : sreturns (fun _ => loadState 30 x3) s5 w5 true s6 w6. Proof. run. Qed.
Lemma ex_call3 : sreturns (fun n => call exCfg 30 n exO [] [nthf 6 H0; nthf 5 H0; nthf 4 H0]) s6 w6 (Some true, m7) s7 w7. Proof. run. Qed.
Lemma ex_amo_ok : encodable exCf tAmo.
Proof.
  split.
  - split; [intros l; apply Permutation.Permutation_refl|]. split; [exact default_admissible|]. split; [discriminate|]. split; discriminate.
  - split; [|split; [|split]].
    + intros x p Hx. simpl in Hx. destruct Hx as [Hx|[Hx|[Hx|[]]]]; inversion Hx; reflexivity.
    + intros _ [H _]. discriminate.
    + discriminate.
    + exact I.
Qed.
Ltac plain_tac := intros x Hx; simpl in Hx; repeat (destruct Hx as [Hx|Hx]; try (subst; reflexivity); try contradiction); try (destruct Hx as [p Hx]; repeat (destruct Hx as [Hx|Hx]; [inversion Hx; subst; reflexivity|]); destruct Hx).
Lemma plain_tEq : plain tEq. Proof. plain_tac. Qed.
Lemma plain_tAmo : plain tAmo. Proof. intros x [p Hx]. simpl in Hx. destruct Hx as [Hx|[Hx|[Hx|[]]]]; inversion Hx; reflexivity. Qed.
Lemma plain_tAc : plain tAc. Proof. plain_tac. Qed.
Lemma plain_vc : plain vc. Proof. intros x Hx. simpl in Hx. subst. reflexivity. Qed.
Ltac held := apply inb_in; vm_compute; reflexivity.
Ltac reads := apply (readf_ok 9); vm_compute; reflexivity.
Lemma ex_ok1 : Forall2 (addOK exCfg s0 H0) [nthf 2 H0; nthf 1 H0] [tEq; tAmo].
Proof.
  constructor; [|constructor; [|constructor]].
  - split; [held|]. split; [reads|]. split; [apply plain_tEq|]. split; [apply pbfree_encodable; reflexivity|]. intros _ E. vm_compute in E. discriminate E.
  - split; [held|]. split; [reads|]. split; [apply plain_tAmo|]. split; [apply ex_amo_ok|]. intros _ _. split; [discriminate|]. split; [vm_compute; reflexivity|].
    vm_compute. repeat (constructor; [simpl; intros K; decompose [or] K; try discriminate; contradiction|]). constructor.
Qed.
Lemma ex_ok2 : Forall2 (addOK exCfg s1 H0) [nthf 0 H0] [tAc].
Proof. constructor; [|constructor]. split; [held|]. split; [reads|]. split; [apply plain_tAc|]. split; [apply pbfree_encodable; reflexivity|]. intros _ E. vm_compute in E. discriminate E. Qed.
Lemma ex_ok3 : Forall2 (addOK exCfg s3 H0) [nthf 4 H0] [vc].
Proof. constructor; [|constructor]. split; [held|]. split; [reads|]. split; [apply plain_vc|]. split; [exact Logic.I|]. intros _ E. vm_compute in E. discriminate E. Qed.
Ltac vars := repeat (constructor; [split; [held|exists true; reads]|]); constructor.
Lemma ex_vars1 : Forall2 (varOK s1 H0) [nthf 6 H0; nthf 5 H0; nthf 4 H0] ["a"; "b"; "c"]%string. Proof. vars. Qed.
Lemma ex_vars2 : Forall2 (varOK s4 H0) [nthf 6 H0] ["a"]%string. Proof. vars. Qed.
Lemma ex_vars3 : Forall2 (varOK s6 H0) [nthf 6 H0; nthf 5 H0; nthf 4 H0] ["a"; "b"; "c"]%string. Proof. vars. Qed.
Lemma ex_fair : SatProps.fair exO. Proof. apply SatProps.fairO_fair. Qed.
Lemma readfs_ok n s ts : forall m, map (readf n s) m = map Some ts -> Forall2 (Reads s) m ts.
Proof. induction ts as [|u us IH]; intros [|f m] E; cbn [map] in E; [constructor|discriminate E|discriminate E|]. injection E as E1 E2. constructor; auto. apply (readf_ok n); auto. Qed.
Lemma ex_m7 : Forall2 (Reads s7) m7 [TLit ("a", false); TLit ("b", false); TLit ("c", false)]%string.
Proof. apply (readfs_ok 9). vm_compute. reflexivity. Qed.
Lemma client_lsteps cfg cv a b : lsteps a b -> forall w ts stk, client cfg cv (fst (fst a)) (snd (fst a)) (snd a) w ts stk -> client cfg cv (fst (fst b)) (snd (fst b)) (snd b) w ts stk.
Proof. induction 1 as [|a b c Hs IH St]; intros v ts stk C; auto. specialize (IH v ts stk C). destruct b as [[s H] X], c as [[s' H'] X']. exact (cl_lib _ _ _ _ _ _ _ _ _ _ _ IH St). Qed.
Lemma client_unsat cfg cv s H X w ts stk k o fs us vs xs r s' w' : client cfg cv s H X w ts stk -> Forall2 (addOK cfg s H) fs us -> Forall2 (varOK s H) vs xs -> SatProps.fair o ->
  sreturns (fun n => call cfg k n o fs vs) s w (r, []) s' w' -> client cfg cv s' H X w' ts stk.
Proof. intros C F Fv Fo R. exact (cl_call _ _ _ _ _ _ _ _ _ _ _ _ _ _ _ _ _ _ C F Fv Fo R). Qed.
Lemma client_library cfg cv s H X : library cv s H X -> client cfg cv s H X newSolver [] [].
Proof. intros L. exact (client_lsteps cfg cv _ _ L newSolver [] [] (cl_new _ _)). Qed.

(** With (a | b) <=> c and a + b + c <= 1 on the solver the call with a | c is unsatisfiable.
    After a save, an added c makes the solver unsatisfiable; after the load a call is
    satisfiable and gives the only model. *)
Example solver_example :
  client exCfg false s1 H0 [] w1 [tEq; tAmo] [] /\ client exCfg false s4 H0 [] w4 [vc; tEq; tAmo] [(x3, [tEq; tAmo])] /\
  client exCfg false s6 H0 [] w6 [tEq; tAmo] [(x3, [tEq; tAmo])] /\
  (exists n, fst (getA (None, []) (call exCfg 30 n exO [nthf 0 H0] [nthf 6 H0; nthf 5 H0; nthf 4 H0] s1 w1)) = Some false) /\
  (exists n, fst (getA (None, []) (call exCfg 30 n exO [] [nthf 6 H0] s4 w4)) = Some false) /\
  (exists n m s' w', call exCfg 30 n exO [] [nthf 6 H0; nthf 5 H0; nthf 4 H0] s6 w6 = SRet (Some true, m) s' w' /\
    Forall2 (Reads s') m [TLit ("a", false); TLit ("b", false); TLit ("c", false)]%string).
Proof.
  assert (C0 : client exCfg false s0 H0 [] newSolver [] []).
  { apply client_library. apply lworld_library. vm_compute. discriminate. }
  assert (C1 : client exCfg false s1 H0 [] w1 [tEq; tAmo] []). { exact (cl_add _ _ _ _ _ _ _ _ _ _ _ _ _ C0 ex_ok1 ex_add). }
  pose proof (client_unsat _ _ _ _ _ _ _ _ _ _ _ _ _ _ _ _ _ C1 ex_ok2 ex_vars1 ex_fair ex_call1) as C2.
  assert (C3 : client exCfg false s3 H0 [] w3 [tEq; tAmo] [(x3, [tEq; tAmo])]). { exact (cl_save _ _ _ _ _ _ _ _ _ _ _ C2 ex_save). }
  assert (C4 : client exCfg false s4 H0 [] w4 [vc; tEq; tAmo] [(x3, [tEq; tAmo])]). { exact (cl_add _ _ _ _ _ _ _ _ _ _ _ _ _ C3 ex_ok3 ex_add2). }
  pose proof (client_unsat _ _ _ _ _ _ _ _ _ _ _ _ _ _ _ _ _ C4 (Forall2_nil _) ex_vars2 ex_fair ex_call2) as C5.
  assert (C6 : client exCfg false s6 H0 [] w6 [tEq; tAmo] [(x3, [tEq; tAmo])]). { exact (cl_load _ _ _ _ _ _ _ [] _ _ _ _ _ _ _ C5 ex_load). }
  split; [exact C1|]. split; [exact C4|]. split; [exact C6|]. split; [destruct ex_call1 as [n E]; exists n; rewrite (E n (le_n n)); reflexivity|].
  split; [destruct ex_call2 as [n E]; exists n; rewrite (E n (le_n n)); reflexivity|]. destruct ex_call3 as [n E]. exists n, m7, s7, w7. split; [exact (E n (le_n n))|exact ex_m7].
Qed.

(** ** Refutation *)
(** With at-most clauses, adding a cardinality constraint whose variables are not in the order
    of their creation reorders the variables that the factory stores for it: the same call of
    the factory afterwards gives a different formula (against property C01). *)
Definition hOrd : list (list formula -> FactoryApi.call) := [fun _ => CVar "a"; fun _ => CVar "b"; fun H => CAMO [nthf 0 H; nthf 1 H]]%string.
Theorem C53_add_reorders_refuted : exists s H f k n s' w' g s'', client exCfg false s H [] newSolver [] [] /\ In f H /\ Reads s f (TPBC true LE 1 [("b", true); ("a", true)]%string [1; 1]%Z) /\
  fst (run (CAMO [nthf 1 H; nthf 2 H]) s) = f /\ add exCfg k n [f] s newSolver = SRet tt s' w' /\
  Reads s' f (TPBC true LE 1 [("a", true); ("b", true)]%string [1; 1]%Z) /\ run (CAMO [nthf 1 H; nthf 2 H]) s' = (g, s'') /\ g <> f.
Proof.
  pose (s := fst (lworld hOrd)). pose (H := snd (lworld hOrd)). pose (f := nthf 0 H). pose (r := add exCfg 30 20 [f] s newSolver). pose (s' := getS s r). pose (q := run (CAMO [nthf 1 H; nthf 2 H]) s').
  exists s, H, f, 30, 20, s', (getW' newSolver r), (fst q), (snd q).
  split; [apply client_library, lworld_library; vm_compute; discriminate|].
  split; [held|]. split; [reads|]. split; [vm_compute; reflexivity|]. split; [vm_compute; reflexivity|]. split; [reads|]. split; [apply surjective_pairing|]. vm_compute. discriminate.
Qed.

Print Assumptions C53_answer.
Print Assumptions C53_model.
Print Assumptions C53_no_model.
Print Assumptions C53_call_keeps.
Print Assumptions C53_load.
Print Assumptions C53_no_panic.
Print Assumptions C53_add_reorders_refuted.
