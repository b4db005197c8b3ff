(** * Property C54: the DNNF compiler *)
From Coq Require Import String Ascii List Bool ZArith NArith Lia DecimalString.
From Verif Require Import Spec DnnfSpec Factory FactoryProofs FactoryProofs2 FactoryProofs3 FactoryApi FactoryProps Assign EncSpec EncAmo EncApi EncPbc EncProps NormalForm NfBase AssignProps NfFun NfApi NfProps DnnfCount Dnnf DnnfFun DnnfCompile.
Import ListNotations.
Local Open Scope string_scope.

(** The answers of the SAT solver that the compiler uses are right for the formula [t]: is it
    satisfiable, and which of its variables have the same value in all its models? *)
Definition forced (t : tree) (x : string) (v : bool) : Prop := occurs x t /\ forall b, eval b t = true -> b x = v.
Definition right_answers (s : state) (t : tree) (ans : answers) : Prop :=
  (a_sat ans = true <-> exists b, eval b t = true) /\
  match a_bb ans with
  | None => forall b, eval b t = false
  | Some (ps, ns) => (exists b, eval b t = true) /\
      (exists xs, Forall2 (fun v x => Reads s v (TLit (x, true))) ps xs /\ forall x, In x xs <-> forced t x true) /\
      (exists xs, Forall2 (fun v x => Reads s v (TLit (x, true))) ns xs /\ forall x, In x xs <-> forced t x false)
  end.

(** ** The clients of the examples: variables x1, x2, ..., then clauses, then their conjunction *)
Definition nm (v : nat) : string := ("x" ++ NilEmpty.string_of_uint (Nat.to_uint v))%string.
Definition lits (l : list Z) : list (string * bool) := map (fun z => (nm (Z.to_nat (Z.abs z)), (0 <? z)%Z)) l.
Definition cnfTree (cls : list (list Z)) : tree := TAnd (map (fun c => TOr (map TLit (lits c))) cls).
Definition clauseCalls (c : list Z) : list (list formula -> call) :=
  (map (fun np _ => CLit (fst np) (snd np)) (lits c) ++ [fun H => COr (rev (firstn (length c) H))])%list.
Fixpoint positions (cls : list (list Z)) : list nat :=
  match cls with [] => [] | _ :: r => fold_right (fun c k => length c + 1 + k) 0 r :: positions r end.
Definition cnfHistory (nv : nat) (cls : list (list Z)) : list (list formula -> call) :=
  (map (fun i _ => CVar (nm i)) (seq 1 nv) ++ flat_map clauseCalls cls ++ [fun H => CAnd (map (fun p => nthf p H) (positions cls))])%list.
Definition ansE : answers := Ans (Some ([], [])) true.
Definition nfE : cnfConfig := exNf CNFAdvanced CNFPlaistedGreenbaum.
(** an assignment given by the variables that are true *)
Definition trueAt (l : list nat) : asg := fun x => existsb (fun i => String.eqb x (nm i)) l.

(** no variable is forced, by pairs of models *)
Lemma forced_none : forall t l, forallb (fun b => eval b t) l = true ->
  forallb (fun x => existsb (fun b : asg => b x) l && existsb (fun b : asg => negb (b x)) l) (occList t) = true ->
  forall x v, ~ forced t x v.
Proof.
  intros t l H1 H2 x v [O F]. rewrite forallb_forall in H1, H2. specialize (H2 x (proj2 (occList_ok x t) O)). apply andb_true_iff in H2 as [A B].
  apply existsb_exists in A as (a & Ia & A). apply existsb_exists in B as (b & Ib & B). pose proof (F a (H1 a Ia)). pose proof (F b (H1 b Ib)). rewrite H0 in B. destruct v; [discriminate|congruence].
Qed.
Lemma ansE_right : forall s t l, l <> [] -> forallb (fun b => eval b t) l = true ->
  forallb (fun x => existsb (fun b : asg => b x) l && existsb (fun b : asg => negb (b x)) l) (occList t) = true -> right_answers s t ansE.
Proof.
  intros s t l N H1 H2. assert (E : exists b, eval b t = true).
  { destruct l as [|b l]; [congruence|]. exists b. simpl in H1. apply andb_true_iff in H1; tauto. }
  split; [simpl; tauto|]. simpl. split; auto. pose proof (forced_none t l H1 H2). split; exists []; (split; [constructor|]); intros x; split; intros F; [destruct F|destruct (H x _ F)|destruct F|destruct (H x _ F)].
Qed.

(** ** What is refuted *)
Definition wF (nv : nat) (cls : list (list Z)) : formula := nthf 0 (snd (lworld (cnfHistory nv cls))).
Definition wRun (n nv : nat) (cls : list (list Z)) : option tree :=
  result (fun n => compile n exCf nfE ansE (wF nv cls)) n fst (fst (lworld (cnfHistory nv cls))).
Lemma run_ok : forall n cs f t ans u, result (fun n => compile n exCf nfE ans f) n fst (fst (lworld cs)) = Some u -> right_answers (fst (lworld cs)) t ans ->
  snd (lworld cs) <> [] -> inb f (snd (lworld cs)) = true -> readf 9 (fst (lworld cs)) f = Some t ->
  exists d vs s', library false (fst (lworld cs)) (snd (lworld cs)) [] /\ In f (snd (lworld cs)) /\ Reads (fst (lworld cs)) f t /\ right_answers (fst (lworld cs)) t ans /\
    compile n exCf nfE ans f (fst (lworld cs)) = Some ((d, vs), s') /\ Reads s' d u.
Proof.
  intros n cs f t ans u H A H1 H2 H3. destruct (result_ok _ _ _ _ _ H) as ([d vs] & s' & E & R). exists d, vs, s'.
  split; [apply lworld_library; auto|]. split; [apply inb_in; auto|]. split; [apply (readf_ok 9); auto|]. split; [exact A|]. split; [exact E|exact R].
Qed.

(** The compiled formula is not always equivalent to the input: it can lose models ... *)
Definition wL : list (list Z) := [[-3; 4; 5]; [-3; 4; -5; -9]; [5; 7; 10]; [8; -9; 10]; [-3; -4; 5]]%Z.
Definition uL : tree := Eval vm_compute in match wRun 60 10 wL with Some u => u | None => TTrue end.
Theorem C54_complete_refuted : exists s H f t ans n d vs s' u b, library false s H [] /\ In f H /\ Reads s f t /\ is_cnf t = true /\ right_answers s t ans /\
  compile n exCf nfE ans f s = Some ((d, vs), s') /\ Reads s' d u /\ eval b t = true /\ eval b u = false.
Proof.
  destruct (run_ok 60 (cnfHistory 10 wL) (wF 10 wL) (cnfTree wL) ansE uL) as (d & vs & s' & A1 & A2 & A3 & A4 & A5 & A6);
    [vm_compute; reflexivity|apply (ansE_right _ _ [trueAt [10]; trueAt [3; 4; 5; 7; 8; 9]]); [discriminate|vm_compute; reflexivity|vm_compute; reflexivity]|vm_compute; discriminate|vm_compute; reflexivity|vm_compute; reflexivity|].
  exists (fst (lworld (cnfHistory 10 wL))), (snd (lworld (cnfHistory 10 wL))), (wF 10 wL), (cnfTree wL), ansE, 60, d, vs, s', uL, (trueAt [10]).
  split; [exact A1|]. split; [exact A2|]. split; [exact A3|]. split; [vm_compute; reflexivity|]. split; [exact A4|]. split; [exact A5|]. split; [exact A6|]. split; vm_compute; reflexivity.
Qed.
(** ... and have models that the input does not have. *)
Definition wX : list (list Z) := [[-1; -9]; [4; 8; 9]; [1; -3; 4]; [-1; -3]; [-3; -4; -6]; [-5; 6; -8; 9]; [5; 6]]%Z.
Definition uX : tree := Eval vm_compute in match wRun 60 9 wX with Some u => u | None => TTrue end.
Theorem C54_sound_refuted : exists s H f t ans n d vs s' u b, library false s H [] /\ In f H /\ Reads s f t /\ is_cnf t = true /\ right_answers s t ans /\
  compile n exCf nfE ans f s = Some ((d, vs), s') /\ Reads s' d u /\ eval b t = false /\ eval b u = true.
Proof.
  destruct (run_ok 60 (cnfHistory 9 wX) (wF 9 wX) (cnfTree wX) ansE uX) as (d & vs & s' & A1 & A2 & A3 & A4 & A5 & A6);
    [vm_compute; reflexivity|apply (ansE_right _ _ [trueAt [6; 9]; trueAt [3; 4; 5]; trueAt [1; 6; 8]]); [discriminate|vm_compute; reflexivity|vm_compute; reflexivity]|vm_compute; discriminate|vm_compute; reflexivity|vm_compute; reflexivity|].
  exists (fst (lworld (cnfHistory 9 wX))), (snd (lworld (cnfHistory 9 wX))), (wF 9 wX), (cnfTree wX), ansE, 60, d, vs, s', uX, (trueAt [3; 6; 8]).
  split; [exact A1|]. split; [exact A2|]. split; [exact A3|]. split; [vm_compute; reflexivity|]. split; [exact A4|]. split; [exact A5|]. split; [exact A6|]. split; vm_compute; reflexivity.
Qed.
(** Even if it is equivalent, its model count can differ from the number of models of the input: the
    operands of its conjunctions share variables. *)
Definition wN : list (list Z) := [[-3; -6]; [1; -4; 9]; [5; 9]; [3; -5; -6]; [-4; -7]; [5; -6; 7]]%Z.
Definition compileCount (n : nat) (cf : encConfig) (nf : cnfConfig) (ans : answers) (f : formula) : M (formula * list formula * Z) :=
  p <- compile n cf nf ans f ;; z <- modelCount n (fst p) (snd p) ;; ret (p, z).
Definition wNx : list string := map nm [1; 3; 4; 5; 6; 7; 9]%nat.
Definition cRun (k n : nat) (ans : answers) (f : formula) (s : state) : option (Z * list (option tree)) :=
  match compileCount n exCf nfE ans f s with Some ((_, vs, z), s') => Some (z, map (readf k s') vs) | None => None end.
Lemma cRun_ok : forall k n ans f s z xs, cRun k n ans f s = Some (z, map (fun x => Some (TLit (x, true))) xs) -> exists d vs s' s'',
  compile n exCf nfE ans f s = Some ((d, vs), s') /\ modelCount n d vs s' = Some (z, s'') /\ Forall2 (fun v x => Reads s'' v (TLit (x, true))) vs xs.
Proof.
  intros k n ans f s z xs. unfold cRun, compileCount, bind, ret. destruct (compile n exCf nfE ans f s) as [[[d vs] s']|]; [|discriminate]. simpl. destruct (modelCount n d vs s') as [[z' s'']|] eqn:E; [|discriminate].
  intros H. inversion H; subst. exists d, vs, s', s''. split; auto. split; auto. clear -H2. revert xs H2. induction vs as [|v vs IH]; intros [|x xs] H; simpl in H; try discriminate; constructor; inversion H; auto.
  apply (readf_ok k). auto.
Qed.
Theorem C54_count_refuted : exists s H f t ans n d vs s' z s'' xs, library false s H [] /\ In f H /\ Reads s f t /\ is_cnf t = true /\ right_answers s t ans /\
  compile n exCf nfE ans f s = Some ((d, vs), s') /\ modelCount n d vs s' = Some (z, s'') /\ Forall2 (fun v x => Reads s'' v (TLit (x, true))) vs xs /\ NoDup xs /\ (forall x, In x xs <-> occurs x t) /\
  z <> models xs t.
Proof.
  destruct (cRun_ok 5 60 ansE (wF 9 wN) (fst (lworld (cnfHistory 9 wN))) 44%Z wNx) as (d & vs & s' & s'' & E1 & E2 & E3); [vm_compute; reflexivity|].
  exists (fst (lworld (cnfHistory 9 wN))), (snd (lworld (cnfHistory 9 wN))), (wF 9 wN), (cnfTree wN), ansE, 60, d, vs, s', 44%Z, s'', wNx.
  split; [apply lworld_library; vm_compute; discriminate|]. split; [apply inb_in; vm_compute; reflexivity|]. split; [apply (readf_ok 9); vm_compute; reflexivity|]. split; [vm_compute; reflexivity|].
  split; [apply (ansE_right _ _ [trueAt [9]; trueAt [1; 3; 5; 7]; trueAt [6; 7; 9]; trueAt [4; 9]]); [discriminate|vm_compute; reflexivity|vm_compute; reflexivity]|].
  split; [exact E1|]. split; [exact E2|]. split; [exact E3|]. split; [repeat (constructor; [vm_compute; intuition discriminate|]); constructor|]. split; [|vm_compute; discriminate].
  intros x. rewrite <- occList_ok. split; intros Hx; vm_compute in Hx |- *; tauto.
Qed.

(** ** What holds *)
(** The compilation of an unsatisfiable formula is the constant false. *)
Lemma bind_some : forall A B (m : M A) (k : A -> M B) s r, bind m k s = Some r -> exists a s1, m s = Some (a, s1) /\ k a s1 = Some r.
Proof. intros A B m k s r. unfold bind. destruct (m s) as [[a s1]|]; [eauto|discriminate]. Qed.
Theorem C54_unsatisfiable_partial : forall s f t ans n cf nf d vs s', Reads s f t -> (forall b, eval b t = false) -> right_answers s t ans ->
  compile n cf nf ans f s = Some ((d, vs), s') -> Reads s' d TFalse.
Proof.
  intros s f t ans n cf nf d vs s' R U [A _] E. assert (S0 : a_sat ans = false).
  { destruct (a_sat ans); auto. destruct A as [A _]. destruct (A eq_refl) as [b B]. rewrite U in B. discriminate. }
  unfold compile in E. rewrite S0 in E. do 5 (apply bind_some in E as (? & ? & ? & E)). inversion E; subst. clear E. rename H3 into E. unfold compileCNF in E. do 3 (apply bind_some in E as (? & ? & ? & E)).
  inversion E; subst. unfold dbind, dret, ret in H5. match type of H5 with match ?m with _ => _ end = _ => destruct m as [[[? ?] ?]|]; [|discriminate] end. inversion H5; subst. apply readf_ok with (n := 1). reflexivity.
Qed.
(** The hypotheses are met: (a | b) & (a | ~b) & (~a | b) & (~a | ~b). *)
Definition wU : list (list Z) := [[1; 2]; [1; -2]; [-1; 2]; [-1; -2]]%Z.
Example C54_example_unsat : exists d vs s', Reads (fst (lworld (cnfHistory 2 wU))) (wF 2 wU) (cnfTree wU) /\ (forall b, eval b (cnfTree wU) = false) /\
  right_answers (fst (lworld (cnfHistory 2 wU))) (cnfTree wU) (Ans None false) /\ compile 30 exCf nfE (Ans None false) (wF 2 wU) (fst (lworld (cnfHistory 2 wU))) = Some ((d, vs), s').
Proof.
  assert (U : forall b, eval b (cnfTree wU) = false).
  { intros b. unfold cnfTree, wU, lits. simpl. unfold eval_lit; simpl. destruct (b (nm (Pos.to_nat 1))), (b (nm (Pos.to_nat 2))); reflexivity. }
  destruct (run_ok 30 (cnfHistory 2 wU) (wF 2 wU) (cnfTree wU) (Ans None false) TFalse) as (d & vs & s' & A1 & A2 & A3 & A4 & A5 & A6);
    [vm_compute; reflexivity|split; [split; [discriminate|intros [b B]; rewrite U in B; discriminate]|exact U]|vm_compute; discriminate|vm_compute; reflexivity|vm_compute; reflexivity|].
  exists d, vs, s'. split; [exact A3|]. split; [exact U|]. split; [exact A4|exact A5].
Qed.

Print Assumptions C54_complete_refuted.
Print Assumptions C54_sound_refuted.
Print Assumptions C54_count_refuted.
Print Assumptions C54_unsatisfiable_partial.
