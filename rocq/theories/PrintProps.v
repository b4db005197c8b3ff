(** * C46: Printing and parsing *)
From Coq Require Import String Ascii List Bool Arith ZArith NArith Lia.
From Verif Require Import Spec Factory FactoryProofs FactoryProofs2 FactoryProofs3 FactoryApi FactoryProps Assign NfBase NfApi NfProps Dimacs DimacsProps Print PrintSpec PrintLex PrintParse PrintProofs.
Import ListNotations.
Local Open Scope string_scope.

Lemma library_wf cv s H X : library cv s H X -> wf s.
Proof. intros L. destruct (library_inv _ _ _ _ L) as [V LI]. apply (v_wf _ _ (i_winv _ _ _ _ LI)). Qed.
Lemma one_formula : forall s f t, wf s -> Den s f t -> printable t = true -> forall n, tall t <= n -> sprint n f s = Some (text t).
Proof. intros s f t Hw D P n L. exact (toInner_ok s Hw t f D n L). Qed.

(** Parsing the printed text of a formula on its factory gives the formula itself and changes nothing. *)
Theorem C46_roundtrip : forall cv s H X f t, library cv s H X -> Reads s f t -> printable t = true -> noneBelow0 t = true ->
  exists txt n0, forall n, n0 <= n -> sprint n f s = Some txt /\ parse n txt s = Some (Some f, s).
Proof.
  intros cv s H X f t L R P P0. pose proof (library_wf _ _ _ _ L) as Hw. apply Reads_Den in R; auto. pose proof (Den_formed s Hw t f R) as F. destruct (parse_text t P F) as (n1 & E).
  exists (text t), (tall t + n1). intros n Ln. split; [apply (one_formula s f t Hw R P); lia|]. rewrite (E n ltac:(lia) s). unfold bind. rewrite (walk_same s Hw t f R P P0 []). reflexivity.
Qed.

(** Parsing it on any factory gives a formula with the same meaning; what the client of that factory held before is unchanged. *)
Theorem C46_meaning : forall cv s H X f t cv2 s2 H2, library cv s H X -> Reads s f t -> printable t = true -> history anycall cv2 s2 H2 ->
  exists txt n0 g u s2' H2', (forall n, n0 <= n -> sprint n f s = Some txt /\ parse n txt s2 = Some (Some g, s2')) /\
    steps anycall (s2, H2) (s2', H2') /\ In g H2' /\ Reads s2' g u /\ (forall b, eval b u = eval b t) /\
    (forall h v, In h H2 -> Reads s2 h v -> Reads s2' h v).
Proof.
  intros cv s H X f t cv2 s2 H2 L R P Hh. pose proof (library_wf _ _ _ _ L) as Hw. apply Reads_Den in R; auto. pose proof (Den_formed s Hw t f R) as F. destruct (parse_text t P F) as (n1 & E).
  destruct (walk_other t P F cv2 s2 H2 [] Hh) as (g & s2' & H2' & W & St & I1 & Ig & u & Ru & Eu). exists (text t), (tall t + n1), g, u, s2', H2'.
  split; [|split; [exact St|split; [exact Ig|split; [exact Ru|split; [exact Eu|]]]]].
  - intros n Ln. split; [apply (one_formula s f t Hw R P); lia|]. rewrite (E n ltac:(lia) s2). unfold bind. rewrite W. reflexivity.
  - intros h v I Rh. eapply C01_immutable; eauto.
Qed.

(** ** Files *)
Lemma allc_same p t : Print.allc p t = DimacsProps.allc p t.
Proof. reflexivity. Qed.
Lemma tail_noLF c : isTail c = true -> negb (Ascii.eqb c LF) = true.
Proof. intros H. destruct (Ascii.eqb_spec c LF) as [->|]; auto; discriminate H. Qed.
Lemma name_noLF n : admissible n = true -> noLF n = true.
Proof.
  destruct n as [|c n]; [discriminate|]. cbn [admissible]. intros A. apply andb_prop in A as [A B]. unfold noLF. cbn [DimacsProps.allc]. apply andb_true_intro. split.
  - destruct (Ascii.eqb_spec c LF) as [->|]; auto; discriminate A.
  - rewrite allc_same in B. eapply allc_impl; [|exact B]. apply tail_noLF.
Qed.
Lemma noLF_app a b : noLF (a ++ b) = noLF a && noLF b.
Proof. apply allc_app. Qed.
Lemma lit_noLF l : admissible (fst l) = true -> noLF (litT l) = true.
Proof. intros A. unfold litT. destruct (snd l); [|rewrite noLF_app]; rewrite (name_noLF _ A); reflexivity. Qed.
Lemma dec_noLF n : noLF (dec n) = true.
Proof. eapply allc_impl; [|apply (DimacsProps.dec_digits n)]. intros c H. destruct (Ascii.eqb_spec c LF) as [->|]; auto; discriminate H. Qed.
Lemma decZ_noLF z : noLF (decZ z) = true.
Proof. destruct z; unfold decZ; [apply dec_noLF|apply dec_noLF|rewrite noLF_app, dec_noLF; reflexivity]. Qed.
Lemma mul_noLF x : admissible (fst (fst x)) = true -> noLF (mulT x) = true.
Proof. destruct x as [l c]. intros A. unfold mulT. cbn [fst snd] in *. destruct (Z.eqb c 1); [apply lit_noLF; auto|]. rewrite !noLF_app, decZ_noLF, (lit_noLF _ A). reflexivity. Qed.
Lemma concat_noLF2 sp : noLF sp = true -> forall ws, (forall w, In w ws -> noLF w = true) -> noLF (String.concat sp ws) = true.
Proof.
  intros S. induction ws as [|w [|w2 ws] IH]; intros H; [reflexivity|apply H; left; auto|]. change (String.concat sp (w :: w2 :: ws)) with (w ++ sp ++ String.concat sp (w2 :: ws)). rewrite !noLF_app, S, IH; [|intros; apply H; right; auto]. rewrite (H w) by (left; auto). reflexivity.
Qed.
Lemma br_noLF k u t : noLF t = true -> noLF (brT k u t) = true.
Proof. intros H. unfold brT. destruct (Nat.ltb (trank u) k); auto. rewrite !noLF_app, H. reflexivity. Qed.
Lemma text_noLF : forall t, printable t = true -> noLF (text t) = true.
Proof.
  induction t as [| |l|t IH|l IH|l IH|a b IHa IHb|a b IHa IHb|cc c k ls cs] using tree_ind'; intros P; cbn [text printable] in *.
  - reflexivity.
  - reflexivity.
  - apply lit_noLF; auto.
  - rewrite !noLF_app, IH; auto.
  - rewrite forallb_forall in P. rewrite Forall_forall in IH. apply concat_noLF2; auto. intros w I. apply in_map_iff in I as (u & <- & I). apply br_noLF; auto.
  - rewrite forallb_forall in P. rewrite Forall_forall in IH. apply concat_noLF2; auto. intros w I. apply in_map_iff in I as (u & <- & I). apply br_noLF; auto.
  - apply andb_prop in P as [P1 P2]. rewrite !noLF_app, !br_noLF; auto.
  - apply andb_prop in P as [P1 P2]. rewrite !noLF_app, !br_noLF; auto.
  - rewrite !noLF_app, decZ_noLF. unfold sumT. rewrite concat_noLF2; [destruct c; reflexivity|reflexivity|]. intros w I. apply in_map_iff in I as (x & <- & I). apply mul_noLF. apply (lits_adm ls P cs x I).
Qed.
(** the lines of the file: one for the formula, or one for every operand of a conjunction *)
Definition lineTrees (split : bool) (t : tree) : list tree := match split, t with true, TAnd l => l | _, _ => [t] end.
Definition fileOf (us : list tree) : string := String.concat "" (map (fun l => l ++ nl) (map text us)).
Lemma write_ok s f t split : wf s -> Den s f t -> printable t = true -> forall n, tall t <= n -> writeFormula n split f s = Some (fileOf (lineTrees split t)).
Proof.
  intros Hw D P n L. unfold writeFormula. pose proof (one_formula s f t Hw D P n L) as E.
  assert (One : match sprint n f s with Some t => Some (t ++ nl) | None => None end = Some (fileOf [t])) by (rewrite E; reflexivity).
  pose proof (Den_sort s f t D) as Es. destruct split; [|exact One]. destruct t as [| | | |l| | | |[] ? ? ? ?]; rewrite Es; try exact One. cbn [lineTrees].
  apply Den_and_inv in D as (ops & N & F). apply node_ands in N; [|apply Hw]. unfold Operands, getops. rewrite Es, N. cbn [printable] in P. rewrite forallb_forall in P. cbn [tall] in L.
  assert (Q : forall u, In u l -> tall u <= n) by (intros u I; pose proof (tall_in l u I); lia).
  assert (M : mapO (fun g => match sprint n g s with Some t => Some (t ++ nl) | None => None end) ops = Some (map (fun l => l ++ nl) (map text l))).
  { clear N Es One E L. induction F as [|g u ops l Dg F IH]; [reflexivity|]. cbn [mapO map]. rewrite (one_formula s g u Hw Dg (P u (or_introl eq_refl)) n (Q u (or_introl eq_refl))), IH; auto; intros; [apply P|apply Q]; right; auto. }
  rewrite M. reflexivity.
Qed.
Lemma read_ok : forall us, (forall u, In u us -> printable u = true /\ formed u /\ (N.of_nat (String.length (text u)) < 1048576)%N) -> forall cv s H, history anycall cv s H ->
  exists gs vs s' H' n0, (forall n, n0 <= n -> readFormulas n (fileOf us) s = Some (Some gs, s')) /\ steps anycall (s, H) (s', H') /\ incl H H' /\ incl gs H' /\ Forall2 (Reads s') gs vs /\ forall b, map (eval b) vs = map (eval b) us.
Proof.
  intros us Q. unfold readFormulas, fileOf. rewrite scan_all by (intros l I; apply in_map_iff in I as (u & <- & I); apply text_noLF, Q; auto).
  induction us as [|u us IH]; intros cv s H Hh.
  - exists [], [], s, H, 0. split; [reflexivity|]. split; [constructor|]. split; [apply incl_refl|]. split; [intros x []|]. split; [constructor|reflexivity].
  - destruct (Q u (or_introl eq_refl)) as (Pu & Fu & Lu). destruct (parse_text u Pu Fu) as (n1 & E1). destruct (walk_other u Pu Fu cv s H [] Hh) as (g & s1 & H1 & W & St1 & I1 & Ig & v & Rv & Ev). pose proof (hist_more _ _ _ _ _ Hh St1) as Hh1.
    destruct (IH (fun x I => Q x (or_intror I)) cv s1 H1 Hh1) as (gs & vs & s2 & H2 & n2 & E2 & St2 & I2 & Igs & Rs & Es).
    exists (g :: gs), (v :: vs), s2, H2, (n1 + n2). split.
    + intros n Ln. cbn [map]. unfold readFits at 1. apply N.ltb_lt in Lu. rewrite Lu. unfold bind at 1. rewrite (E1 n ltac:(lia) s). unfold bind at 1. rewrite W. cbn [rev app]. unfold ret at 1. cbn [sform]. unfold bind at 1. rewrite (E2 n ltac:(lia)). reflexivity.
    + split; [eapply steps_trans; eauto|]. split; [intros x I; auto|]. split; [intros x [<-|I]; auto|]. split; [constructor; auto; eapply reads_more; [exact Hh1|exact St2|exact Ig|exact Rv]|]. intros b. cbn [map]. rewrite Ev, Es. reflexivity.
Qed.
(** Writing a formula to a file, as one line or one line for each operand of a conjunction, and reading the file on any factory gives a
    formula with the same meaning, if every line is shorter than 1 MiB. *)
Theorem C46_file : forall cv s H X f t split cv2 s2 H2, library cv s H X -> Reads s f t -> printable t = true -> history anycall cv2 s2 H2 ->
  exists txt n0, (forall n, n0 <= n -> writeFormula n split f s = Some txt) /\
    ((forall line, In line (scanLines "" txt) -> N.of_nat (String.length line) < 1048576)%N ->
     exists g u s2' H2', (forall n, n0 <= n -> readFormula n txt s2 = Some (Some g, s2')) /\
       steps anycall (s2, H2) (s2', H2') /\ In g H2' /\ Reads s2' g u /\ (forall b, eval b u = eval b t)).
Proof.
  intros cv s H X f t split cv2 s2 H2 L R P Hh. pose proof (library_wf _ _ _ _ L) as Hw. apply Reads_Den in R; auto. pose proof (Den_formed s Hw t f R) as F.
  assert (PF : forall u, In u (lineTrees split t) -> printable u = true /\ formed u).
  { intros u I. destruct split; [destruct t; try (destruct I as [<-|[]]; auto)|destruct I as [<-|[]]; auto]. cbn [lineTrees printable formed] in *. rewrite forallb_forall in P. destruct F as [_ F]. rewrite Forall_forall in F. split; auto. apply F, in_map; auto. }
  assert (Fit : (forall line, In line (scanLines "" (fileOf (lineTrees split t))) -> N.of_nat (String.length line) < 1048576)%N -> forall u, In u (lineTrees split t) -> printable u = true /\ formed u /\ (N.of_nat (String.length (text u)) < 1048576)%N).
  { intros Q u I. destruct (PF u I). split; auto. split; auto. apply Q. unfold fileOf. rewrite scan_all; [apply in_map; auto|]. intros l Il. apply in_map_iff in Il as (v & <- & Iv). apply text_noLF, PF; auto. }
  assert (Ev : forall vs, (forall b, map (eval b) vs = map (eval b) (lineTrees split t)) -> forall b, forallb (eval b) vs = eval b t).
  { intros vs E b. rewrite forallb_map, E, <- forallb_map. destruct split; [destruct t; cbn; rewrite ?andb_true_r; auto|cbn; rewrite andb_true_r; auto]. }
  assert (Hn : exists n1, forall n, n1 <= n -> (forall line, In line (scanLines "" (fileOf (lineTrees split t))) -> N.of_nat (String.length line) < 1048576)%N -> exists gs vs s' H',
     (forall n, n1 <= n -> readFormulas n (fileOf (lineTrees split t)) s2 = Some (Some gs, s')) /\ steps anycall (s2, H2) (s', H') /\ incl gs H' /\ Forall2 (Reads s') gs vs /\ forall b, map (eval b) vs = map (eval b) (lineTrees split t)).
  { assert (D : (forall line, In line (scanLines "" (fileOf (lineTrees split t))) -> N.of_nat (String.length line) < 1048576)%N \/ ~ (forall line, In line (scanLines "" (fileOf (lineTrees split t))) -> N.of_nat (String.length line) < 1048576)%N).
    { destruct (forallb (fun line => N.ltb (N.of_nat (String.length line)) 1048576) (scanLines "" (fileOf (lineTrees split t)))) eqn:E; [left|right].
      - rewrite forallb_forall in E. intros l I. apply N.ltb_lt, E; auto.
      - intros Q. assert (X1 : forallb (fun line => N.ltb (N.of_nat (String.length line)) 1048576) (scanLines "" (fileOf (lineTrees split t))) = true) by (apply forallb_forall; intros l I; apply N.ltb_lt, Q; auto). congruence. }
    destruct D as [D|D]; [|exists 0; intros n _ Q; exfalso; auto].
    destruct (read_ok (lineTrees split t) (Fit D) cv2 s2 H2 Hh) as (gs & vs & s' & H' & n1 & E & St & _ & Ig & Rs & Es). exists n1. intros n _ _. exists gs, vs, s', H'. auto. }
  destruct Hn as (n1 & Hn). exists (fileOf (lineTrees split t)), (tall t + n1). split; [intros n Ln; apply write_ok; auto; lia|]. intros Q.
  destruct (Hn n1 (le_n _) Q) as (gs & vs & s1 & H1 & E & St & Ig & Rs & Es). pose proof (hist_more _ _ _ _ _ Hh St) as Hh1.
  destruct (built_call cv2 s1 H1 (CAnd gs) vs t Hh1) as (g & s3 & E3 & St3 & _ & I3 & u & Ru & Eu); [exact Ig|exact Rs|intros b; apply (Ev vs Es)|].
  exists g, u, s3, (g :: H1). split; [|split; [eapply steps_trans; eauto|auto]]. intros n Ln. unfold readFormula, bind. rewrite (E n ltac:(lia)). unfold up. cbn in E3. rewrite E3. reflexivity.
Qed.

(** ** Where the round trip fails *)
Definition world (cs : list (list formula -> call)) : state := fst (lworld cs).
Definition held0 (cs : list (list formula -> call)) : formula := nthf 0 (snd (lworld cs)).
(** A variable whose name is a number, in a constraint without a coefficient: the parser panics. *)
Definition hNum : list (list formula -> call) := [fun _ => CVar "1"; fun _ => CVar "x"; fun H => CAMO [nthf 1 H; nthf 0 H]]%string.
Theorem C46_number_panics_refuted : exists s H f txt, library false s H [] /\ In f H /\ sprint 9 f s = Some txt /\ forall n, parse (20 + n) txt s = None.
Proof.
  exists (world hNum), (snd (lworld hNum)), (held0 hNum), "1 + x <= 1". split; [apply lworld_library; vm_compute; discriminate|]. split; [apply inb_in; vm_compute; reflexivity|]. split; [vm_compute; reflexivity|]. intros n. vm_compute. reflexivity.
Qed.
(** With a coefficient, the number is taken for the coefficient: 2*1 + 3*x <= 3 becomes 1*2 + 3*x <= 3. *)
Definition hSwap : list (list formula -> call) := [fun _ => CVar "1"; fun _ => CVar "x"; fun H => CPBC LE 3 [nthf 1 H; nthf 0 H] [2; 3]%Z]%string.
Theorem C46_number_swapped_refuted : exists s H f t txt g s' u, library false s H [] /\ In f H /\ Reads s f t /\ sprint 9 f s = Some txt /\
  (forall n, parse (20 + n) txt s = Some (Some g, s')) /\ Reads s' g u /\ ~ equiv u t.
Proof.
  pose (r := parse 20 "2*1 + 3*x <= 3" (world hSwap)).
  exists (world hSwap), (snd (lworld hSwap)), (held0 hSwap), (TPBC false LE 3 [("1", true); ("x", true)] [2; 3]%Z), "2*1 + 3*x <= 3".
  exists (match r with Some (Some g, _) => g | _ => ffalse end), (match r with Some (_, s') => s' | _ => world hSwap end), (TPBC false LE 3 [("2", true); ("x", true)] [1; 3]%Z).
  split; [apply lworld_library; vm_compute; discriminate|]. split; [apply inb_in; vm_compute; reflexivity|]. split; [apply (readf_ok 9); vm_compute; reflexivity|]. split; [vm_compute; reflexivity|]. split; [intros n; vm_compute; reflexivity|]. split; [apply (readf_ok 9); vm_compute; reflexivity|].
  intros E. specialize (E (fun x => String.eqb x "1" || String.eqb x "x")). vm_compute in E. discriminate.
Qed.
(** A name that is not a name of the grammar: the variable "a & b" becomes a conjunction. *)
Definition hName : list (list formula -> call) := [fun _ => CVar "a & b"]%string.
Theorem C46_name_refuted : exists s H f t txt g s' u, library false s H [] /\ In f H /\ Reads s f t /\ sprint 9 f s = Some txt /\
  (forall n, parse (20 + n) txt s = Some (Some g, s')) /\ Reads s' g u /\ ~ equiv u t.
Proof.
  pose (r := parse 20 "a & b" (world hName)).
  exists (world hName), (snd (lworld hName)), (held0 hName), (TLit ("a & b", true)), "a & b".
  exists (match r with Some (Some g, _) => g | _ => ffalse end), (match r with Some (_, s') => s' | _ => world hName end), (TAnd [TLit ("a", true); TLit ("b", true)]).
  split; [apply lworld_library; vm_compute; discriminate|]. split; [apply inb_in; vm_compute; reflexivity|]. split; [apply (readf_ok 9); vm_compute; reflexivity|]. split; [vm_compute; reflexivity|]. split; [intros n; vm_compute; reflexivity|]. split; [apply (readf_ok 9); vm_compute; reflexivity|].
  intros E. specialize (E (fun x => String.eqb x "a & b")). vm_compute in E. discriminate.
Qed.
(** A cardinality constraint x < 0 becomes a pseudo-Boolean constraint, another formula of the factory. *)
Definition hBelow : list (list formula -> call) := [fun _ => CVar "x"; fun H => CCC LT 0 [nthf 0 H]]%string.
Theorem C46_below0_refuted : exists s H f txt g s', library false s H [] /\ In f H /\ sprint 9 f s = Some txt /\ (forall n, parse (20 + n) txt s = Some (Some g, s')) /\ g <> f /\ srt f = SCC /\ srt g = SPBC.
Proof.
  pose (r := parse 20 "x < 0" (world hBelow)).
  exists (world hBelow), (snd (lworld hBelow)), (held0 hBelow), "x < 0".
  exists (match r with Some (Some g, _) => g | _ => ffalse end), (match r with Some (_, s') => s' | _ => world hBelow end).
  split; [apply lworld_library; vm_compute; discriminate|]. split; [apply inb_in; vm_compute; reflexivity|]. split; [vm_compute; reflexivity|]. split; [intros n; vm_compute; reflexivity|]. split; [vm_compute; discriminate|]. split; vm_compute; reflexivity.
Qed.
(** Text after a formula is ignored: "a b" is read as a, without an error. *)
Theorem C46_trailing_refuted : exists s H f, library false s H [] /\ In f H /\ Reads s f (TLit ("a", true)) /\ forall n, parse (20 + n) "a b ) &" s = Some (Some f, s).
Proof.
  pose (h := [fun _ : list formula => CVar "a"]). exists (world h), (snd (lworld h)), (held0 h).
  split; [apply lworld_library; vm_compute; discriminate|]. split; [apply inb_in; vm_compute; reflexivity|]. split; [apply (readf_ok 9); vm_compute; reflexivity|]. intros n. vm_compute. reflexivity.
Qed.

(** ** The hypotheses are met *)
Definition hPr : list (list formula -> call) :=
  [fun _ => CVar "a"; fun _ => CLit "b" false; fun H => COr [nthf 1 H; nthf 0 H]; fun _ => CVar "@x_1"; fun H => CImpl (nthf 0 H) (nthf 1 H); fun H => CNot (nthf 0 H);
   fun H => CPBC GE 2 [nthf 4 H; nthf 5 H; nthf 2 H] [-3; 1; 12]%Z; fun _ => CVar "42"; fun H => CAnd [nthf 2 H; nthf 1 H; nthf 0 H]]%string.
Definition tPr : tree :=
  TAnd [TNot (TImpl (TLit ("@x_1", true)) (TOr [TLit ("a", true); TLit ("b", false)])); TPBC false GE 2 [("b", false); ("a", true); ("@x_1", true)] [-3; 1; 12]%Z; TLit ("42", true)].
Definition txtPr : string := "~(@x_1 => a | ~b) & (-3*~b + a + 12*@x_1 >= 2) & 42".
Example print_example : library false (world hPr) (snd (lworld hPr)) [] /\ Reads (world hPr) (held0 hPr) tPr /\ printable tPr = true /\ noneBelow0 tPr = true /\
  sprint 9 (held0 hPr) (world hPr) = Some txtPr /\ match parse 30 txtPr (world hPr) with Some (Some g, _) => g = held0 hPr | _ => False end.
Proof.
  split; [apply lworld_library; vm_compute; discriminate|]. split; [apply (readf_ok 9); vm_compute; reflexivity|]. split; [vm_compute; reflexivity|]. split; [vm_compute; reflexivity|]. split; [vm_compute; reflexivity|]. vm_compute. reflexivity.
Qed.
Example text_example : text tPr = txtPr.
Proof. reflexivity. Qed.

Print Assumptions C46_roundtrip.
Print Assumptions C46_meaning.
Print Assumptions C46_file.
Print Assumptions C46_number_panics_refuted.
Print Assumptions C46_number_swapped_refuted.
Print Assumptions C46_name_refuted.
Print Assumptions C46_below0_refuted.
Print Assumptions C46_trailing_refuted.
