(** * C62: the n-queens generator *)
From Coq Require Import String Ascii List Bool Arith ZArith NArith DecimalString Lia.
From Verif Require Import Spec Factory FactoryProofs FactoryProofs2 FactoryProofs3 FactoryApi FactoryProps Assign EncSpec EncAmo EncLemmas EncApi EncPbc EncProps NormalForm NfBase NfAssign NfSubst AssignProps NfEnc NfNnf NfCnf NfTseitin Simplify SimpBase NfApi NfProps QueensSpec Queens.
Import ListNotations.
Local Close Scope N_scope.
Local Open Scope list_scope.

(** ** The lines of the board *)
Lemma le1_filter (l : list nat) (p : nat -> bool) : NoDup l -> (length (filter p l) <= 1 <-> forall x y, In x l -> In y l -> p x = true -> p y = true -> x = y).
Proof.
  intros N. assert (Nf : NoDup (filter p l)) by (apply NoDup_filter; auto). split.
  - intros L x y Jx Jy Px Py. destruct (Nat.eq_dec x y) as [|Ne]; auto. exfalso. assert (K : length [x; y] <= length (filter p l)).
    { apply NoDup_incl_length; [constructor; [intros [E|[]]; congruence|constructor; auto; constructor]|]. intros z [<-|[<-|[]]]; apply filter_In; auto. } cbn in K. lia.
  - intros H. destruct (filter p l) as [|x [|y r]] eqn:E; cbn; try lia. exfalso. assert (Jx : In x (filter p l)) by (rewrite E; left; auto). assert (Jy : In y (filter p l)) by (rewrite E; right; left; auto).
    apply filter_In in Jx as [Jx Px]. apply filter_In in Jy as [Jy Py]. inversion Nf; subst. apply H2. left. apply H; auto.
Qed.
Lemma filter_map_len {A} (p : A -> bool) (f : nat -> A) l : length (filter p (map f l)) = length (filter (fun j => p (f j)) l).
Proof. induction l; cbn; auto. destruct (p (f a)); cbn; auto. Qed.
Definition lineOK (q : nat -> nat -> bool) (l : bool * list (nat * nat)) : Prop :=
  let k := length (filter (fun p => q (fst p) (snd p)) (snd l)) in if fst l then k = 1 else k <= 1.
Lemma lineOK_le q m (f : nat -> nat * nat) : lineOK q (false, map f (seq 0 m)) <-> forall x y, x < m -> y < m -> q (fst (f x)) (snd (f x)) = true -> q (fst (f y)) (snd (f y)) = true -> x = y.
Proof.
  unfold lineOK. cbn [fst snd]. rewrite filter_map_len, le1_filter by apply seq_NoDup. split; intros H x y.
  - intros Lx Ly. apply H; apply in_seq; lia.
  - intros Jx Jy. apply in_seq in Jx, Jy. apply H; lia.
Qed.
Lemma lineOK_eq q m (f : nat -> nat * nat) : lineOK q (true, map f (seq 0 m)) <-> exists j, j < m /\ q (fst (f j)) (snd (f j)) = true /\ forall k, k < m -> q (fst (f k)) (snd (f k)) = true -> k = j.
Proof.
  assert (E : lineOK q (true, map f (seq 0 m)) <-> lineOK q (false, map f (seq 0 m)) /\ exists j, j < m /\ q (fst (f j)) (snd (f j)) = true).
  { unfold lineOK. cbn [fst snd]. rewrite filter_map_len. set (l := filter _ _). assert (Ex : (exists j, j < m /\ q (fst (f j)) (snd (f j)) = true) <-> 1 <= length l).
    { split.
      - intros (j & L & Q). assert (J : In j l) by (apply filter_In; split; auto; apply in_seq; lia). destruct l; [destruct J|cbn; lia].
      - intros L. destruct l as [|x r] eqn:El; [cbn in L; lia|]. assert (J : In x l) by (rewrite El; left; auto). apply filter_In in J as [J Q]. apply in_seq in J. exists x. split; auto. lia. }
    rewrite Ex. lia. }
  rewrite E, lineOK_le. split.
  - intros [H (j & L & Q)]. exists j. split; auto.
  - intros (j & L & Q & H). split; [intros x y Lx Ly Qx Qy; rewrite (H x), (H y); auto|exists j; auto].
Qed.
Lemma lines_queens n q : (forall l, In l (lines n) -> lineOK q l) <-> queens n q.
Proof.
  unfold lines, queens. split.
  - intros H.
    assert (H1 : forall i, i < n -> lineOK q (true, map (fun j => (i, j)) (seq 0 n))) by (intros i L; apply H, in_or_app; left; apply in_map_iff; exists i; split; auto; apply in_seq; lia).
    assert (H2 : forall i, i < n -> lineOK q (true, map (fun j => (j, i)) (seq 0 n))) by (intros i L; apply H; do 1 (apply in_or_app; right); apply in_or_app; left; apply in_map_iff; exists i; split; auto; apply in_seq; lia).
    assert (H3 : forall i, i < n - 1 -> lineOK q (false, map (fun j => (j, i + j)) (seq 0 (n - i)))) by (intros i L; apply H; do 2 (apply in_or_app; right); apply in_or_app; left; apply in_map_iff; exists i; split; auto; apply in_seq; lia).
    assert (H4 : forall i, 1 <= i < n - 1 -> lineOK q (false, map (fun j => (j + i, j)) (seq 0 (n - i)))) by (intros i L; apply H; do 3 (apply in_or_app; right); apply in_or_app; left; apply in_map_iff; exists i; split; auto; apply in_seq; lia).
    assert (H5 : forall i, i < n - 1 -> lineOK q (false, map (fun j => (j, n - 1 - (i + j))) (seq 0 (n - i)))) by (intros i L; apply H; do 4 (apply in_or_app; right); apply in_or_app; left; apply in_map_iff; exists i; split; auto; apply in_seq; lia).
    assert (H6 : forall i, 1 <= i < n - 1 -> lineOK q (false, map (fun j => (j + i, n - 1 - j)) (seq 0 (n - i)))) by (intros i L; apply H; do 5 (apply in_or_app; right); apply in_map_iff; exists i; split; auto; apply in_seq; lia).
    split; [|split].
    + intros i L. specialize (H1 i L). rewrite lineOK_eq in H1. exact H1.
    + intros i L. specialize (H2 i L). rewrite lineOK_eq in H2. exact H2.
    + intros i j k l Li Lj Lk Ll Q1 Q2 Ne. split; intros E.
      * destruct (le_lt_dec n (i + j)) as [G|G].
        -- assert (L : 1 <= i + j - (n - 1) < n - 1) by lia. specialize (H6 _ L). rewrite lineOK_le in H6. cbn [fst snd] in H6.
           assert (n - 1 - j = n - 1 - l); [|lia]. apply H6; try lia.
           ++ replace (n - 1 - j + (i + j - (n - 1))) with i by lia. replace (n - 1 - (n - 1 - j)) with j by lia. auto.
           ++ replace (n - 1 - l + (i + j - (n - 1))) with k by lia. replace (n - 1 - (n - 1 - l)) with l by lia. auto.
        -- assert (L : n - 1 - (i + j) < n - 1) by lia. specialize (H5 _ L). rewrite lineOK_le in H5. cbn [fst snd] in H5.
           apply Ne. apply H5; try lia.
           ++ replace (n - 1 - (n - 1 - (i + j) + i)) with j by lia. auto.
           ++ replace (n - 1 - (n - 1 - (i + j) + k)) with l by lia. auto.
      * destruct (le_lt_dec i j) as [G|G].
        -- assert (L : j - i < n - 1) by lia. specialize (H3 _ L). rewrite lineOK_le in H3. cbn [fst snd] in H3. apply Ne. apply H3; try lia.
           ++ replace (j - i + i) with j by lia. auto.
           ++ replace (j - i + k) with l by lia. auto.
        -- assert (L : 1 <= i - j < n - 1) by lia. specialize (H4 _ L). rewrite lineOK_le in H4. cbn [fst snd] in H4. assert (j = l); [|lia]. apply H4; try lia.
           ++ replace (j + (i - j)) with i by lia. auto.
           ++ replace (l + (i - j)) with k by lia. auto.
  - intros (Hr & Hc & Hd) l J. repeat (apply in_app_iff in J as [J|J]); apply in_map_iff in J as (i & <- & J); apply in_seq in J; (apply lineOK_eq || apply lineOK_le); cbn [fst snd].
    + apply Hr. lia.
    + apply Hc. lia.
    + intros x y Lx Ly Qx Qy. destruct (Nat.eq_dec x y) as [|Ne]; auto. exfalso. destruct (Hd x (i + x) y (i + y)) as [_ N]; try lia; auto.
    + intros x y Lx Ly Qx Qy. destruct (Nat.eq_dec x y) as [|Ne]; auto. exfalso. destruct (Hd (x + i) x (y + i) y) as [_ N]; try lia; auto.
    + intros x y Lx Ly Qx Qy. destruct (Nat.eq_dec x y) as [|Ne]; auto. exfalso. destruct (Hd x (n - 1 - (i + x)) y (n - 1 - (i + y))) as [N _]; try lia; auto.
    + intros x y Lx Ly Qx Qy. destruct (Nat.eq_dec x y) as [|Ne]; auto. exfalso. destruct (Hd (x + i) (n - 1 - x) (y + i) (n - 1 - y)) as [N _]; try lia; auto.
Qed.
Lemma lines_in n l p : In l (lines n) -> In p (snd l) -> fst p < n /\ snd p < n.
Proof.
  unfold lines. intros J K. repeat (apply in_app_iff in J as [J|J]); apply in_map_iff in J as (i & <- & J); apply in_seq in J; cbn [snd] in K; apply in_map_iff in K as (j & <- & K); apply in_seq in K; cbn [fst snd]; lia.
Qed.
Lemma lines_ne n l : In l (lines n) -> snd l <> [].
Proof.
  unfold lines. intros J E. repeat (apply in_app_iff in J as [J|J]); apply in_map_iff in J as (i & <- & J); apply in_seq in J; cbn [snd] in E; apply (f_equal (@length _)) in E; rewrite map_length, seq_length in E; cbn in E; lia.
Qed.

(** ** The clauses of a line *)
Lemma count_len a ls : EncSpec.count a ls <= length ls.
Proof. induction ls as [|l ls IH]; cbn; auto. destruct (lval a l); cbn; lia. Qed.
Definition posLits (x : list string) : list lit := map (fun y => (y, true)) x.
Definition qBase : amoConfig := c_base (f_cc queensCf).
Lemma amo_pure a ls n : sat a (fst (amo qBase ls n)) <-> EncSpec.count a ls <= 1.
Proof.
  unfold amo. destruct (length ls <=? 1) eqn:E; cbn [fst].
  - apply Nat.leb_le in E. pose proof (count_len a ls). split; [lia|intros _; apply sat_nil].
  - cbn. apply pure_sat.
Qed.
Lemma exo_pure a ls n : ls <> [] -> (sat a (fst (exo qBase ls n)) <-> EncSpec.count a ls = 1).
Proof.
  intros Ne. unfold exo. destruct ls as [|x [|y r]]; [contradiction| |].
  - cbn [fst]. rewrite sat1, csat_exists. pose proof (count_len a [x]). cbn [length] in H. lia.
  - pose proof (amo_pure a (x :: y :: r) n) as Q. destruct (amo qBase (x :: y :: r) n) as [cs n'] eqn:E. cbn [fst] in *. rewrite sat_app, sat1, csat_exists, Q. lia.
Qed.
Lemma qBase_adm : admissible qBase.
Proof. unfold admissible, qBase. cbn. split; auto. split; auto. split; auto. apply log2_up_bits. Qed.
Lemma encodePure (e : bool) s V f (x : list string) : winv s V -> x <> [] -> (forall y, In y x -> reserved y = false) ->
  let t := cc_tree (if e then EQ else LE) 1%Z (posLits x) in Den s f t ->
  wp (fun _ => encodePBCM queensCf f) s V (fun fs s' V' => exists ts, Forall2 (Den s') fs ts /\ forall b, eval b (TAnd ts) = true <-> eval b t = true).
Proof.
  intros I Ne Hres t Hd. pose proof (v_wf _ _ I) as Hw. set (ns := posLits x) in *.
  assert (Et : t = TPBC true (if e then EQ else LE) 1%Z ns (map (fun _ => 1%Z) ns)) by (unfold t, cc_tree; unfold ns; destruct x; [contradiction|reflexivity]).
  clearbody t. subst t.
  destruct (opPbc_den s f _ _ _ _ _ Hw Hd) as (Hl & Hcs & Hr & Hc & _). pose proof (Den_sort _ _ _ Hd) as Hs. cbn in Hs.
  set (p := opPbc f s) in *. set (ls := map (elitOf s) (p_lits p)).
  assert (Nl : ls <> []). { unfold ls. destruct (p_lits p); [|discriminate]. exfalso. apply Ne. assert (Q : length ns = 0) by (inversion Hl; auto). unfold ns, posLits in Q. rewrite map_length in Q. destruct x; [auto|discriminate]. }
  assert (Hscope : scoped (encCtr s) ls).
  { intros l Hin. apply in_map_iff in Hin. destruct Hin as (g & <- & Hg). destruct (Forall2_in_l _ _ _ _ Hl Hg) as ([y q] & Hx & Hgl).
    rewrite (elitOf_den s g _ Hw Hgl). red. cbn. apply Hres. apply in_map_iff in Hx as (z & E & Hz). inversion E; subst; auto. }
  assert (HP : forall b, (if e then EncSpec.count (env_of b) ls = 1 else EncSpec.count (env_of b) ls <= 1) <-> eval b (TPBC true (if e then EQ else LE) 1%Z ns (map (fun _ => 1%Z) ns)) = true).
  { intros b. pose proof (count_env s b _ _ Hw Hl) as Q. fold ls in Q. cbn [eval]. rewrite <- Q. destruct e; cbn; [rewrite Z.eqb_eq|rewrite Z.leb_le]; lia. }
  set (out := if e then exo qBase ls (encCtr s) else amo qBase ls (encCtr s)).
  assert (He : encodes (fun a => if e then EncSpec.count a ls = 1 else EncSpec.count a ls <= 1) (encCtr s) out).
  { unfold out. destruct e; [apply C19_exactly_one|apply C19_at_most_one]; auto using qBase_adm. }
  assert (Hsat : forall a, sat a (fst out) <-> if e then EncSpec.count a ls = 1 else EncSpec.count a ls <= 1).
  { intros a. unfold out. destruct e; [apply exo_pure; auto|apply amo_pure]. }
  assert (Eo : encodeCC (f_cc queensCf) (p_cmp p) (p_rhs p) ls (encCtr s) = out) by (rewrite Hc, Hr; unfold out; destruct e; reflexivity).
  clearbody out. destruct out as [cls n']. cbn [fst] in Hsat.
  destruct (encode_winv s V cls n' _ _ I He HP (Den_names s f _ Hw Hd) eq_refl) as (fs & s1 & V' & E1 & I2 & X2 & D2 & R2).
  exists O, fs, (setEncCtr n' s1), V'. split; [|split; [exact I2|split; [exact X2|]]].
  - intros n _. unfold encodePBCM. unfold bind at 1, get at 1. unfold bind at 1, get at 1. rewrite Hs. fold p. cbv zeta. fold ls. rewrite Eo. unfold bind at 1. cbn [fst snd]. rewrite E1. reflexivity.
  - exists (map clauseTree cls). split; auto. intros b. rewrite <- HP, <- Hsat. symmetry. apply sat_eval. intros c Jc l Jl. destruct (encode_names _ _ _ _ He c l Jc Jl) as (y & Hy & _). eauto.
Qed.

(** ** The generator *)
Lemma square_res n i j : reserved (square n i j) = false.
Proof. reflexivity. Qed.
Lemma winv_var s V x v s' : winv s V -> reserved x = false -> Var x s = (v, s') -> winv s' V /\ wext s V s' V /\ litDen s' v (x, true).
Proof.
  intros I R E. destruct (Var_spec _ _ _ _ (v_wf _ _ I) E) as (G & N & Nm & _).
  destruct (winv_good s V s' I G) as [I' X']; [eapply same3_cnfk; [eapply Var_same3; eauto|apply I]| |auto].
  intros y Hy. apply Nm in Hy as [Hy| ->]; auto. right. intros Hf. apply (nonreserved_aux x R). eapply fresh_aux; eauto.
Qed.
Definition rowOf (n : nat) (s : state) (row : list formula) (i : nat) : Prop := Forall2 (fun v j => litDen s v (square n i j, true)) row (seq 0 n).
Lemma rowOf_ext n s V s' V' row i : wext s V s' V' -> rowOf n s row i -> rowOf n s' row i.
Proof. intros X H. unfold rowOf in *. induction H; constructor; auto. eapply wext_litDen; eauto. Qed.
Lemma Forall2_same {A} (l : list A) : Forall2 (fun a c => a = c) l l.
Proof. induction l; constructor; auto. Qed.
Lemma board_ok n s V : winv s V -> wp (fun _ => board n) s V (fun vs s' V' => Forall2 (rowOf n s') vs (seq 0 n)).
Proof.
  intros I. unfold board. apply (wp_mapM (fun _ i => mapM (fun j => up (Var (square n i j))) (seq 0 n)) (fun _ a c => a = c) (fun s _ row i => rowOf n s row i)); auto using Forall2_same.
  - intros. eapply rowOf_ext; eauto.
  - intros i c _ _ s1 V1 I1 _ <-.
    apply (wp_mapM (fun _ j => up (Var (square n i j))) (fun _ a c => a = c) (fun s _ v j => litDen s v (square n i j, true))); auto using Forall2_same.
    + intros. eapply wext_litDen; eauto.
    + intros j c _ _ s2 V2 I2 _ <-. apply wp_up_last. destruct (Var (square n i j) s2) as [v s3] eqn:E. destruct (winv_var _ _ _ _ _ I2 (square_res n i j) E) as (I3 & X3 & D3).
      eapply wp_up; [exact E|exact X3|]. apply wp_ret; auto.
Qed.
Lemma Forall2_nth_seq {A} (R : A -> nat -> Prop) l n d i : Forall2 R l (seq 0 n) -> i < n -> R (nth i l d) i.
Proof.
  assert (G : forall l k m i, Forall2 R l (seq k m) -> i < m -> R (nth i l d) (k + i)).
  { clear. induction l as [|x l IH]; intros k m i H L; destruct m; cbn in H; inversion H; subst; [lia|]. destruct i; [rewrite Nat.add_0_r; auto|].
    cbn [nth]. replace (k + S i) with (S k + i) by lia. apply (IH (S k) m); auto. lia. }
  intros H L. apply (G l 0 n i H L).
Qed.
Lemma lineForm_ok n vs l s V : winv s V -> Forall2 (rowOf n s) vs (seq 0 n) -> In l (lines n) ->
  wp (fun _ => lineForm vs l) s V (fun g s' V' => exists u, Den s' g u /\ forall b, eval b u = true <-> lineOK (fun i j => b (square n i j)) l).
Proof.
  intros I Hv J. pose proof (lines_ne _ _ J) as Ne. assert (In' : forall p, In p (snd l) -> fst p < n /\ snd p < n) by (intros p; apply lines_in; auto). destruct l as [e ps]. cbn [snd fst] in *.
  unfold lineForm. cbn [fst snd]. set (xs := map _ ps). set (x := map (fun p => square n (fst p) (snd p)) ps).
  assert (Hx : Forall2 (litDen s) xs (posLits x)).
  { unfold xs, x. clear -Hv In'. induction ps as [|p ps IH]; cbn [map]; constructor.
    - destruct (In' p) as [L1 L2]; [left; auto|]. pose proof (Forall2_nth_seq _ _ _ [] _ Hv L1) as Q. exact (Forall2_nth_seq _ _ _ ffalse _ Q L2).
    - apply IH. intros q Hq. apply In'. right; auto. }
  assert (Hp : forallb snd (posLits x) = true) by (apply forallb_forall; intros q Hq; apply in_map_iff in Hq as (? & <- & _); auto).
  assert (Ec : (if e then EXO xs else AMO xs) = constructCC (if e then EQ else LE) 1%Z xs) by (destruct e; reflexivity). rewrite Ec. clear Ec.
  destruct (constructCC (if e then EQ else LE) 1%Z xs s) as [c s1] eqn:E1.
  destruct (constructCC_spec s _ 1%Z xs _ c s1 (v_wf _ _ I) ltac:(lia) Hx Hp E1) as (G1 & N1 & D1).
  destruct (winv_good s V s1 I G1) as [I1 X1]; [eapply same3_cnfk; [eapply constructCC_same3; eauto|apply I]|auto|].
  eapply wp_up; [exact E1|exact X1|].
  assert (Nx : x <> []) by (unfold x; destruct ps; [contradiction|discriminate]).
  assert (Sc : srt c = SCC). { pose proof (Den_sort _ _ _ D1) as Q. unfold cc_tree in Q. destruct x; [contradiction|]. exact Q. }
  rewrite Sc. eapply wp_bind.
  - apply (encodePure e s1 V c x); auto. intros y Hy. unfold x in Hy. apply in_map_iff in Hy as (p & <- & _). apply square_res.
  - intros fs s2 V2 I2 X2 (ts & D2 & Q2). apply wp_up_last. destruct (And fs s2) as [g s3] eqn:E3. destruct (winv_and _ _ _ _ _ _ I2 D2 E3) as (I3 & X3 & u & D3 & Q3 & _).
    eapply wp_up; [exact E3|exact X3|]. apply wp_ret; auto. exists u. split; auto. intros b. rewrite (Q3 b), Q2. unfold cc_tree.
    assert (Ew : Spec.wsum b (posLits x) (map (fun _ => 1%Z) (posLits x)) = Z.of_nat (length (filter (fun p => b (square n (fst p) (snd p))) ps))).
    { unfold x, posLits. clear. induction ps as [|p ps IH]; cbn [map Spec.wsum filter]; auto. rewrite IH. unfold eval_lit. cbn [fst snd]. destruct (b (square n (fst p) (snd p))); cbn [length]; lia. }
    unfold lineOK. cbn [fst snd]. assert (Np : posLits x <> []) by (unfold posLits; destruct x; [contradiction|discriminate]). destruct (posLits x) as [|y r]; [contradiction|]. cbn [eval]. rewrite Ew. destruct e; cbn; [rewrite Z.eqb_eq|rewrite Z.leb_le]; lia.
Qed.

(** Different squares have different variables. *)
Theorem C62_squares : forall n i j k l, j < n -> l < n -> squareVar n i j = squareVar n k l -> i = k /\ j = l.
Proof.
  intros n i j k l Lj Ll E. unfold squareVar in E. assert (E2 : forall x y, String.append "v" x = String.append "v" y -> x = y) by (intros x y Q; injection Q; auto). apply E2, digits_inj in E. apply Nat2N.inj in E.
  assert (i = k) by nia. subst. split; auto. lia.
Qed.
Lemma square_var n i j : square n i j = squareVar n i j.
Proof. unfold square, squareVar. do 4 f_equal. lia. Qed.
Lemma queens_ext n q r : (forall i j, q i j = r i j) -> queens n q -> queens n r.
Proof. intros E (A & B & C). split; [|split]; intros *; repeat setoid_rewrite <- E; auto. Qed.
(** C62: in every history, the generator returns a formula over the variables of the squares whose models are the solutions of
    the n-queens problem, and the formulas of the factory stay as they are. *)
Theorem C62_queens : forall cv s H X n, library cv s H X -> exists g s' u, returns (fun _ => generateNQueens n) s g s' /\ keeps s s' /\ Reads s' g u /\
  forall b, eval b u = true <-> queens n (fun i j => b (squareVar n i j)).
Proof.
  intros cv s H X n L. destruct (library_inv _ _ _ _ L) as [V [I K _]].
  assert (W : wp (fun _ => generateNQueens n) s V (fun g s' _ => exists u, Den s' g u /\ forall b, eval b u = true <-> queens n (fun i j => b (square n i j)))).
  { unfold generateNQueens. eapply wp_bind; [apply board_ok; auto|]. intros vs s1 V1 I1 X1 Hv. cbn beta.
    eapply wp_bind.
    - apply (wp_mapM (fun _ => lineForm vs) (fun _ a c => a = c) (fun s _ g l => exists u, Den s g u /\ forall b, eval b u = true <-> lineOK (fun i j => b (square n i j)) l)); [auto| | |auto|apply Forall2_same].
      + intros s2 V2 s3 V3 X3 g l (u & D & Q). exists u. split; auto. eapply wext_Den; eauto.
      + intros l c Jl _ s2 V2 I2 X2 <-. apply lineForm_ok; auto. clear -Hv X2. induction Hv; constructor; auto. eapply rowOf_ext; eauto.
    - intros gs s2 V2 I2 X2 Hg. cbn beta in Hg. assert (T : exists ts, Forall2 (Den s2) gs ts /\ forall b, eval b (TAnd ts) = true <-> forall l, In l (lines n) -> lineOK (fun i j => b (square n i j)) l).
      { clear -Hg. induction Hg as [|g l gs ls (u & D & Q) _ (ts & D2 & Q2)]; [exists []; split; [constructor|]; intros b; cbn; split; auto; intros _ l []|].
        exists (u :: ts). split; [constructor; auto|]. intros b. cbn [eval forallb] in *. rewrite andb_true_iff, Q, Q2. split.
        - intros [A B] k [<-|J]; auto.
        - intros A. split; [apply A; left; auto|intros k J; apply A; right; auto]. }
      destruct T as (ts & D2 & Q2). apply wp_up_last. destruct (And gs s2) as [g s3] eqn:E3. destruct (winv_and _ _ _ _ _ _ I2 D2 E3) as (I3 & X3 & u & D3 & Q3 & _).
      eapply wp_up; [exact E3|exact X3|]. apply wp_ret; auto. exists u. split; auto. intros b. rewrite (Q3 b), Q2. apply lines_queens. }
  destruct W as (n0 & g & s' & V' & E & I' & X' & u & D & Q). exists g, s', u. split; [exists n0; exact E|]. split.
  { intros h v Hh. apply Reads_Den; [apply I'|]. apply Reads_Den in Hh; [|apply I]. eapply wext_Den; eauto. }
  split; [apply Reads_Den; auto; apply I'|]. intros b. rewrite Q. split; apply queens_ext; intros; rewrite square_var; reflexivity.
Qed.

(** ** Examples *)
(** the queens of a board with four rows stand in the columns 1, 3, 0 and 2 *)
Definition q4 (i j : nat) : bool := j =? nth i [1; 3; 0; 2] 9.
Example queens_4 : queens 4 q4.
Proof.
  apply lines_queens. intros l J. cbn in J. repeat (destruct J as [<-|J]; [vm_compute; auto|]). destruct J.
Qed.
Definition hQ : list (list formula -> FactoryApi.call) := [ (fun _ => CVar "v6"); (fun _ => CVar "b"); (fun h => CAnd h) ]%string.
Definition qRes (n : nat) : option tree := match generateNQueens n (fst (lworld hQ)) with Some (g, s') => readf 30 s' g | None => None end.
(** the formula of a factory that has other formulas and one of the variables: satisfied by the board above, not by two
    boards with one queen moved *)
Example queens_example : library false (fst (lworld hQ)) (snd (lworld hQ)) [] /\ squareVar 4 0 1 = "v2"%string /\ squareVar 4 3 3 = "v16"%string /\ match qRes 4 with
  | Some u => eval (fun x => existsb (String.eqb x) ["v2"; "v8"; "v9"; "v15"]%string) u = true /\ eval (fun x => existsb (String.eqb x) ["v2"; "v8"; "v9"; "v14"]%string) u = false /\ eval (fun x => existsb (String.eqb x) ["v1"; "v8"; "v9"; "v15"]%string) u = false
  | None => False
  end.
Proof. split; [apply lworld_library; vm_compute; discriminate|]. vm_compute. auto 6. Qed.
(** boards with two and three rows have no solution: the generated formula has no model *)
Lemma queens_small n q : n = 2 \/ n = 3 -> ~ queens n q.
Proof.
  intros Hn Hq. assert (F : Forall (lineOK q) (lines n)) by (apply Forall_forall, lines_queens; auto). clear Hq.
  destruct Hn as [-> | ->]; unfold lines in F; cbn in F; unfold lineOK in F; repeat match goal with H : Forall _ (_ :: _) |- _ => inversion H; clear H; subst end; cbn [fst snd filter] in *.
  - destruct (q 0 0), (q 0 1), (q 1 0), (q 1 1); cbn [length] in *; lia.
  - destruct (q 0 0), (q 0 1), (q 0 2); cbn [length] in *; try lia; destruct (q 1 0), (q 1 1), (q 1 2); cbn [length] in *; try lia; destruct (q 2 0), (q 2 1), (q 2 2); cbn [length] in *; lia.
Qed.
Theorem C62_small_boards : forall cv s H X n, library cv s H X -> n = 2 \/ n = 3 ->
  exists g s' u, returns (fun _ => generateNQueens n) s g s' /\ Reads s' g u /\ forall b, eval b u = false.
Proof.
  intros cv s H X n L Hn. destruct (C62_queens cv s H X n L) as (g & s' & u & R & _ & Hu & Q). exists g, s', u. split; auto. split; auto.
  intros b. destruct (eval b u) eqn:E; auto. exfalso. apply Q in E. exact (queens_small _ _ Hn E).
Qed.

Print Assumptions C62_queens.
Print Assumptions C62_squares.
Print Assumptions C62_small_boards.
