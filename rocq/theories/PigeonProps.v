(** * C64: the pigeonhole generator *)
From Coq Require Import String Ascii List Bool Arith ZArith NArith DecimalString Lia.
From Verif Require Import Spec Factory FactoryProofs FactoryProofs2 FactoryProofs3 FactoryApi FactoryProps Assign EncSpec EncApi EncPbc NormalForm NfBase NfAssign NfSubst AssignProps NfEnc NfNnf NfCnf NfTseitin Simplify SimpBase NfApi NfProps Pigeon.
Import ListNotations.
Local Close Scope N_scope.
Local Open Scope list_scope.

(** ** Specification *)
(** [q i j]: pigeon [i] of [n + 1] pigeons sits in hole [j] of [n] holes, both counted from 1.  Every pigeon sits in some hole, and no two in the same. *)
Definition placed (n : nat) (q : nat -> nat -> bool) : Prop :=
  (forall i, 1 <= i <= n + 1 -> exists j, 1 <= j <= n /\ q i j = true) /\
  (forall i k j, 1 <= i <= n + 1 -> 1 <= k <= n + 1 -> 1 <= j <= n -> q i j = true -> q k j = true -> i = k).
(** the variables v1, v2, ..., pigeon by pigeon *)
Definition pigeonVar (n i j : nat) : string := String.append "v" (NilEmpty.string_of_uint (N.to_uint (N.of_nat ((i - 1) * n + j)))).

(** ** The pigeonhole principle *)
Lemma pigeonhole n q : ~ placed n q.
Proof.
  intros [A B]. assert (Hs : forall l, (forall i, In i l -> 1 <= i <= n + 1) -> exists js, Forall2 (fun i j => 1 <= j <= n /\ q i j = true) l js).
  { induction l as [|i l IH]; intros H; [exists []; constructor|]. destruct IH as [js F]; [intros k J; apply H; right; auto|]. destruct (A i (H i (or_introl eq_refl))) as (j & Hj). exists (j :: js). constructor; auto. }
  destruct (Hs (seq 1 (n + 1))) as [js F]; [intros i J; apply in_seq in J; lia|].
  assert (Nd : NoDup js).
  { assert (Hi : forall i, In i (seq 1 (n + 1)) -> 1 <= i <= n + 1) by (intros i J; apply in_seq in J; lia). pose proof (seq_NoDup (n + 1) 1) as N. clear -F Hi N B. induction F as [|i j l js [Hj Q] F IH]; [constructor|]. inversion N; subst.
    constructor; [|apply IH; auto; intros k J; apply Hi; right; auto]. intros J. apply H1. clear IH. assert (E : forall k, In k l -> 1 <= k <= n + 1) by (intros k Jk; apply Hi; right; auto).
    assert (Hi1 : 1 <= i <= n + 1) by (apply Hi; left; auto). clear -F J B Q Hj E Hi1. induction F as [|k j' l js [Hj' Q'] F IH]; [destruct J|]. destruct J as [->|J]; [left; apply (B k i j); auto; apply E; left; auto|right; apply IH; auto; intros m Jm; apply E; right; auto]. }
  assert (L : length js <= length (seq 1 n)).
  { apply NoDup_incl_length; auto. intros j J. apply in_seq. clear -F J. induction F as [|i j' l js [Hj _] F IH]; [destruct J|]. destruct J as [<-|J]; [lia|auto]. }
  rewrite <- (Forall2_length _ _ _ F), !seq_length in L. lia.
Qed.

(** ** The clauses *)
Lemma winv_lit s V x p v s' : winv s V -> reserved x = false -> Lit x p s = (v, s') -> winv s' V /\ wext s V s' V /\ Den s' v (TLit (x, p)).
Proof.
  intros I R E. destruct (Lit_spec _ _ _ _ _ (v_wf _ _ I) E) as (G & N & Nm).
  destruct (winv_good s V s' I G) as [I' X']; [eapply same3_cnfk; [eapply Lit_same3; eauto|apply I]| |split; [auto|split; [auto|apply litDen_Den; exact N]]].
  intros y Hy. apply Nm in Hy as [Hy| ->]; auto. right. intros Hf. apply (nonreserved_aux x R). eapply fresh_aux; eauto.
Qed.
Lemma wp_lit x p s V : winv s V -> reserved x = false -> wp (fun _ => up (Lit x p)) s V (fun g s' _ => Den s' g (TLit (x, p))).
Proof.
  intros I R. apply wp_up_last. destruct (Lit x p s) as [v s'] eqn:E. destruct (winv_lit _ _ _ _ _ _ I R E) as (I' & X' & D). eapply wp_up; [exact E|exact X'|]. apply wp_ret; auto.
Qed.
Lemma wp_var x s V : winv s V -> reserved x = false -> wp (fun _ => up (Var x)) s V (fun g s' _ => Den s' g (TLit (x, true))).
Proof.
  intros I R. eapply wp_ext; [|apply (wp_lit x true s V I R)]. intros n. unfold up, Lit. destruct (Var x s); reflexivity.
Qed.
Definition reads (s : state) (g : formula) (t : tree) : Prop := exists u, Den s g u /\ equiv u t.
Lemma reads_ext s V s' V' g t : wext s V s' V' -> reads s g t -> reads s' g t.
Proof. intros X (u & D & E). exists u. split; auto. eapply wext_Den; eauto. Qed.
Lemma Forall2_reads s gs ts : Forall2 (reads s) gs ts -> exists us, Forall2 (Den s) gs us /\ Forall2 equiv us ts.
Proof. induction 1 as [|g t gs ts (u & D & E) _ (us & F & G)]; [exists []; split; constructor|]. exists (u :: us). split; constructor; auto. Qed.
Lemma wp_Or gs ts s V : winv s V -> Forall2 (reads s) gs ts -> wp (fun _ => up (Or gs)) s V (fun g s' _ => reads s' g (TOr ts)).
Proof.
  intros I F. destruct (Forall2_reads _ _ _ F) as (us & F1 & F2). apply wp_up_last. destruct (Or gs s) as [g s'] eqn:E. destruct (winv_or _ _ _ _ _ _ I F1 E) as (I' & X' & u & D & Q & _).
  eapply wp_up; [exact E|exact X'|]. apply wp_ret; auto. exists u. split; auto. intros b. rewrite (Q b). cbn [eval]. clear -F2. induction F2; cbn; auto. rewrite (H b), IHF2. auto.
Qed.
Lemma wp_And gs ts s V : winv s V -> Forall2 (reads s) gs ts -> wp (fun _ => up (And gs)) s V (fun g s' _ => reads s' g (TAnd ts)).
Proof.
  intros I F. destruct (Forall2_reads _ _ _ F) as (us & F1 & F2). apply wp_up_last. destruct (And gs s) as [g s'] eqn:E. destruct (winv_and _ _ _ _ _ _ I F1 E) as (I' & X' & u & D & Q & _).
  eapply wp_up; [exact E|exact X'|]. apply wp_ret; auto. exists u. split; auto. intros b. rewrite (Q b). cbn [eval]. clear -F2. induction F2; cbn; auto. rewrite (H b), IHF2. auto.
Qed.
Lemma Den_reads s g t : Den s g t -> reads s g t.
Proof. intros D. exists t. split; auto. intros b; auto. Qed.
(** a list of formulas, each built by [h] *)
Lemma wp_all {A} (h : A -> M formula) (T : A -> tree) l s V : winv s V -> (forall a s V, In a l -> winv s V -> wp (fun _ => h a) s V (fun g s' _ => reads s' g (T a))) ->
  wp (fun _ => mapM h l) s V (fun gs s' _ => Forall2 (reads s') gs (map T l)).
Proof.
  intros I Hh. eapply wp_conseq; [apply (wp_mapM (fun _ => h) (fun _ a c => a = c) (fun s _ g a => reads s g (T a))) with (cs := l)|].
  - auto.
  - intros. eapply reads_ext; eauto.
  - intros a c J _ s' V' I' _ <-. apply Hh; auto.
  - auto.
  - clear. induction l; constructor; auto.
  - cbv beta. intros gs s' V' _ _ F. clear -F. induction F; constructor; auto.
Qed.
Lemma hole_res n i j : reserved (holeVar n i j) = false. Proof. reflexivity. Qed.
Definition placeT (n : nat) : tree := TAnd (map (fun i => TOr (map (fun j => TLit (holeVar n i j, true)) (seq 1 n))) (seq 1 (n + 1))).
Definition onlyT (n : nat) : tree := TAnd (map (fun c => TOr [TLit (holeVar n (fst (snd c)) (fst c), false); TLit (holeVar n (snd (snd c)) (fst c), false)]) (conflicts n)).
Lemma reads_equiv s g t t' : equiv t t' -> reads s g t -> reads s g t'.
Proof. intros E (u & D & Q). exists u. split; auto. intros b. rewrite (Q b). apply E. Qed.
Lemma two_lits x y p q s V (k : list formula -> state -> formula * state) T : winv s V -> reserved x = false -> reserved y = false ->
  (forall gs ts s V, winv s V -> Forall2 (reads s) gs ts -> wp (fun _ => up (k gs)) s V (fun g s' _ => reads s' g (T ts))) ->
  wp (fun _ => a <- up (Lit x p) ;; b <- up (Lit y q) ;; up (k [a; b])) s V (fun g s' _ => reads s' g (T [TLit (x, p); TLit (y, q)])).
Proof.
  intros I Rx Ry Hk. eapply wp_bind; [apply wp_lit; auto|]. cbv beta. intros a s1 V1 I1 X1 D1. eapply wp_bind; [apply wp_lit; auto|]. cbv beta. intros b s2 V2 I2 X2 D2.
  apply Hk; auto. constructor; [apply Den_reads; eapply wext_Den; eauto|]. constructor; [apply Den_reads; auto|constructor].
Qed.
Lemma place_ok n s V : winv s V -> wp (fun _ => placeInSomeHole n) s V (fun g s' _ => reads s' g (placeT n)).
Proof.
  intros I. unfold placeInSomeHole. destruct (n =? 1) eqn:E1.
  - apply Nat.eqb_eq in E1. subst n. eapply wp_conseq; [eapply wp_ext; [|apply (two_lits "v1" "v2" true true s V And TAnd); auto; intros; apply wp_And; auto]|].
    + intros n. unfold bind, up, Lit. destruct (Var "v1" s) as [a s1]. destruct (Var "v2" s1). reflexivity.
    + cbv beta. intros g s' V' _ _. apply reads_equiv. intros b. cbn. rewrite !orb_false_r. reflexivity.
  - eapply wp_bind.
    + apply (wp_all _ (fun i => TOr (map (fun j => TLit (holeVar n i j, true)) (seq 1 n)))); auto. intros i s1 V1 _ I1. eapply wp_bind.
      * apply (wp_all _ (fun j => TLit (holeVar n i j, true))); auto. intros j s2 V2 _ I2. eapply wp_conseq; [apply wp_var; auto|]. cbv beta. intros; apply Den_reads; auto.
      * cbv beta. intros vs s2 V2 I2 _ F. apply wp_Or; auto.
    + cbv beta. intros ors s1 V1 I1 _ F. apply wp_And; auto.
Qed.
Lemma only_ok n s V : winv s V -> wp (fun _ => onlyOnePigeonInHole n) s V (fun g s' _ => reads s' g (onlyT n)).
Proof.
  intros I. unfold onlyOnePigeonInHole. destruct (n =? 1) eqn:E1.
  - apply Nat.eqb_eq in E1. subst n. eapply wp_conseq; [apply (two_lits "v1" "v2" false false s V Or TOr); auto; intros; apply wp_Or; auto|].
    cbv beta. intros g s' V' _ _. apply reads_equiv. intros b. cbn. rewrite !orb_false_r, andb_true_r. reflexivity.
  - eapply wp_bind.
    + apply (wp_all _ (fun c => TOr [TLit (holeVar n (fst (snd c)) (fst c), false); TLit (holeVar n (snd (snd c)) (fst c), false)])); auto. intros c s1 V1 _ I1.
      apply (two_lits _ _ false false s1 V1 Or TOr); auto. intros; apply wp_Or; auto.
    + cbv beta. intros ors s1 V1 I1 _ F. apply wp_And; auto.
Qed.
Lemma pigeon_var n i j : holeVar n i j = pigeonVar n i j.
Proof. unfold holeVar, pigeonVar. do 4 f_equal. lia. Qed.
Lemma conflicts_in n j i k : In (j, (i, k)) (conflicts n) <-> 1 <= j <= n /\ 1 <= i <= n /\ i < k <= n + 1.
Proof.
  unfold conflicts. rewrite in_flat_map. split.
  - intros (j' & J1 & J). apply in_flat_map in J as (i' & J2 & J). apply in_map_iff in J as (k' & E & J3). inversion E; subst. apply in_seq in J1, J2, J3. lia.
  - intros (A & B & C). exists j. split; [apply in_seq; lia|]. apply in_flat_map. exists i. split; [apply in_seq; lia|]. apply in_map_iff. exists k. split; auto. apply in_seq. lia.
Qed.
Lemma trees_placed n b : eval b (TAnd [placeT n; onlyT n]) = true <-> placed n (fun i j => b (pigeonVar n i j)).
Proof.
  cbn [eval forallb]. rewrite andb_true_r, andb_true_iff. unfold placeT, onlyT, placed. cbn [eval]. rewrite !forallb_forall. split.
  - intros [A B]. split.
    + intros i Hi. specialize (A _ (in_map _ _ i (proj2 (in_seq _ _ _) (ltac:(lia) : 1 <= i < 1 + (n + 1))))). cbn [eval] in A. apply existsb_exists in A as (t & J & Et). apply in_map_iff in J as (j & <- & J). apply in_seq in J. exists j. split; [lia|]. rewrite <- pigeon_var. exact Et.
    + assert (G : forall i k j, 1 <= i -> k <= n + 1 -> 1 <= j <= n -> i < k -> b (pigeonVar n i j) = true -> b (pigeonVar n k j) = true -> False).
      { intros i k j L1 L2 Hj L Q1 Q2. specialize (B _ (in_map _ _ (j, (i, k)) (proj2 (conflicts_in n j i k) ltac:(lia)))). cbn -[holeVar pigeonVar] in B. rewrite !pigeon_var, Q1, Q2 in B. discriminate. }
      intros i k j Hi Hk Hj Q1 Q2. destruct (lt_eq_lt_dec i k) as [[L|L]|L]; auto; exfalso; [apply (G i k j)|apply (G k i j)]; auto; lia.
  - intros [A B]. split; intros t J; apply in_map_iff in J.
    + destruct J as (i & <- & J). apply in_seq in J. destruct (A i ltac:(lia)) as (j & Hj & Q). cbn [eval]. apply existsb_exists. exists (TLit (holeVar n i j, true)). split; [apply in_map_iff; exists j; split; auto; apply in_seq; lia|]. rewrite pigeon_var. exact Q.
    + destruct J as ([j [i k]] & <- & J). apply conflicts_in in J. cbn -[holeVar pigeonVar]. rewrite !pigeon_var, orb_false_r. destruct (b (pigeonVar n i j)) eqn:Q1, (b (pigeonVar n k j)) eqn:Q2; auto. specialize (B i k j ltac:(lia) ltac:(lia) ltac:(lia) Q1 Q2). lia.
Qed.

(** C64: in every history, the generator returns a formula whose models are the placements of n + 1 pigeons in n holes, so it has none; the formulas of
    the factory stay as they are. *)
Theorem C64_pigeonhole : forall cv s H X n, library cv s H X -> exists g s' u, returns (fun _ => generatePigeonHole n) s g s' /\ keeps s s' /\ Reads s' g u /\
  (forall b, eval b u = true <-> placed n (fun i j => b (pigeonVar n i j))) /\ (forall b, eval b u = false).
Proof.
  intros cv s H X n L. destruct (library_inv _ _ _ _ L) as [V [I K _]].
  assert (W : wp (fun _ => generatePigeonHole n) s V (fun g s' _ => reads s' g (TAnd [placeT n; onlyT n]))).
  { unfold generatePigeonHole. eapply wp_bind; [apply place_ok; auto|]. cbv beta. intros a s1 V1 I1 _ R1. eapply wp_bind; [apply only_ok; auto|]. cbv beta. intros c s2 V2 I2 X2 R2.
    apply wp_And; auto. constructor; [eapply reads_ext; eauto|]. constructor; auto. }
  destruct W as (n0 & g & s' & V' & E & I' & X' & u & D & Q). exists g, s', u. split; [exists n0; exact E|]. split.
  { intros h v Hh. apply Reads_Den; [apply I'|]. apply Reads_Den in Hh; [|apply I]. eapply wext_Den; eauto. }
  split; [apply Reads_Den; auto; apply I'|]. assert (P : forall b, eval b u = true <-> placed n (fun i j => b (pigeonVar n i j))) by (intros b; rewrite (Q b); apply trees_placed).
  split; auto. intros b. destruct (eval b u) eqn:Eb; auto. exfalso. apply P in Eb. exact (pigeonhole _ _ Eb).
Qed.
(** Different pairs of a pigeon and a hole have different variables. *)
Theorem C64_variables : forall n i j k l, 1 <= i -> 1 <= j <= n -> 1 <= k -> 1 <= l <= n -> pigeonVar n i j = pigeonVar n k l -> i = k /\ j = l.
Proof.
  intros n i j k l Li Lj Lk Ll E. unfold pigeonVar in E. assert (E2 : forall x y, String.append "v" x = String.append "v" y -> x = y) by (intros x y Q; injection Q; auto). apply E2, digits_inj in E. apply Nat2N.inj in E.
  assert (i - 1 = k - 1) by nia. split; [lia|]. rewrite H in E. lia.
Qed.

(** ** Example *)
Definition hP : list (list formula -> FactoryApi.call) := [ (fun _ => CVar "v2"); (fun _ => CVar "b"); (fun h => COr h) ]%string.
Example pigeon_example : library false (fst (lworld hP)) (snd (lworld hP)) [] /\
  match generatePigeonHole 2 (fst (lworld hP)) with
  | Some (g, s') => readf 9 s' g = Some (TAnd (map (fun c => TOr (map TLit c)) [[("v1", true); ("v2", true)]; [("v3", true); ("v4", true)]; [("v5", true); ("v6", true)];
      [("v1", false); ("v3", false)]; [("v1", false); ("v5", false)]; [("v3", false); ("v5", false)]; [("v2", false); ("v4", false)]; [("v2", false); ("v6", false)]; [("v4", false); ("v6", false)]]%string))
  | None => False
  end.
Proof. split; [apply lworld_library; vm_compute; discriminate|]. vm_compute. reflexivity. Qed.

Print Assumptions C64_pigeonhole.
Print Assumptions C64_variables.
