(** * C67: the anonymizer *)
From Coq Require Import String Ascii List Bool Arith ZArith NArith DecimalString Lia.
From Verif Require Import Spec Factory FactoryProofs FactoryProofs2 FactoryProofs3 FactoryApi FactoryProps Assign EncSpec EncApi EncPbc NormalForm NfBase NfAssign NfSubst AssignProps NfEnc NfNnf NfCnf NfTseitin NfFun Simplify SimpBase NfApi NfProps Pigeon PigeonProps Anonymize.
Import ListNotations.
Local Close Scope N_scope.
Local Open Scope list_scope.

(** ** Specification *)
(** the generated variables: the prefix followed by a number *)
Definition numbered (prefix : string) (i : nat) : string := String.append prefix (NilEmpty.string_of_uint (N.to_uint (N.of_nat i))).
(** The map of the anonymizer sends the variables of [r] to the generated variables with the given numbers.  No variable is listed twice and no number is used twice. *)
Definition anonymizer_of (s : state) (a : anonymizer) (r : list (string * nat)) : Prop :=
  Forall2 (fun e p => LiteralNamePhase (fst e) s = Some (fst p, true) /\ LiteralNamePhase (snd e) s = Some (numbered (an_prefix a) (snd p), true)) (an_subst a) r /\
  NoDup (map fst r) /\ NoDup (map snd r) /\ (forall i, In i (map snd r) -> i < an_counter a).

(** ** Proof *)
Definition good (s : state) (a : anonymizer) (r : list (string * nat)) : Prop :=
  Forall2 (fun e p => litDen s (fst e) (fst p, true) /\ litDen s (snd e) (numbered (an_prefix a) (snd p), true)) (an_subst a) r /\
  NoDup (map fst r) /\ NoDup (map snd r) /\ (forall i, In i (map snd r) -> i < an_counter a).
Lemma good_is s a r : wf s -> good s a r <-> anonymizer_of s a r.
Proof.
  intros W. unfold good, anonymizer_of. split; intros (F & R); (split; [|exact R]); eapply Forall2_impl; try exact F; cbv beta; intros e p [A B]; (split; apply LiteralNamePhase_node; auto).
Qed.
Lemma good_ext s V s' V' a r : wext s V s' V' -> good s a r -> good s' a r.
Proof. intros X (F & R). split; auto. eapply Forall2_impl; [|exact F]. cbv beta. intros e p [A B]. split; eapply litDen_ext1; eauto; apply X. Qed.
Definition sgOf (pfx : string) (r : list (string * nat)) (x : string) : option tree := option_map (fun p => TLit (numbered pfx (snd p), true)) (find (fun p => String.eqb (fst p) x) r).
Lemma find_in (r : list (string * nat)) x i : NoDup (map fst r) -> In (x, i) r -> find (fun p => String.eqb (fst p) x) r = Some (x, i).
Proof.
  induction r as [|[y j] r IH]; intros N J; [destruct J|]. inversion N; subst. cbn. destruct (String.eqb_spec y x) as [->|Hn].
  - destruct J as [E|J]; [inversion E; auto|]. elim H1. apply in_map_iff. exists (x, i). auto.
  - destruct J as [E|J]; [inversion E; congruence|auto].
Qed.
Lemma mapped_ok s a r : wf s -> good s a r -> substIs s (mapped (an_subst a)) (sgOf (an_prefix a) r).
Proof.
  intros W (F & _) v x D. unfold mapped, sgOf. induction F as [|[v1 w] [y i] l r [A B] F IH]; [reflexivity|]. cbn [find fst snd] in *.
  assert (E : feqb v1 v = String.eqb y x).
  { destruct (feqb_spec v1 v) as [->|Hn], (String.eqb_spec y x) as [->|Hm]; auto.
    - exfalso. apply Hm. pose proof W as [Ww _]. pose proof (proj2 (LiteralNamePhase_node s v _ W) A) as E1. pose proof (proj2 (LiteralNamePhase_node s v _ W) D) as E2. congruence.
    - exfalso. apply Hn. pose proof W as [Ww _]. exact (w_uniq s Ww _ _ _ A D). }
  rewrite E. destruct (String.eqb y x); [|exact IH]. cbn. eexists. split; [reflexivity|]. apply litDen_Den. exact B.
Qed.
Lemma sg_plain pfx r x : NfSubst.plain (sgOf pfx r x) = true.
Proof. unfold sgOf. destruct (find _ r); reflexivity. Qed.
Lemma sg_substitutable pfx r t : substitutable (sgOf pfx r) t = true.
Proof.
  induction t using tree_ind'; cbn; auto.
  - apply forallb_forall. apply Forall_forall. auto.
  - apply forallb_forall. apply Forall_forall. auto.
  - rewrite IHt1, IHt2. auto.
  - rewrite IHt1, IHt2. auto.
  - apply forallb_forall. intros l _. apply sg_plain.
Qed.
Lemma addVars_ok : forall vs xs a r s V, winv s V -> (forall i, reserved (numbered (an_prefix a) i) = false) -> good s a r -> Forall2 (litDen s) vs (map (fun x => (x, true)) xs) ->
  wp (fun _ => addVars a vs) s V (fun a' s' _ => an_prefix a' = an_prefix a /\ exists r', good s' a' r' /\ incl r r' /\ forall x, In x xs -> exists i, In (x, i) r').
Proof.
  induction vs as [|v vs IH]; intros xs a r s V I R G F; destruct xs as [|x xs]; inversion F as [|? ? ? ? D F']; subst; cbn [addVars].
  - apply wp_ret; auto. split; auto. exists r. split; auto. split; [apply incl_refl|]. intros x [].
  - pose proof (mapped_ok s a r (v_wf _ _ I) G v x D) as Hm. destruct (mapped (an_subst a) v) as [w|].
    + destruct Hm as (t & Hm & _). unfold sgOf in Hm. destruct (find _ r) as [[y i]|] eqn:Ef; [|discriminate]. apply find_some in Ef as [J E]. cbn in E. apply String.eqb_eq in E. subst y.
      eapply wp_conseq; [apply (IH xs a r s V); auto|]. cbv beta. intros a' s' V' _ _ (Ep & r' & G' & Hi & Hx). split; auto. exists r'. split; auto. split; auto. intros y [<-|Jy]; [exists i; auto|auto].
    + assert (Nx : ~ In x (map fst r)).
      { intros J. apply in_map_iff in J as ([y i] & E & J). cbn in E. subst y. unfold sgOf in Hm. rewrite (find_in r x i) in Hm; [discriminate|apply G|auto]. }
      eapply (wp_bind (fun _ => up (Var (anonName (an_prefix a) (an_counter a))))); [apply wp_var; auto; apply R|]. cbv beta. intros w s1 V1 I1 X1 Dw. apply Den_litt_inv in Dw.
      assert (G1 : good s1 (Anon (an_prefix a) (an_counter a + 1) ((v, w) :: an_subst a)) ((x, an_counter a) :: r)).
      { pose proof (good_ext _ _ _ _ _ _ X1 G) as (GF & N1 & N2 & Lt). split; [|split; [|split]]; cbn [an_subst an_prefix an_counter map fst snd].
        - constructor; [|exact GF]. cbn [fst snd]. split; [eapply litDen_ext1; [apply X1|exact D]|exact Dw].
        - constructor; auto.
        - constructor; auto. intros J. apply Lt in J. lia.
        - intros i [<-|J]; [lia|]. apply Lt in J. lia. }
      eapply wp_conseq; [apply (IH xs (Anon (an_prefix a) (an_counter a + 1) ((v, w) :: an_subst a)) _ s1 V1 I1 R G1); eapply litDen_ext; [apply X1|exact F']|].
      cbv beta. cbn [an_prefix]. intros a' s' V' _ _ (Ep & r' & G' & Hi & Hx). split; auto. exists r'. split; auto. split; [intros q J; apply Hi; right; auto|]. intros y [<-|Jy]; [exists (an_counter a); apply Hi; left; auto|auto].
Qed.

(** C67: from every state of the anonymizer, Anonymize returns the formula with each variable renamed to the generated variable that the map holds after the
    call.  Entries of the map are never changed, and different variables have different numbers. *)
Theorem C67_anonymize : forall cv s H X a r f t, library cv s H X -> anonymizer_of s a r -> (forall i, reserved (numbered (an_prefix a) i) = false) -> Reads s f t ->
  exists g a' s' u r', returns (fun n => anonymize n a f) s (g, a') s' /\ keeps s s' /\
    anonymizer_of s' a' r' /\ an_prefix a' = an_prefix a /\ incl r r' /\ (forall x, occurs x t -> exists i, In (x, i) r') /\
    Reads s' g u /\ forall b b', (forall x i, In (x, i) r' -> b' x = b (numbered (an_prefix a) i)) -> eval b u = eval b' t.
Proof.
  intros cv s H X a r f t L Ga R Hr.
  destruct (library_wp (fun n => anonymize n a f) cv s H X f t (fun q s' _ => exists r', good s' (snd q) r' /\ an_prefix (snd q) = an_prefix a /\ incl r r' /\ (forall x, occurs x t -> exists i, In (x, i) r') /\
    exists u, Den s' (fst q) u /\ forall b b', (forall x i, In (x, i) r' -> b' x = b (numbered (an_prefix a) i)) -> eval b u = eval b' t) L Hr) as ([g a'] & s' & V' & Rt & Kp & I' & r' & G' & Ep & Hi & Ho & u & D & E).
  - intros V [I _ _] D. apply good_is in Ga; [|apply I]. unfold anonymize. eapply wp_bind; [apply (atomSet_ok false t s V f I D)|]. intros vs s1 V1 I1 X1 (xs & HF & _ & Hx). pose proof (good_ext _ _ _ _ _ _ X1 Ga) as G1. assert (D1 : Den s1 f t) by (eapply wext_Den; eauto). assert (HF' : Forall2 (litDen s1) vs (map (fun x => (x, true)) xs)) by (clear -HF; induction HF; constructor; auto).
    destruct vs as [|v vs].
    + assert (No : forall x, ~ occurs x t) by (intros x O; apply Hx in O; inversion HF; subst; destruct O). apply wp_ret; auto. exists r. cbn [fst snd]. split; auto. split; auto. split; [apply incl_refl|]. split; [intros x O; elim (No x O)|].
      exists t. split; auto. intros b b' _. apply eval_agree. intros x O. elim (No x O).
    + remember (v :: vs) as l eqn:El. eapply (wp_bind (fun _ => addVars a l)); [apply (addVars_ok l xs a r s1 V1); auto|]. cbv beta. intros a' s2 V2 I2 X2 (Ep & r' & G2 & Hi & Hxs).
      assert (D2 : Den s2 f t) by (eapply wext_Den; eauto).
      eapply wp_bind; [apply (rp_wp _ _ _ _ I2 (substitute_ok (mapped (an_subst a')) (sgOf (an_prefix a') r') t s2 f (v_wf _ _ I2) (mapped_ok _ _ _ (v_wf _ _ I2) G2) D2))|].
      cbv beta. intros q s3 V3 I3 X3 [_ P]. unfold substPost in P. rewrite sg_substitutable in P. destruct P as (g & u & -> & Dg & Eu). apply wp_ret; auto. exists r'. cbn [fst snd]. split; [eapply good_ext; eauto|]. split; auto. split; auto.
      split; [intros x O; apply Hxs, Hx; auto|]. exists u. split; auto. intros b b' Hb. rewrite Eu. apply eval_agree. intros x O. apply Hx in O. destruct (Hxs x O) as (i & J). unfold through, sgOf. rewrite (find_in r' x i); [|apply G2|auto]. cbn. unfold eval_lit. cbn. rewrite Ep. symmetry. apply Hb. auto.
  - cbn [fst snd] in *. exists g, a', s', u, r'. split; auto. split; auto. split; [apply good_is; auto; apply I'|]. split; auto. split; auto. split; auto. split; auto. eapply winv_Reads; eauto.
Qed.
(** A new anonymizer has an empty map; different numbers are different variables. *)
Theorem C67_new : forall s p, anonymizer_of s (newAnonymizer p) [].
Proof. intros s p. split; [constructor|]. split; [constructor|]. split; [constructor|]. intros i []. Qed.
Theorem C67_numbered : forall p i j, numbered p i = numbered p j -> i = j.
Proof.
  intros p i j E. unfold numbered in E. assert (C : forall p x y, String.append p x = String.append p y -> x = y) by (clear; induction p; cbn; intros x y E; auto; injection E; auto).
  apply C, digits_inj in E. apply Nat2N.inj in E. auto.
Qed.

(** ** Example: the formula already contains a variable named like a generated one *)
Definition hA : list (list formula -> FactoryApi.call) := [ (fun _ => CVar "a"); (fun _ => CLit "v0" false); (fun h => COr (firstn 2 h)) ]%string.
Example anonymize_example : library false (fst (lworld hA)) (snd (lworld hA)) [] /\ (forall i, reserved (numbered "v" i) = false) /\
  Reads (fst (lworld hA)) (hd ffalse (snd (lworld hA))) (TOr [TLit ("v0", false); TLit ("a", true)])%string /\
  match anonymize 9 (newAnonymizer "v") (hd ffalse (snd (lworld hA))) (fst (lworld hA)) with
  | Some (g, a', s') => readf 9 s' g = Some (TOr [TLit ("v0", false); TLit ("v1", true)])%string /\ an_counter a' = 2
  | None => False
  end.
Proof. split; [apply lworld_library; vm_compute; discriminate|]. split; [reflexivity|]. split; [apply (readf_ok 5); vm_compute; reflexivity|]. vm_compute. auto. Qed.

(** The documentation says that the variables are replaced by newly generated ones.  A generated name is not checked against the existing variables: the
    anonymized form of the formula v0 is the formula v0 itself. *)
Theorem C67_fresh_refuted : exists s H f a' s', library false s H [] /\ In f H /\ Reads s f (TLit ("v0", true)%string) /\ returns (fun n => anonymize n (newAnonymizer "v") f) s (f, a') s'.
Proof.
  pose (h := [ (fun _ => CVar "v0") ]%string : list (list formula -> FactoryApi.call)).
  assert (L : library false (fst (lworld h)) (snd (lworld h)) []) by (apply lworld_library; vm_compute; discriminate).
  assert (Rd : Reads (fst (lworld h)) (hd ffalse (snd (lworld h))) (TLit ("v0", true)%string)) by (apply (readf_ok 5); vm_compute; reflexivity).
  destruct (C67_anonymize _ _ _ _ (newAnonymizer "v") [] _ _ L (C67_new _ _) (fun i => eq_refl) Rd) as (g & a' & s' & _ & _ & Rt & _).
  exists (fst (lworld h)), (snd (lworld h)), (hd ffalse (snd (lworld h))), a', s'. split; [exact L|]. split; [vm_compute; auto|]. split; [exact Rd|].
  assert (E : g = hd ffalse (snd (lworld h))); [|clearbody h; subst g; exact Rt].
  destruct Rt as [n0 Rt]. specialize (Rt (S (S (S n0))) ltac:(lia)). vm_compute in Rt. injection Rt. intros. subst. reflexivity.
Qed.

Print Assumptions C67_anonymize.
Print Assumptions C67_fresh_refuted.
Print Assumptions C67_new.
Print Assumptions C67_numbered.
