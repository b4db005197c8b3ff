(** * Property C36: the model count of deterministic decomposable formulas *)
From Coq Require Import String Ascii List Bool ZArith NArith Lia.
From Verif Require Import Spec DnnfSpec Factory FactoryProofs FactoryProofs2 FactoryProofs3 FactoryApi FactoryProps Assign EncSpec EncAmo EncApi EncPbc EncProps NormalForm NfBase AssignProps NfFun NfApi NfProps DnnfCount Dnnf DnnfFun.
Import ListNotations.
Local Open Scope Z_scope.

(** After every history of the library: for a deterministic decomposable formula and distinct
    variables among which are all its variables, the model count is the number of satisfying
    assignments over these variables. *)
Theorem C36_model_count : forall cv s H X f t orig xs, library cv s H X -> Reads s f t -> ddnnf t ->
  Forall2 (fun v x => Reads s v (TLit (x, true))) orig xs -> NoDup xs -> (forall x, occurs x t -> In x xs) ->
  exists s', returns (fun n => modelCount n f orig) s (models xs t) s' /\ keeps s s'.
Proof.
  intros cv s H X f t orig xs Hl Hr HD HO HN Hx.
  destruct (library_wp (fun n => modelCount n f orig) cv s H X f t (fun z _ _ => z = models xs t) Hl Hr) as (z & s' & V' & R & Kp & I' & ->); [|eauto].
  intros V [I _ _] D. eapply wp_conseq; [apply (modelCount_ok t orig xs); auto using ddnnf_nnf|].
  - clear -HO I. induction HO as [|v x l xs Hv HO IH]; constructor; auto. apply Reads_Den in Hv; [|apply I]. inversion Hv; subst; auto.
  - simpl. intros; subst. apply mcount_models; auto.
Qed.

(** The same for every formula in negation normal form without other operators, deterministic
    and decomposable or not: what is computed is the structural count. *)
Theorem C36_structural_count : forall cv s H X f t orig xs, library cv s H X -> Reads s f t -> is_nnf t = true ->
  Forall2 (fun v x => Reads s v (TLit (x, true))) orig xs ->
  exists s', returns (fun n => modelCount n f orig) s (mcount t xs) s' /\ keeps s s'.
Proof.
  intros cv s H X f t orig xs Hl Hr HD HO.
  destruct (library_wp (fun n => modelCount n f orig) cv s H X f t (fun z _ _ => z = mcount t xs) Hl Hr) as (z & s' & V' & R & Kp & I' & ->); [|eauto].
  intros V [I _ _] D. apply (modelCount_ok t orig xs); auto.
  clear -HO I. induction HO as [|v x l xs Hv HO IH]; constructor; auto. apply Reads_Den in Hv; [|apply I]. inversion Hv; subst; auto.
Qed.

(** ** Examples *)
(** (a & b) | (~a & c), counted over a, b, c and d *)
Definition hDd : list (list formula -> call) :=
  [fun _ => CVar "a"; fun _ => CVar "b"; fun _ => CVar "c"; fun _ => CVar "d"; fun _ => CLit "a" false;
   fun H => CAnd [nthf 4 H; nthf 3 H]; fun H => CAnd [nthf 1 H; nthf 3 H]; fun H => COr [nthf 1 H; nthf 0 H]]%string.
Definition tDd : tree := TOr [TAnd [TLit ("a", true); TLit ("b", true)]; TAnd [TLit ("a", false); TLit ("c", true)]]%string.
Lemma tDd_ddnnf : ddnnf tDd.
Proof.
  repeat constructor; cbn; intros x; cbn; unfold occurs; cbn; try (intros; intuition congruence).
  destruct (x "a"%string), (x "b"%string); cbn; congruence.
Qed.
Example C36_example : let w := lworld hDd in
  library false (fst w) (snd w) [] /\ In (nthf 0 (snd w)) (snd w) /\ Reads (fst w) (nthf 0 (snd w)) tDd /\ ddnnf tDd /\
  Forall2 (fun v x => Reads (fst w) v (TLit (x, true))) [nthf 7 (snd w); nthf 6 (snd w); nthf 5 (snd w); nthf 4 (snd w)] ["a"; "b"; "c"; "d"]%string /\
  models ["a"; "b"; "c"; "d"]%string tDd = 8.
Proof.
  cbv zeta. split; [apply lworld_library; vm_compute; discriminate|]. split; [apply inb_in; vm_compute; reflexivity|].
  split; [apply (readf_ok 10); vm_compute; reflexivity|]. split; [apply tDd_ddnnf|]. split; [|vm_compute; reflexivity].
  repeat constructor; apply (readf_ok 10); vm_compute; reflexivity.
Qed.
(** On a formula that is not decomposable the count is not the number of models: a & (a | b)
    has two, the structural count is three. *)
Example C36_needs_ddnnf : let t := (TAnd [TLit ("a", true); TOr [TLit ("a", true); TLit ("b", true)]])%string in
  mcount t ["a"; "b"]%string <> models ["a"; "b"]%string t.
Proof. vm_compute. discriminate. Qed.

Print Assumptions C36_model_count.
Print Assumptions C36_structural_count.
