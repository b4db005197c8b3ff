(** * C28: unit propagation *)
From Coq Require Import String Ascii List Bool Arith ZArith NArith Lia.
From Verif Require Import Spec Factory FactoryProofs FactoryProofs2 FactoryProofs3 FactoryApi FactoryProps Assign EncSpec EncApi EncPbc NormalForm NfBase NfEnc NfNnf NfCnf NfTseitin NfPg NfAig NfApi AssignProps NfProps SatApi UnitPropSpec UnitProp UnitPropProofs.
Import ListNotations.
Local Close Scope N_scope.
Local Open Scope list_scope.

(** [m] started with enough fuel ends with [r]: a result, a panic, or too little recursion depth for the core solver. *)
Definition ends {A} (m : nat -> SM A) (s : state) (w : solver) (r : sres A) : Prop := exists n0, forall n, n0 <= n -> m n s w = r.

(** PropagateUnits never panics.  Its result has the models of the formula up to variables with
    reserved names; if it has no such variable, it is equivalent to the formula.  No unit is left that could be propagated.  The formulas of
    the factory keep their meaning.  The result is stored in the cache. *)
Theorem C28_propagateUnits : forall cv s H X cf nf k f t w, library cv s H X -> Reads s f t -> encodable cf t -> plain t -> lookupTrans TransUnitProp f s = None ->
  exists r, ends (fun n => propagateUnits cf nf k n f) s w r /\
  match r with
  | SRet g s' _ => keeps s s' /\ lookupTrans TransUnitProp f s' = Some g /\
                   exists u, Reads s' g u /\ unitFree u /\ projects t u /\ (forall b, eval b u = true -> eval b t = true) /\ (plain u -> equiv t u)
  | SPanic => False
  | SStuck => True
  end.
Proof.
  intros cv s H X cf nf k f t w Hl Hr He Hp Hn. destruct (library_inv _ _ _ _ Hl) as [V [I K _]]. pose proof (v_wf _ _ I) as Hw. pose proof Hr as Hd. apply Reads_Den in Hd; auto.
  destruct (propagateUnits_ok cf nf k f t s V w I Hd He Hn) as (n0 & r & E & P). exists r. split; [exists n0; exact E|]. destruct r as [g s' w'| |]; try exact P.
  destruct P as (V' & u & I' & X' & D & Uf & A & B & Lk). split; [|split; auto].
  { intros h v Hh. apply Reads_Den; [apply I'|]. apply Reads_Den in Hh; auto. eapply wext_Den; eauto. }
  assert (Pr : projects t u).
  { intros b. split.
    - intros Hb. destruct (v_total _ _ I' b) as (b' & HV & Hb'). exists b'. split; [intros x Hx; apply Hb', nonreserved_aux; auto|]. apply B; auto. rewrite (eval_agree t b' b); auto. intros x Hx. apply Hb', nonreserved_aux; auto.
    - intros (b' & Hb' & Hu). rewrite (eval_agree t b b'); auto. intros x Hx. symmetry. apply Hb'; auto. }
  exists u. split; [eapply winv_Reads; eauto|]. split; auto. split; auto. split; auto. intros Pu b. destruct (eval b u) eqn:Eu; [apply A; auto|].
  destruct (eval b t) eqn:Et; auto. destruct (proj1 (Pr b) Et) as (b' & Hb' & Hu). rewrite (eval_agree u b' b) in Hu; [congruence|]. intros x Hx. apply Hb'; auto.
Qed.
(** A stored result is returned again and nothing changes. *)
Theorem C28_propagateUnits_cached : forall cf nf k f g s w, lookupTrans TransUnitProp f s = Some g -> ends (fun n => propagateUnits cf nf k n f) s w (SRet g s w).
Proof. intros cf nf k f g s w E. exists 0. intros n _. unfold propagateUnits, sbind, liftF, get, sret. rewrite E. reflexivity. Qed.

(** ** Examples *)
Definition cl (x : string) (p : bool) : tree := TLit (x, p).
Definition upRes (nf : cnfConfig) (f : formula) (s : state) : option tree :=
  match propagateUnits exCf nf 50 20 f s newSolver with SRet g s' _ => readf 30 s' g | _ => None end.
(** a & (~a | b) & (~b | c | d) *)
Definition hUp : list (list formula -> FactoryApi.call) :=
  [ (fun _ => CVar "a"); (fun _ => CVar "b"); (fun _ => CVar "c"); (fun _ => CVar "d"); (fun _ => CLit "a" false); (fun _ => CLit "b" false);
    (fun h => COr [nthf 1 h; nthf 4 h]); (fun h => COr [nthf 1 h; nthf 4 h; nthf 3 h]); (fun h => CAnd [nthf 7 h; nthf 1 h; nthf 0 h]) ]%string.
Definition sUp : state := fst (lworld hUp).
Definition fUp : formula := nthf 0 (snd (lworld hUp)).
Definition tUp : tree := TAnd [cl "a" true; TOr [cl "a" false; cl "b" true]; TOr [cl "b" false; cl "c" true; cl "d" true]].
Lemma upRes_ok nf f s u : upRes nf f s = Some u -> exists g s' w', propagateUnits exCf nf 50 20 f s newSolver = SRet g s' w' /\ Reads s' g u.
Proof. unfold upRes. destruct (propagateUnits exCf nf 50 20 f s newSolver) as [g s' w'| |]; try discriminate. intros E. exists g, s', w'. split; auto. apply (readf_ok 30); auto. Qed.
Example propagateUnits_example :
  library false sUp (snd (lworld hUp)) [] /\ Reads sUp fUp tUp /\ encodable exCf tUp /\ plain tUp /\ lookupTrans TransUnitProp fUp sUp = None /\
  upRes (exNf CNFAdvanced CNFPlaistedGreenbaum) fUp sUp = Some (TAnd [TOr [cl "c" true; cl "d" true]; cl "a" true; cl "b" true]).
Proof.
  split; [apply lworld_library; vm_compute; discriminate|]. split; [apply (readf_ok 9); vm_compute; reflexivity|].
  split; [vm_compute; tauto|]. split; [|split; vm_compute; reflexivity].
  intros x Hx; cbn in Hx; repeat match goal with K : _ \/ _ |- _ => destruct K | K : False |- _ => destruct K end; subst; reflexivity.
Qed.
(** a | (b & c) with the Tseitin transformation as CNF: the result has a variable for b & c, so it is not equivalent to the formula. *)
Definition hTs : list (list formula -> FactoryApi.call) :=
  [ (fun _ => CVar "a"); (fun _ => CVar "b"); (fun _ => CVar "c"); (fun h => CAnd [nthf 1 h; nthf 0 h]); (fun h => COr [nthf 3 h; nthf 0 h]) ]%string.
Definition tTs : tree := TOr [cl "a" true; TAnd [cl "b" true; cl "c" true]].
Definition tsNf : cnfConfig := CnfCfg CNFTseitin CNFTseitin (-1) 1000 0.
Theorem C28_propagateUnits_equivalence_refuted : exists s H nf k n f t g s' w' u, library false s H [] /\ In f H /\ Reads s f t /\ pbfree t = true /\ plain t /\
  propagateUnits exCf nf k n f s newSolver = SRet g s' w' /\ Reads s' g u /\ ~ equiv t u.
Proof.
  destruct (upRes tsNf (nthf 0 (snd (lworld hTs))) (fst (lworld hTs))) as [u|] eqn:E; [|vm_compute in E; discriminate].
  destruct (upRes_ok _ _ _ _ E) as (g & s' & w' & E1 & R).
  exists (fst (lworld hTs)), (snd (lworld hTs)), tsNf, 50, 20, (nthf 0 (snd (lworld hTs))), tTs, g, s', w', u.
  split; [apply lworld_library; vm_compute; discriminate|]. split; [vm_compute; tauto|]. split; [apply (readf_ok 9); vm_compute; reflexivity|]. split; [reflexivity|].
  split; [intros x Hx; cbn in Hx; repeat match goal with K : _ \/ _ |- _ => destruct K | K : False |- _ => destruct K end; subst; reflexivity|]. split; [exact E1|]. split; [exact R|].
  intros Q. specialize (Q (fun x => negb (String.eqb x "@RESERVED_CNF_0"))). vm_compute in E. injection E as <-. revert Q. vm_compute. discriminate.
Qed.

Print Assumptions C28_propagateUnits.
Print Assumptions C28_propagateUnits_cached.
Print Assumptions C28_propagateUnits_equivalence_refuted.
