(** * Properties C27, C28: subsumption and simplification

    As in [NfProps.v] every theorem starts from a state reached by any history of calls of the
    modelled library on one factory. *)
From Coq Require Import String Ascii List Bool ZArith NArith Lia.
From Verif Require Import Spec Factory FactoryProofs FactoryProofs2 FactoryProofs3 FactoryApi FactoryProps Assign EncSpec NormalForm NfBase NfAssign NfSubst AssignProps NfEnc NfNnf NfCnf NfFun NfTseitin NfPg NfAig Simplify SimpBase SimpProofs SubsTree SubsProofs NfApi NfProps.
Import ListNotations.
Local Open Scope N_scope.

(** ** Specification *)
(** the clauses of a CNF and the terms of a DNF *)
Definition clauses (t : tree) : list tree := match t with TAnd ts => ts | TTrue => [] | _ => [t] end.
Definition terms (t : tree) : list tree := match t with TOr ts => ts | TFalse => [] | _ => [t] end.
(** every literal of [c] is a literal of [d] *)
Definition subsumes (c d : tree) : Prop := forall l, lit_occurs l c -> lit_occurs l d.
(** no member of the list subsumes another one *)
Definition subsumption_free (l : list tree) : Prop :=
  forall i j c d, nth_error l i = Some c -> nth_error l j = Some d -> subsumes c d -> i = j.

(** ** C27 Subsumption *)
(** The handler's state says in [bad] whether the handler ever cancelled. *)
Definition notices {St} (hd : shandler St) (bad : St -> bool) : Prop :=
  forall e h, bad (snd (hd e h)) = bad h || negb (fst (hd e h)).

Theorem C27_cnf_handler : forall cv s H X f t St (hd : shandler St) bad h,
  library cv s H X -> Reads s f t -> notices hd bad -> bad h = false ->
  exists r h' s', returns (fun n => subsumption hd true n f h) s (r, h') s' /\ keeps s s' /\
    match r with
    | SubError => is_cnf t = false
    | SubCancelled => is_cnf t = true /\ bad h' = true
    | SubOk g => is_cnf t = true /\ bad h' = false /\
      exists u, Reads s' g u /\ is_cnf u = true /\ equiv t u /\ within t u /\ subsumption_free (clauses u) /\
        (forall c, In c (clauses u) -> u = TFalse \/ exists d, In d (clauses t) /\ subsumes c d /\ subsumes d c) /\
        (forall d, In d (clauses t) -> (forall b, eval b d = true) \/ exists c, In c (clauses u) /\ subsumes c d)
    end.
Proof.
  intros cv s H X f t St hd bad h Hl Hr Hn Hb.
  destruct (library_wp (fun n => subsumption hd true n f h) cv s H X f t (subOk hd bad true t h) Hl Hr) as ([r h'] & s' & V' & R & Kp & I' & HP & HB).
  { intros V [I _ _] D. apply subsumption_ok; auto. }
  exists r, h', s'. split; auto. split; auto. specialize (HB Hn Hb). simpl in HP, HB. destruct r as [| |g].
  - tauto.
  - split; auto. apply HB. auto.
  - destruct HP as (Hc & u & Du & [A B C D E F]). split; auto. split; [destruct (bad h'); auto; destruct HB as [_ HB]; discriminate (HB eq_refl)|].
    exists u. split; [eapply winv_Reads; eauto|]. split; [exact A|]. split; [exact B|]. split; [exact C|]. split; [exact E|]. split; [exact D|exact F].
Qed.
Theorem C27_dnf_handler : forall cv s H X f t St (hd : shandler St) bad h,
  library cv s H X -> Reads s f t -> notices hd bad -> bad h = false ->
  exists r h' s', returns (fun n => subsumption hd false n f h) s (r, h') s' /\ keeps s s' /\
    match r with
    | SubError => is_dnf t = false
    | SubCancelled => is_dnf t = true /\ bad h' = true
    | SubOk g => is_dnf t = true /\ bad h' = false /\
      exists u, Reads s' g u /\ is_dnf u = true /\ equiv t u /\ within t u /\ subsumption_free (terms u) /\
        (forall c, In c (terms u) -> u = TTrue \/ exists d, In d (terms t) /\ subsumes c d /\ subsumes d c) /\
        (forall d, In d (terms t) -> (forall b, eval b d = false) \/ exists c, In c (terms u) /\ subsumes c d)
    end.
Proof.
  intros cv s H X f t St hd bad h Hl Hr Hn Hb.
  destruct (library_wp (fun n => subsumption hd false n f h) cv s H X f t (subOk hd bad false t h) Hl Hr) as ([r h'] & s' & V' & R & Kp & I' & HP & HB).
  { intros V [I _ _] D. apply subsumption_ok; auto. }
  exists r, h', s'. split; auto. split; auto. specialize (HB Hn Hb). simpl in HP, HB. destruct r as [| |g].
  - tauto.
  - split; auto. apply HB. auto.
  - destruct HP as (Hc & u & Du & [A B C D E F]). split; auto. split; [destruct (bad h'); auto; destruct HB as [_ HB]; discriminate (HB eq_refl)|].
    exists u. split; [eapply winv_Reads; eauto|]. split; [exact A|]. split; [exact B|]. split; [exact C|]. split; [exact E|]. split; [exact D|exact F].
Qed.
(** without a handler *)
Theorem C27_cnf : forall cv s H X f t, library cv s H X -> Reads s f t -> is_cnf t = true ->
  exists g s' u, returns (fun n => subsumption nopSub true n f tt) s (SubOk g, tt) s' /\ keeps s s' /\ Reads s' g u /\
    is_cnf u = true /\ equiv t u /\ within t u /\ subsumption_free (clauses u) /\
    (forall c, In c (clauses u) -> u = TFalse \/ exists d, In d (clauses t) /\ subsumes c d /\ subsumes d c) /\
    (forall d, In d (clauses t) -> (forall b, eval b d = true) \/ exists c, In c (clauses u) /\ subsumes c d).
Proof.
  intros cv s H X f t Hl Hr Hc.
  destruct (C27_cnf_handler cv s H X f t Datatypes.unit nopSub (fun _ => false) tt Hl Hr) as (r & [] & s' & R & K & HP); [intros e h; reflexivity|reflexivity|].
  destruct r as [| |g]; [congruence|destruct HP; discriminate|]. destruct HP as (_ & _ & u & HP). exists g, s', u. split; auto.
Qed.
Theorem C27_dnf : forall cv s H X f t, library cv s H X -> Reads s f t -> is_dnf t = true ->
  exists g s' u, returns (fun n => subsumption nopSub false n f tt) s (SubOk g, tt) s' /\ keeps s s' /\ Reads s' g u /\
    is_dnf u = true /\ equiv t u /\ within t u /\ subsumption_free (terms u) /\
    (forall c, In c (terms u) -> u = TTrue \/ exists d, In d (terms t) /\ subsumes c d /\ subsumes d c) /\
    (forall d, In d (terms t) -> (forall b, eval b d = false) \/ exists c, In c (terms u) /\ subsumes c d).
Proof.
  intros cv s H X f t Hl Hr Hc.
  destruct (C27_dnf_handler cv s H X f t Datatypes.unit nopSub (fun _ => false) tt Hl Hr) as (r & [] & s' & R & K & HP); [intros e h; reflexivity|reflexivity|].
  destruct r as [| |g]; [congruence|destruct HP; discriminate|]. destruct HP as (_ & _ & u & HP). exists g, s', u. split; auto.
Qed.

(** ** C28 Simplifications *)
(** Distribute: for every formula, with constraints or not *)
Theorem C28_distribute : forall cv s H X f t, library cv s H X -> Reads s f t ->
  exists g s' u, returns (fun n => distributeS n f) s g s' /\ keeps s s' /\ Reads s' g u /\ equiv t u /\ within t u.
Proof.
  intros cv s H X f t Hl Hr.
  destruct (library_wp (fun n => distributeS n f) cv s H X f t (DPost t) Hl Hr) as (g & s' & V' & R & Kp & I' & u & Du & Eu & Nu).
  { intros V [I _ _] D. apply distribute_ok; auto. }
  exists g, s', u. split; auto. split; auto. split; [eapply winv_Reads; eauto|]. auto.
Qed.
(** FactorOut: for every formula and every rating function it ends *)
Theorem C28_factorOut : forall cv s H X f t less, library cv s H X -> Reads s f t ->
  exists g s' u, returns (fun n => factorOut less n f) s g s' /\ keeps s s' /\ Reads s' g u /\ equiv t u /\ within t u.
Proof.
  intros cv s H X f t less Hl Hr.
  destruct (library_wp (fun n => factorOut less n f) cv s H X f t (FOPost t f) Hl Hr) as (g & s' & V' & R & Kp & I' & u & Du & Eu & Nu & _).
  { intros V [I _ _] D. apply factorOut_ok; auto. }
  exists g, s', u. split; auto. split; auto. split; [eapply winv_Reads; eauto|]. split; auto. apply narrow2_narrow; auto.
Qed.
(** MinimizeNegations: equivalent without constraints, never longer; [len] is the length of the printed formula *)
Theorem C28_minimizeNegations : forall cv s H X len cf f t, library cv s H X -> Reads s f t -> pbfree t = true ->
  exists g s' u, returns (fun n => minimizeNegations len n cf f) s g s' /\ keeps s s' /\ Reads s' g u /\ equiv t u /\ within t u /\ len g <= len f.
Proof.
  intros cv s H X len cf f t Hl Hr Hp.
  destruct (library_wp (fun n => minimizeNegations len n cf f) cv s H X f t (MinPost len t f) Hl Hr) as (g & s' & V' & R & Kp & I' & (u & Du & (_ & _ & Ru)) & Hlen).
  { intros V [I _ _] D. apply minimizeNegations_ok; auto. apply pbfree_encodable; auto. }
  destruct (Ru Hp). exists g, s', u. split; auto. split; auto. split; [eapply winv_Reads; eauto|]. auto.
Qed.
(** With constraints it may return an encoding: its models, restricted to the names that are not
    reserved, are those of the formula. *)
Theorem C28_minimizeNegations_constraints : forall cv s H X len cf f t, library cv s H X -> Reads s f t -> encodable cf t -> plain t ->
  exists g s' u, returns (fun n => minimizeNegations len n cf f) s g s' /\ keeps s s' /\ Reads s' g u /\ projects t u /\ len g <= len f.
Proof.
  intros cv s H X len cf f t Hl Hr He Hp.
  destruct (library_wp (fun n => minimizeNegations len n cf f) cv s H X f t (MinPost len t f) Hl Hr) as (g & s' & V' & R & Kp & I' & (u & Du & Ru) & Hlen).
  { intros V [I _ _] D. apply minimizeNegations_ok; auto. }
  exists g, s', u. split; auto. split; auto. split; [eapply winv_Reads; eauto|]. split; auto. eapply repr_projects; eauto.
Qed.

(** ** The hypotheses are met *)
Definition cl (n : string) (p : bool) : tree := TLit (n, p).
(** (a | b) & (a | b | c) & (~c | d) & (d | ~c | a) *)
Definition hSub : list (list formula -> call) :=
  [ (fun _ => CVar "a"); (fun _ => CVar "b"); (fun _ => CVar "c"); (fun _ => CVar "d"); (fun _ => CLit "c" false);
    (fun h => COr [nthf 4 h; nthf 3 h]); (fun h => COr [nthf 5 h; nthf 4 h; nthf 3 h]); (fun h => COr [nthf 2 h; nthf 3 h]);
    (fun h => COr [nthf 4 h; nthf 3 h; nthf 7 h]); (fun h => CAnd [nthf 3 h; nthf 2 h; nthf 1 h; nthf 0 h]) ]%string.
Definition sSub : state := fst (lworld hSub).
Definition fSub : formula := nthf 0 (snd (lworld hSub)).
Definition tSub : tree :=
  TAnd [TOr [cl "a" true; cl "b" true]; TOr [cl "a" true; cl "b" true; cl "c" true]; TOr [cl "c" false; cl "d" true]; TOr [cl "d" true; cl "c" false; cl "a" true]].
Example subsumption_example :
  library false sSub (snd (lworld hSub)) [] /\ Reads sSub fSub tSub /\ is_cnf tSub = true /\ plain tSub /\
  result (fun n => subsumption nopSub true n fSub tt) 20 (fun r => match fst r with SubOk g => g | _ => fzero end) sSub =
    Some (TAnd [TOr [cl "a" true; cl "b" true]; TOr [cl "c" false; cl "d" true]]) /\
  (* the second added clause is the second event after the start *)
  option_map (fun x => fst (fst x)) (subsumption (fun _ h => (Nat.ltb h 2, Nat.succ h)) true 20 fSub 0%nat sSub) = Some SubCancelled.
Proof.
  split; [apply lworld_library; vm_compute; discriminate|]. split; [apply (readf_ok 9); vm_compute; reflexivity|]. split; [reflexivity|].
  split; [intros x Hx; simpl in Hx; repeat (destruct Hx as [Hx|Hx]; try (subst; reflexivity); try contradiction)|].
  split; vm_compute; reflexivity.
Qed.
(** (a & b) | (a & c) | d | ~(e & a), with ratings that compare the numbers of nodes *)
Definition hFac : list (list formula -> call) :=
  [ (fun _ => CVar "a"); (fun _ => CVar "b"); (fun _ => CVar "c"); (fun _ => CVar "d"); (fun _ => CVar "e");
    (fun h => CAnd [nthf 4 h; nthf 3 h]); (fun h => CAnd [nthf 5 h; nthf 3 h]); (fun h => CAnd [nthf 2 h; nthf 6 h]); (fun h => CNot (nthf 0 h));
    (fun h => COr [nthf 3 h; nthf 2 h; nthf 5 h; nthf 0 h]) ]%string.
Definition sFac : state := fst (lworld hFac).
Definition fFac : formula := nthf 0 (snd (lworld hFac)).
Definition tFac : tree :=
  TOr [TAnd [cl "a" true; cl "b" true]; TAnd [cl "a" true; cl "c" true]; cl "d" true; TNot (TAnd [cl "e" true; cl "a" true])].
Example simplify_example :
  library false sFac (snd (lworld hFac)) [] /\ Reads sFac fFac tFac /\ pbfree tFac = true /\
  result (fun n => factorOut (fun _ _ _ => false) n fFac) 20 (fun g => g) sFac =
    Some (TOr [cl "d" true; TNot (TAnd [cl "e" true; cl "a" true]); TAnd [cl "a" true; TOr [cl "b" true; cl "c" true]]]) /\
  result (fun n => distributeS n fFac) 20 (fun g => g) sFac =
    Some (TOr [cl "d" true; TNot (TAnd [cl "a" true; cl "e" true]); TAnd [cl "a" true; TOr [cl "b" true; cl "c" true]]]).
Proof.
  split; [apply lworld_library; vm_compute; discriminate|]. split; [apply (readf_ok 9); vm_compute; reflexivity|]. split; [reflexivity|].
  split; vm_compute; reflexivity.
Qed.

Print Assumptions C27_cnf_handler.
Print Assumptions C27_dnf_handler.
Print Assumptions C27_cnf.
Print Assumptions C27_dnf.
Print Assumptions C28_distribute.
Print Assumptions C28_factorOut.
Print Assumptions C28_minimizeNegations.
Print Assumptions C28_minimizeNegations_constraints.
