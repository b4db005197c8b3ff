(** * Properties C11-C17: normal forms and functions on formulas

    Every theorem starts from a state reached by any history of calls of the modelled
    library on one factory ([library] in [NfApi.v]), so with every content of the caches
    that the library can produce. *)
From Coq Require Import String Ascii List Bool ZArith NArith Lia.
From Verif Require Import Spec Factory FactoryProofs FactoryProofs2 FactoryProofs3 FactoryApi FactoryProps Assign EncSpec EncAmo EncApi EncPbc EncProps NormalForm NfBase NfAssign NfSubst AssignProps NfEnc NfNnf NfCnf NfFun NfTseitin NfPg NfAig NfApi.
Import ListNotations.
Local Open Scope N_scope.

(** no reserved name occurs *)
Definition plain (t : tree) : Prop := forall x, occurs x t -> reserved x = false.
(** The models of [u], restricted to the names that are not reserved, are the models of [t]. *)
Definition projects (t u : tree) : Prop :=
  forall b, eval b t = true <-> exists b', (forall x, reserved x = false -> b' x = b x) /\ eval b' u = true.
(** every variable of [u] occurs in [t] *)
Definition within (t u : tree) : Prop := forall x, occurs x u -> occurs x t.

Lemma library_wp {A} (m : nat -> M A) cv s H X f t (Q : A -> state -> (asg -> Prop) -> Prop) :
  library cv s H X -> Reads s f t -> (forall V, linv s V H X -> Den s f t -> wp m s V Q) ->
  exists a s' V', returns m s a s' /\ keeps s s' /\ winv s' V' /\ Q a s' V'.
Proof.
  intros Hl Hr HW. destruct (library_inv _ _ _ _ Hl) as [V L]. pose proof L as [I K _]. pose proof (v_wf _ _ I) as Hw. apply Reads_Den in Hr; auto.
  destruct (HW V L Hr) as (n0 & a & s' & V' & Hn & I' & X' & HQ). exists a, s', V'. split; [exists n0; auto|]. split; auto.
  intros g u Hg. apply Reads_Den; [apply I'|]. apply Reads_Den in Hg; auto. eapply wext_Den; eauto.
Qed.
Lemma winv_Reads s V f t : winv s V -> Den s f t -> Reads s f t.
Proof. intros I D. apply Reads_Den; auto. apply I. Qed.
Lemma auxrepr_projects s V t u : winv s V -> plain t -> auxrepr V t u -> projects t u.
Proof.
  intros I Hp (A & B & _) b. split.
  - intros Hb. destruct (v_total _ _ I b) as (b' & HV & Hb'). exists b'. split.
    + intros x Hx. apply Hb'. apply nonreserved_aux; auto.
    + apply B; auto. rewrite (eval_agree t b' b); auto. intros x Hx. apply Hb'. apply nonreserved_aux; auto.
  - intros (b' & Hb' & Hu). rewrite (eval_agree t b b'); auto. intros x Hx. symmetry. apply Hb'. auto.
Qed.
Lemma repr_projects s V t u : winv s V -> plain t -> repr V t u -> projects t u.
Proof. intros I Hp R. eapply auxrepr_projects; eauto. apply repr_auxrepr; auto. Qed.

(** ** C11 Negation normal form *)
Theorem C11_nnf : forall cv s H X cf f t, library cv s H X -> Reads s f t -> pbfree t = true ->
  exists g s' u, returns (fun n => NNF n cf f) s g s' /\ keeps s s' /\ Reads s' g u /\
    is_nnf u = true /\ equiv t u /\ within t u /\ (is_nnf t = true -> g = f).
Proof.
  intros cv s H X cf f t Hl Hr Hp.
  destruct (library_wp (fun n => NNF n cf f) cv s H X f t (nnfPost true t) Hl Hr) as (g & s' & V' & R & Kp & I' & u & Du & Nu & (_ & _ & Ru) & Sh).
  { intros V [I _ _] D. apply NNF_ok; auto. apply pbfree_encodable; auto. }
  simpl in Ru. destruct (Ru Hp) as [E O]. exists g, s', u. split; auto. split; auto. split; [eapply winv_Reads; eauto|].
  split; auto. split; auto. split; auto.
  intros Hn. destruct (Sh eq_refl) as [_ Hid]. rewrite (Hid Hn) in Du. pose proof (Kp f t Hr) as Hr'. apply Reads_Den in Hr'; [|apply I'].
  eapply (Den_inj s'); eauto. apply I'.
Qed.
Theorem C11_nnf_constraints : forall cv s H X cf f t, library cv s H X -> Reads s f t -> encodable cf t -> plain t ->
  exists g s' u, returns (fun n => NNF n cf f) s g s' /\ keeps s s' /\ Reads s' g u /\
    is_nnf u = true /\ projects t u.
Proof.
  intros cv s H X cf f t Hl Hr He Hp.
  destruct (library_wp (fun n => NNF n cf f) cv s H X f t (nnfPost true t) Hl Hr) as (g & s' & V' & R & Kp & I' & u & Du & Nu & Ru & _).
  { intros V [I _ _] D. apply NNF_ok; auto. }
  exists g, s', u. split; auto. split; auto. split; [eapply winv_Reads; eauto|]. split; auto. eapply repr_projects; eauto.
Qed.
Theorem C11_isNNF : forall cv s H X f t, library cv s H X -> Reads s f t ->
  exists s', returns (fun n => isNNF n f) s (is_nnf t) s' /\ keeps s s'.
Proof.
  intros cv s H X f t Hl Hr.
  destruct (library_wp (fun n => isNNF n f) cv s H X f t (fun b _ _ => b = is_nnf t) Hl Hr) as (g & s' & V' & R & Kp & I' & ->); eauto.
  intros V [I _ _] D. apply isNNF_ok; auto.
Qed.

(** ** C12 Conjunctive normal form by factorization *)
Lemma factorized_result k t g s V : winv s V -> dual k -> cnfPost k t g s V ->
  exists u, Reads s g u /\ is_kf k u = true /\ (pbfree t = true -> equiv t u /\ within t u) /\ (plain t -> projects t u).
Proof.
  intros I Hd (u & Du & Ku & Ru). exists u. split; [eapply winv_Reads; eauto|]. split; auto. split.
  - intros Hp. apply Ru; auto.
  - intros Hp. eapply repr_projects; eauto.
Qed.
Theorem C12_factorizedCNF : forall cv s H X cf f t, library cv s H X -> Reads s f t -> pbfree t = true ->
  exists g s' u, returns (fun n => factorizedCNF n cf f) s g s' /\ keeps s s' /\ Reads s' g u /\
    is_cnf u = true /\ equiv t u /\ within t u.
Proof.
  intros cv s H X cf f t Hl Hr Hp.
  destruct (library_wp (fun n => factorizedCNF n cf f) cv s H X f t (cnfPost SAnd t) Hl Hr) as (g & s' & V' & R & Kp & I' & HP).
  { intros V [I _ _] D. apply factorizedCNF_ok; auto. apply pbfree_encodable; auto. }
  destruct (factorized_result SAnd t g s' V' I' (or_introl eq_refl) HP) as (u & Ru & Ku & A & _). destruct (A Hp). exists g, s', u. auto 7.
Qed.
Theorem C12_factorizedCNF_constraints : forall cv s H X cf f t, library cv s H X -> Reads s f t -> encodable cf t -> plain t ->
  exists g s' u, returns (fun n => factorizedCNF n cf f) s g s' /\ keeps s s' /\ Reads s' g u /\
    is_cnf u = true /\ projects t u.
Proof.
  intros cv s H X cf f t Hl Hr He Hp.
  destruct (library_wp (fun n => factorizedCNF n cf f) cv s H X f t (cnfPost SAnd t) Hl Hr) as (g & s' & V' & R & Kp & I' & HP).
  { intros V [I _ _] D. apply factorizedCNF_ok; auto. }
  destruct (factorized_result SAnd t g s' V' I' (or_introl eq_refl) HP) as (u & Ru & Ku & _ & A). exists g, s', u. auto 7.
Qed.
(** With a handler: a result is correct, and there is a result unless the handler cancels. *)
Theorem C12_factorizedCNF_handler : forall cv s H X cf f t St (hd : handler St) h, library cv s H X -> Reads s f t -> pbfree t = true ->
  exists r s', returns (fun n => factorizedCNFWithHandler hd n cf f h) s r s' /\ keeps s s' /\
    match fst r with
    | Some g => exists u, Reads s' g u /\ is_cnf u = true /\ equiv t u /\ within t u
    | None => exists e h', fst (resume hd e h') = false
    end.
Proof.
  intros cv s H X cf f t St hd h Hl Hr Hp.
  destruct (library_wp (fun n => factorizedCNFWithHandler hd n cf f h) cv s H X f t (kfPost hd SAnd t) Hl Hr) as (r & s' & V' & R & Kp & I' & HP).
  { intros V [I _ _] D. apply factorizedCNFWithHandler_ok; auto. apply pbfree_encodable; auto. }
  exists r, s'. split; auto. split; auto. unfold kfPost in HP. destruct (fst r) as [g|]; auto.
  destruct (factorized_result SAnd t g s' V' I' (or_introl eq_refl) HP) as (u & Ru & Ku & A & _). destruct (A Hp). exists u. auto.
Qed.
Theorem C12_isCNF : forall cv s H X f t, library cv s H X -> Reads s f t ->
  exists s', returns (fun n => isCNF f) s (is_cnf t) s' /\ keeps s s'.
Proof.
  intros cv s H X f t Hl Hr.
  destruct (library_wp (fun n => isCNF f) cv s H X f t (fun b s' V' => b = is_cnf t) Hl Hr) as (g & s' & V' & R & Kp & I' & ->); eauto.
  intros V [I _ _] D. eapply wp_conseq; [apply isCNF_ok; eauto|]. simpl. tauto.
Qed.

(** ** C13 Disjunctive normal form by factorization *)
Theorem C13_factorizedDNF : forall cv s H X cf f t, library cv s H X -> Reads s f t -> pbfree t = true ->
  exists g s' u, returns (fun n => factorizedDNF n cf f) s g s' /\ keeps s s' /\ Reads s' g u /\
    is_dnf u = true /\ equiv t u /\ within t u.
Proof.
  intros cv s H X cf f t Hl Hr Hp.
  destruct (library_wp (fun n => factorizedDNF n cf f) cv s H X f t (cnfPost SOr t) Hl Hr) as (g & s' & V' & R & Kp & I' & HP).
  { intros V [I _ _] D. apply factorizedDNF_ok; auto. apply pbfree_encodable; auto. }
  destruct (factorized_result SOr t g s' V' I' (or_intror eq_refl) HP) as (u & Ru & Ku & A & _). destruct (A Hp). exists g, s', u. auto 7.
Qed.
Theorem C13_factorizedDNF_constraints : forall cv s H X cf f t, library cv s H X -> Reads s f t -> encodable cf t -> plain t ->
  exists g s' u, returns (fun n => factorizedDNF n cf f) s g s' /\ keeps s s' /\ Reads s' g u /\
    is_dnf u = true /\ projects t u.
Proof.
  intros cv s H X cf f t Hl Hr He Hp.
  destruct (library_wp (fun n => factorizedDNF n cf f) cv s H X f t (cnfPost SOr t) Hl Hr) as (g & s' & V' & R & Kp & I' & HP).
  { intros V [I _ _] D. apply factorizedDNF_ok; auto. }
  destruct (factorized_result SOr t g s' V' I' (or_intror eq_refl) HP) as (u & Ru & Ku & _ & A). exists g, s', u. auto 7.
Qed.
Theorem C13_factorizedDNF_handler : forall cv s H X cf f t St (hd : handler St) h, library cv s H X -> Reads s f t -> pbfree t = true ->
  exists r s', returns (fun n => factorizedDNFWithHandler hd n cf f h) s r s' /\ keeps s s' /\
    match fst r with
    | Some g => exists u, Reads s' g u /\ is_dnf u = true /\ equiv t u /\ within t u
    | None => exists e h', fst (resume hd e h') = false
    end.
Proof.
  intros cv s H X cf f t St hd h Hl Hr Hp.
  destruct (library_wp (fun n => factorizedDNFWithHandler hd n cf f h) cv s H X f t (kfPost hd SOr t) Hl Hr) as (r & s' & V' & R & Kp & I' & HP).
  { intros V [I _ _] D. apply factorizedDNFWithHandler_ok; auto. apply pbfree_encodable; auto. }
  exists r, s'. split; auto. split; auto. unfold kfPost in HP. destruct (fst r) as [g|]; auto.
  destruct (factorized_result SOr t g s' V' I' (or_intror eq_refl) HP) as (u & Ru & Ku & A & _). destruct (A Hp). exists u. auto.
Qed.
Theorem C13_isDNF : forall cv s H X f t, library cv s H X -> Reads s f t ->
  exists s', returns (fun n => isDNF f) s (is_dnf t) s' /\ keeps s s'.
Proof.
  intros cv s H X f t Hl Hr.
  destruct (library_wp (fun n => isDNF f) cv s H X f t (fun b s' V' => b = is_dnf t) Hl Hr) as (g & s' & V' & R & Kp & I' & ->); eauto.
  intros V [I _ _] D. apply isDNF_ok; auto.
Qed.

(** ** C14 Tseitin *)
(** [x] is a new auxiliary state or one from earlier Tseitin transformations on the factory. *)
Theorem C14_tseitin : forall cv s H X cf bnd f t x, library cv s H X -> Reads s f t -> encodable cf t -> plain t ->
  x = newAuxState \/ In x X ->
  exists g x' s' u, returns (fun n => tseitinCNF n cf bnd f x) s (g, x') s' /\ keeps s s' /\ Reads s' g u /\
    is_cnf u = true /\ projects t u.
Proof.
  intros cv s H X cf bnd f t x Hl Hr He Hp Hx.
  destruct (library_wp (fun n => tseitinCNF n cf bnd f x) cv s H X f t (fun r s' V' => tsPost t (fst r) s' V' /\ xinv s' V' (snd r)) Hl Hr) as ([g x'] & s' & V' & R & Kp & I' & (u & Du & Cu & Au & _) & _).
  { intros V [I _ HX] D. apply tseitinCNF_ok; auto. destruct Hx as [-> |Hx]; [apply xinv_new|]. rewrite Forall_forall in HX. auto. }
  exists g, x', s', u. split; auto. split; auto. split; [eapply winv_Reads; eauto|]. split; auto. eapply auxrepr_projects; eauto.
Qed.
(** Without constraints every model of the formula extends to exactly one model of the CNF
    over the variables of the CNF: two models of the CNF that agree on the variables of the
    formula agree on all variables of the CNF.  New variables have reserved names. *)
Theorem C14_tseitin_unique : forall cv s H X cf bnd f t x, library cv s H X -> Reads s f t -> pbfree t = true -> plain t ->
  x = newAuxState \/ In x X ->
  exists g x' s' u, returns (fun n => tseitinCNF n cf bnd f x) s (g, x') s' /\ keeps s s' /\ Reads s' g u /\
    is_cnf u = true /\ projects t u /\
    (forall y, occurs y u -> occurs y t \/ reserved y = true) /\
    (forall b b', eval b u = true -> eval b' u = true -> (forall y, occurs y t -> b y = b' y) ->
      forall y, occurs y u -> b y = b' y).
Proof.
  intros cv s H X cf bnd f t x Hl Hr Hf Hp Hx.
  destruct (library_wp (fun n => tseitinCNF n cf bnd f x) cv s H X f t (fun r s' V' => tsPost t (fst r) s' V' /\ xinv s' V' (snd r)) Hl Hr) as ([g x'] & s' & V' & R & Kp & I' & (u & Du & Cu & Au & Det) & _).
  { intros V [I _ HX] D. apply tseitinCNF_ok; auto; [|apply pbfree_encodable; auto]. destruct Hx as [-> |Hx]; [apply xinv_new|]. rewrite Forall_forall in HX. auto. }
  exists g, x', s', u. split; auto. split; auto. split; [eapply winv_Reads; eauto|]. split; auto. split; [eapply auxrepr_projects; eauto|].
  split; [|exact (Det Hf)]. intros y Hy. destruct Au as (_ & _ & Au). destruct (Au Hf y Hy) as [|[(k & i & ->)|(i & ->)]]; auto; right; first [apply reserved_aux|reflexivity].
Qed.

(** ** C15 Plaisted-Greenbaum *)
Theorem C15_pg : forall cv s H X cf bnd f t, library cv s H X -> Reads s f t -> encodable cf t -> plain t ->
  exists g x' s' u, returns (fun n => pgCNF n cf bnd f newAuxState) s (g, x') s' /\ keeps s s' /\ Reads s' g u /\
    is_cnf u = true /\ projects t u /\
    (pbfree t = true -> forall y, occurs y u -> occurs y t \/ reserved y = true).
Proof.
  intros cv s H X cf bnd f t Hl Hr He Hp.
  destruct (library_wp (fun n => pgCNF n cf bnd f newAuxState) cv s H X f t (fun r s' V' => pgPost t (fst r) s' V') Hl Hr) as ([g x'] & s' & V' & R & Kp & I' & u & Du & Cu & Au).
  { intros V [I _ HX] D. apply pgCNF_ok; auto. apply pinv_new. }
  exists g, x', s', u. split; auto. split; auto. split; [eapply winv_Reads; eauto|]. split; auto. split; [eapply auxrepr_projects; eauto|].
  intros Hf y Hy. destruct Au as (_ & _ & Au). destruct (Au Hf y Hy) as [|[(k & i & ->)|(i & ->)]]; auto; right; first [apply reserved_aux|reflexivity].
Qed.
(** CNF with any configuration: factorization, Tseitin, Plaisted-Greenbaum, or the advanced
    algorithm with its cancelled factorization and the fallback. *)
Theorem C15_cnf_config : forall cv s H X cf nf f t, library cv s H X -> Reads s f t -> encodable cf t -> plain t ->
  exists g s' u, returns (fun n => CNF n cf nf f) s g s' /\ keeps s s' /\ Reads s' g u /\
    is_cnf u = true /\ projects t u.
Proof.
  intros cv s H X cf nf f t Hl Hr He Hp.
  destruct (library_wp (fun n => CNF n cf nf f) cv s H X f t (pgPost t) Hl Hr) as (g & s' & V' & R & Kp & I' & u & Du & Cu & Au).
  { intros V [I _ HX] D. apply CNF_ok; auto. }
  exists g, s', u. split; auto. split; auto. split; [eapply winv_Reads; eauto|]. split; auto. eapply auxrepr_projects; eauto.
Qed.

(** ** C16 And-inverter graphs *)
Theorem C16_aig : forall cv s H X cf nf f t, library cv s H X -> Reads s f t -> pbfree t = true ->
  exists g s' u, returns (fun n => AIG n cf nf f) s g s' /\ keeps s s' /\ Reads s' g u /\ equiv t u /\ within t u.
Proof.
  intros cv s H X cf nf f t Hl Hr Hp.
  destruct (library_wp (fun n => AIG n cf nf f) cv s H X f t (aigPost t) Hl Hr) as (g & s' & V' & R & Kp & I' & u & Du & [_ _ Au _]).
  { intros V [I _ HX] D. apply AIG_ok; auto. apply pbfree_encodable; auto. }
  destruct (Au Hp). exists g, s', u. split; auto. split; auto. split; [eapply winv_Reads; eauto|]. auto.
Qed.
(** The result is an and-inverter graph if the operands of every equivalence already are. *)
Theorem C16_aig_shape_partial : forall cv s H X cf nf f t, library cv s H X -> Reads s f t -> encodable cf t -> aigable t = true ->
  exists g s' u, returns (fun n => AIG n cf nf f) s g s' /\ keeps s s' /\ Reads s' g u /\ is_aig u = true.
Proof.
  intros cv s H X cf nf f t Hl Hr He Hp.
  destruct (library_wp (fun n => AIG n cf nf f) cv s H X f t (aigPost t) Hl Hr) as (g & s' & V' & R & Kp & I' & u & Du & [_ _ _ Au]).
  { intros V [I _ HX] D. apply AIG_ok; auto. }
  exists g, s', u. split; auto. split; auto. split; [eapply winv_Reads; eauto|]. auto.
Qed.
(** With constraints that occur only positively. *)
Theorem C16_aig_constraints_partial : forall cv s H X cf nf f t, library cv s H X -> Reads s f t -> encodable cf t -> plain t -> pospb t = true ->
  exists g s' u, returns (fun n => AIG n cf nf f) s g s' /\ keeps s s' /\ Reads s' g u /\ projects t u.
Proof.
  intros cv s H X cf nf f t Hl Hr He Hp Hb.
  destruct (library_wp (fun n => AIG n cf nf f) cv s H X f t (aigPost t) Hl Hr) as (g & s' & V' & R & Kp & I' & u & Du & [Av Ap _ _]).
  { intros V [I _ HX] D. apply AIG_ok; auto. }
  exists g, s', u. split; auto. split; auto. split; [eapply winv_Reads; eauto|]. intros b. split.
  - intros E. destruct (v_total _ _ I' b) as (b' & HV & Hb'). exists b'. split.
    + intros x Hx. apply Hb'. apply nonreserved_aux; auto.
    + rewrite Av; auto. rewrite (eval_agree t b' b); auto. intros x Hx. apply Hb'. apply nonreserved_aux; auto.
  - intros (b' & Hb' & Hu). rewrite (eval_agree t b b'); [apply Ap; auto|]. intros x Hx. symmetry. apply Hb'. auto.
Qed.
Theorem C16_isAIG : forall cv s H X f t, library cv s H X -> Reads s f t ->
  exists s', returns (fun n => isAIG n f) s (is_aig t) s' /\ keeps s s'.
Proof.
  intros cv s H X f t Hl Hr.
  destruct (library_wp (fun n => isAIG n f) cv s H X f t (fun b s' V' => b = is_aig t) Hl Hr) as (g & s' & V' & R & Kp & I' & ->); eauto.
  intros V [I _ _] D. apply isAIG_ok; auto.
Qed.

(** ** C17 Variables, literals, sub-formulas and sizes *)
Theorem C17_variables : forall cv s H X f t, library cv s H X -> Reads s f t ->
  exists vs s' xs, returns (fun n => variables n f) s vs s' /\ keeps s s' /\
    lits_named s' vs (map (fun x => (x, true)) xs) /\ NoDup vs /\ NoDup xs /\ forall x, In x xs <-> occurs x t.
Proof.
  intros cv s H X f t Hl Hr.
  destruct (library_wp (fun n => variables n f) cv s H X f t (setPost FuncVariables t) Hl Hr) as (g & s' & V' & R & Kp & I' & xs & HF & Hn & Hi).
  { intros V [I _ _] D. apply (atomSet_ok false); auto. }
  exists g, s', xs. split; auto. split; auto. pose proof (v_wf _ _ I') as Hw. split; [|split; auto].
  - unfold lits_named. clear -HF Hw. induction HF; simpl; constructor; auto. apply LiteralNamePhase_node; auto.
  - clear -HF Hn Hw. induction HF; [constructor|]. inversion Hn; subst. constructor; auto. intros Hx.
    destruct (Forall2_in_l _ _ _ _ HF Hx) as (z & Hz & Dz). assert (E : (y, true) = (z, true)) by (eapply litDen_fun; [exact H|exact Dz]). inversion E; subst. auto.
Qed.
Theorem C17_literals : forall cv s H X f t, library cv s H X -> Reads s f t ->
  exists vs s' ns, returns (fun n => literalsOf n f) s vs s' /\ keeps s s' /\
    lits_named s' vs ns /\ NoDup vs /\ NoDup ns /\ forall l, In l ns <-> lit_occurs l t.
Proof.
  intros cv s H X f t Hl Hr.
  destruct (library_wp (fun n => literalsOf n f) cv s H X f t (setPost FuncLiterals t) Hl Hr) as (g & s' & V' & R & Kp & I' & xs & HF & Hn & Hi).
  { intros V [I _ _] D. apply (atomSet_ok true); auto. }
  exists g, s', xs. split; auto. split; auto. pose proof (v_wf _ _ I') as Hw. split; [|split; auto].
  - unfold lits_named. clear -HF Hw. induction HF; simpl; constructor; auto. apply LiteralNamePhase_node; auto.
  - clear -HF Hn Hw. induction HF; [constructor|]. inversion Hn; subst. constructor; auto. intros Hx.
    destruct (Forall2_in_l _ _ _ _ HF Hx) as (z & Hz & Dz). assert (E : y = z) by (eapply litDen_fun; [exact H|exact Dz]). subst. auto.
Qed.
(** SubNodes lists every sub-formula once, children before parents. *)
Theorem C17_subnodes : forall cv s H X f t, library cv s H X -> Reads s f t ->
  exists fs s' ts, returns (fun n => subNodes n f) s fs s' /\ keeps s s' /\
    Forall2 (Reads s') fs ts /\ NoDup fs /\ NoDup ts /\ bottomup [] ts /\ forall u, In u ts <-> subtree u t.
Proof.
  intros cv s H X f t Hl Hr.
  destruct (library_wp (fun n => subNodes n f) cv s H X f t (setPost FuncSubnodes t) Hl Hr) as (g & s' & V' & R & Kp & I' & xs & HF & Hn & Hb & Hi).
  { intros V [I _ _] D. apply subNodes_ok; auto. }
  exists g, s', xs. split; auto. split; auto. pose proof (v_wf _ _ I') as Hw. split; [|split; auto].
  - clear -HF Hw. induction HF; simpl; constructor; auto. apply Reads_Den; auto.
  - clear -HF Hn Hw. induction HF; [constructor|]. inversion Hn; subst. constructor; auto. intros Hx.
    destruct (Forall2_in_l _ _ _ _ HF Hx) as (z & Hz & Dz). pose proof (Den_fun _ _ _ _ H Dz) as E. subst. auto.
Qed.
Theorem C17_sizes : forall cv s H X f t, library cv s H X -> Reads s f t ->
  (exists s', returns (fun n => numberOfAtoms n f) s (atoms t) s' /\ keeps s s') /\
  (exists s', returns (fun n => numberOfNodes n f) s (nodes t) s' /\ keeps s s') /\
  (exists s', returns (fun n => depth n f) s (height t) s' /\ keeps s s').
Proof.
  intros cv s H X f t Hl Hr. split; [|split].
  - destruct (library_wp (fun n => numberOfAtoms n f) cv s H X f t (numPost atoms t) Hl Hr) as (g & s' & V' & R & Kp & I' & ->); eauto.
    intros V [I _ _] D. apply numberOfAtoms_ok; auto.
  - destruct (library_wp (fun n => numberOfNodes n f) cv s H X f t (numPost nodes t) Hl Hr) as (g & s' & V' & R & Kp & I' & ->); eauto.
    intros V [I _ _] D. apply numberOfNodes_ok; auto.
  - destruct (library_wp (fun n => depth n f) cv s H X f t (numPost height t) Hl Hr) as (g & s' & V' & R & Kp & I' & ->); eauto.
    intros V [I _ _] D. apply depth_ok; auto.
Qed.

(** ** Concrete histories *)
Definition userCallb (c : call) : bool := match c with CVar n | CLit n _ => negb (reserved n) | _ => true end.
Lemma userCallb_ok c : userCallb c = true -> userCall c.
Proof. destruct c; simpl; auto; intros H; apply negb_true_iff in H; auto. Qed.
Fixpoint lexec (cs : list (list formula -> call)) (s : state) (H : list formula) : option (state * list formula) :=
  match cs with
  | [] => Some (s, H)
  | c :: r => if userCallb (c H) && allowedb H (c H) then let (f, s') := run (c H) s in lexec r s' (f :: H) else None
  end.
Lemma lsteps_trans a b c : lsteps a b -> lsteps b c -> lsteps a c.
Proof. intros H1 H2. induction H2 as [|w1 w2 w3 _ IH St]; auto. exact (lsteps_more _ _ _ (IH H1) St). Qed.
Lemma lexec_steps cs X : forall s H s' H', lexec cs s H = Some (s', H') -> lsteps (s, H, X) (s', H', X).
Proof.
  induction cs as [|c cs IH]; simpl; intros s H s' H' He.
  - inversion He; subst. apply lsteps_refl.
  - destruct (userCallb (c H)) eqn:Eu, (allowedb H (c H)) eqn:Ea; try discriminate. destruct (run (c H) s) as [f s1] eqn:Er. simpl in He.
    eapply lsteps_trans; [eapply lsteps_more; [apply lsteps_refl|eapply l_call; eauto using allowedb_ok, userCallb_ok]|]. auto.
Qed.
Definition lworld (cs : list (list formula -> call)) : state * list formula :=
  match lexec cs (newFactory false) [ffalse; ftrue] with Some w => w | None => (newFactory false, []) end.
Lemma lworld_library cs : snd (lworld cs) <> [] -> library false (fst (lworld cs)) (snd (lworld cs)) [].
Proof.
  unfold lworld. destruct (lexec cs _ _) as [[s H]|] eqn:E; simpl; [|congruence]. intros _. apply (lexec_steps cs [] _ _ _ _ E).
Qed.
Definition exCf : encConfig := EncCfg (defaultPbc PBCSWC) defaultCc (fun l => l).

(** (a | b) <=> c *)
Definition hEq : list (list formula -> call) :=
  [fun _ => CVar "a"; fun _ => CVar "b"; fun _ => CVar "c"; fun H => COr [nthf 2 H; nthf 1 H]; fun H => CEquiv (nthf 0 H) (nthf 1 H)]%string.

(** reading the result of an operation with recursion depth [n] *)
Definition result {A} (m : nat -> M A) (n : nat) (k : A -> formula) (s : state) : option tree :=
  match m n s with Some (a, s') => readf 30 s' (k a) | None => None end.
Lemma result_ok {A} (m : nat -> M A) n k s u : result m n k s = Some u -> exists a s', m n s = Some (a, s') /\ Reads s' (k a) u.
Proof. unfold result. destruct (m n s) as [[a s']|]; [|discriminate]. intros H. exists a, s'. split; auto. apply (readf_ok 30). auto. Qed.
Definition exNf (a fb : cnfAlgorithm) : cnfConfig := CnfCfg a fb (-1) 1000 12.
Definition va : tree := TLit ("a", true)%string. Definition vb : tree := TLit ("b", true)%string. Definition vc : tree := TLit ("c", true)%string.

(** The result is not always an and-inverter graph: for an equivalence the second conjunct
    is built from the original operands. *)
Theorem C16_aig_shape_refuted : exists s H f t n g s' u, library false s H [] /\ In f H /\ Reads s f t /\ pbfree t = true /\
  AIG n exCf (exNf CNFAdvanced CNFPlaistedGreenbaum) f s = Some (g, s') /\ Reads s' g u /\ is_aig u = false.
Proof.
  pose (f := nthf 0 (snd (lworld hEq))).
  destruct (result_ok (fun n => AIG n exCf (exNf CNFAdvanced CNFPlaistedGreenbaum) f) 20 (fun g => g) (fst (lworld hEq))
    (TAnd [TNot (TAnd [TNot (TAnd [TLit ("a", false)%string; TLit ("b", false)%string]); TLit ("c", false)%string]); TNot (TAnd [TNot (TOr [va; vb]); vc])])) as (g & s' & E & R);
    [vm_compute; reflexivity|].
  eexists _, (snd (lworld hEq)), f, (TEquiv (TOr [va; vb]) vc), 20%nat, g, s', _.
  split; [apply lworld_library; vm_compute; discriminate|]. split; [apply inb_in; vm_compute; reflexivity|].
  split; [apply (readf_ok 9); vm_compute; reflexivity|]. split; [reflexivity|]. split; [exact E|]. split; [exact R|reflexivity].
Qed.


(** ~(a + b + c + d <= 2) *)
Definition hNeg : list (list formula -> call) :=
  [fun _ => CVar "a"; fun _ => CVar "b"; fun _ => CVar "c"; fun _ => CVar "d"; fun H => CCC LE 2 [nthf 3 H; nthf 2 H; nthf 1 H; nthf 0 H]; fun H => CNot (nthf 0 H)]%string.
Definition tNeg : tree := TNot (TPBC true LE 2 (map (fun x => (x, true)) ["a"; "b"; "c"; "d"]%string) [1; 1; 1; 1]%Z).
(** AIG negates the encoding of a negated constraint, with its auxiliary variables. *)
Theorem C16_aig_constraints_refuted : exists s H f t n g s' u, library false s H [] /\ In f H /\ Reads s f t /\ encodable exCf t /\ plain t /\
  AIG n exCf (exNf CNFAdvanced CNFPlaistedGreenbaum) f s = Some (g, s') /\ Reads s' g u /\ ~ projects t u.
Proof.
  pose (f := nthf 0 (snd (lworld hNeg))). pose (m := fun n => AIG n exCf (exNf CNFAdvanced CNFPlaistedGreenbaum) f).
  pose (u := match result m 20 (fun g => g) (fst (lworld hNeg)) with Some u => u | None => TTrue end).
  destruct (result_ok m 20 (fun g => g) (fst (lworld hNeg)) u) as (g & s' & E & R); [vm_compute; reflexivity|].
  exists (fst (lworld hNeg)), (snd (lworld hNeg)), f, tNeg, 20%nat, g, s', u.
  split; [apply lworld_library; vm_compute; discriminate|]. split; [apply inb_in; vm_compute; reflexivity|].
  split; [apply (readf_ok 9); vm_compute; reflexivity|]. split; [|split; [|split; [exact E|split; [exact R|]]]].
  - split.
    + split; [intros l; apply Permutation.Permutation_refl|]. split; [exact default_admissible|]. split; [discriminate|]. split; discriminate.
    + split; [|split; [|split]].
      * intros x p Hx. simpl in Hx. destruct Hx as [Hx|[Hx|[Hx|[Hx|[]]]]]; inversion Hx; reflexivity.
      * intros _ [H _]. discriminate.
      * discriminate.
      * exact I.
  - intros x [p Hx]. simpl in Hx. destruct Hx as [Hx|[Hx|[Hx|[Hx|[]]]]]; inversion Hx; reflexivity.
  - intros HP. destruct (HP (fun _ => false)) as [_ HP2].
    assert (C : eval (fun _ => false) tNeg = true); [|discriminate C].
    apply HP2. exists (fun x => String.eqb x "@RESERVED_CC_1"). split; [|vm_compute; reflexivity].
    intros x Hx. destruct (String.eqb_spec x "@RESERVED_CC_1") as [->|]; auto.
Qed.

(** f1 = a | b & c, f2 = e | d & f1 *)
Definition hPg : list (list formula -> call) :=
  [fun _ => CVar "a"; fun _ => CVar "b"; fun _ => CVar "c"; fun _ => CVar "d"; fun _ => CVar "e"; 
   fun H => CAnd [nthf 3 H; nthf 2 H]; fun H => COr [nthf 5 H; nthf 0 H]; fun H => CAnd [nthf 3 H; nthf 0 H]; fun H => COr [nthf 3 H; nthf 0 H]]%string.

Definition tPg : tree := let v x := TLit (x, true)%string in TOr [v "e"; TAnd [v "d"; TOr [v "a"; TAnd [v "b"; v "c"]]]]%string.
Lemma result2_ok {A B} (m : nat -> M A) (m2 : nat -> A -> M B) n k s u : result (fun n => a <- m n ;; m2 n a) n k s = Some u ->
  exists a s1 c s', m n s = Some (a, s1) /\ m2 n a s1 = Some (c, s') /\ Reads s' (k c) u.
Proof.
  intros H. apply result_ok in H. destruct H as (c & s' & E & R). unfold bind in E. destruct (m n s) as [[a s1]|]; [|discriminate].
  exists a, s1, c, s'. auto.
Qed.
(** With a shared auxiliary state: a formula below the boundary is factorized, but stored
    with the literal 0, which stands for it when it occurs in a later formula. *)
Theorem C15_pg_reused_state_refuted : exists s H f1 f2 t n r1 s1 r2 s2 u, library false s H [] /\ In f1 H /\ In f2 H /\ Reads s f2 t /\ pbfree t = true /\ plain t /\
  pgCNF n exCf 4 f1 newAuxState s = Some (r1, s1) /\ pgCNF n exCf 4 f2 (snd r1) s1 = Some (r2, s2) /\
  Reads s2 (fst r2) u /\ ~ projects t u.
Proof.
  pose (L := fun x p => TLit (x, p) : tree).
  pose (u := TAnd [TOr [L "e" true; L "@RESERVED_CNF_1" true]; TOr [L "@RESERVED_CNF_1" false; L "d" true]; TOr [L "@RESERVED_CNF_1" false; TFalse];
     TOr [L "" true; L "a" true; L "@RESERVED_CNF_2" true]; TOr [L "@RESERVED_CNF_2" false; L "b" true]; TOr [L "@RESERVED_CNF_2" false; L "c" true]]%string).
  destruct (result2_ok (fun n => pgCNF n exCf 4 (nthf 2 (snd (lworld hPg))) newAuxState) (fun n r => pgCNF n exCf 4 (nthf 0 (snd (lworld hPg))) (snd r)) 20 fst (fst (lworld hPg)) u)
    as (r1 & s1 & r2 & s2 & E1 & E & R); [vm_compute; reflexivity|].
  exists (fst (lworld hPg)), (snd (lworld hPg)), (nthf 2 (snd (lworld hPg))), (nthf 0 (snd (lworld hPg))), tPg, 20%nat, r1, s1, r2, s2, u.
  split; [apply lworld_library; vm_compute; discriminate|]. split; [apply inb_in; vm_compute; reflexivity|]. split; [apply inb_in; vm_compute; reflexivity|].
  split; [apply (readf_ok 9); vm_compute; reflexivity|]. split; [reflexivity|]. split; [|split; [exact E1|split; [exact E|split; [exact R|]]]].
  - intros x Hx. simpl in Hx. repeat (destruct Hx as [Hx|Hx]; [subst; reflexivity|]). repeat (destruct Hx as [Hx|Hx]; try (subst; reflexivity); try contradiction).
  - intros HP. destruct (HP (fun x => (x =? "d") || (x =? "a"))%string) as [HP2 _].
    destruct HP2 as (b' & Hb & Hu); [reflexivity|]. specialize (Hb "e"%string eq_refl). simpl in Hu, Hb. unfold eval_lit in Hu. simpl in Hu. rewrite Hb in Hu. simpl in Hu.
    destruct (b' "@RESERVED_CNF_1"%string); [|discriminate]. simpl in Hu. rewrite andb_false_r in Hu. discriminate.
Qed.

(** ** The hypotheses are met *)
Definition sEq : state := fst (lworld hEq).
Definition fEq : formula := nthf 0 (snd (lworld hEq)).
Definition tEq : tree := TEquiv (TOr [va; vb]) vc.
(** (a | b) <=> c, and the results of transforming it *)
Example nf_example :
  library false sEq (snd (lworld hEq)) [] /\ In fEq (snd (lworld hEq)) /\ Reads sEq fEq tEq /\ pbfree tEq = true /\ plain tEq /\
  (let na := TLit ("a", false) in let nb := TLit ("b", false) in let nc := TLit ("c", false) in
   let x i := TLit ("@RESERVED_CNF_" ++ i, true) in let nx i := TLit ("@RESERVED_CNF_" ++ i, false) in
   result (fun n => factorizedCNF n exCf fEq) 20 (fun g => g) sEq = Some (TAnd [TOr [na; vc]; TOr [nb; vc]; TOr [va; vb; nc]]) /\
   result (fun n => factorizedDNF n exCf fEq) 20 (fun g => g) sEq = Some (TOr [TAnd [nc; na; nb]; TAnd [va; vc]; TAnd [vb; vc]]) /\
   result (fun n => pgCNF n exCf 0 fEq newAuxState) 20 fst sEq =
     Some (TAnd [x "1"; x "2"; TOr [nx "1"; x "3"; vc]; TOr [nx "3"; na]; TOr [nx "3"; nb]; TOr [nx "2"; va; vb; nc]]))%string.
Proof.
  split; [apply lworld_library; vm_compute; discriminate|]. split; [apply inb_in; vm_compute; reflexivity|].
  split; [apply (readf_ok 9); vm_compute; reflexivity|]. split; [reflexivity|].
  split; [intros x Hx; simpl in Hx; repeat (destruct Hx as [Hx|Hx]; try (subst; reflexivity); try contradiction)|].
  cbv zeta. split; [|split]; vm_compute; reflexivity.
Qed.
(** a second Tseitin transformation with the auxiliary state of the first *)
Lemma tseitin_twice cv s0 H0 f t : library cv s0 H0 [] -> In f H0 -> Reads s0 f t -> pbfree t = true -> plain t -> exists s x H g,
  library cv s H [x] /\ In f H /\ In g H /\ Reads s f t /\
  exists g2 x2 s2 u, returns (fun n => tseitinCNF n exCf 0 f x) s (g2, x2) s2 /\ Reads s2 g2 u /\ is_cnf u = true /\ projects t u.
Proof.
  intros L Hi R Hb Hp.
  destruct (C14_tseitin cv s0 _ [] exCf 0 f t newAuxState L R (pbfree_encodable _ _ Hb) Hp (or_introl eq_refl)) as (g & x & s & u & Rt & Kp & Ru & _).
  assert (L2 : library cv s (g :: H0) [x]).
  { eapply lsteps_more; [exact L|]. apply (l_op (OTseitin exCf 0 f newAuxState) s0 H0 [] [g] [x] s).
    - split; [exact Hi|]. split; [|auto]. intros t' Ht. assert (Hw : wf s0) by (destruct (library_inv _ _ _ _ L) as [V [I _ _]]; apply I).
      assert (t' = t) by (apply (Den_fun s0 t' f); apply Reads_Den; auto). subst. apply pbfree_encodable; auto.
    - destruct Rt as [n0 Hn]. exists n0. intros n Hge. simpl. unfold bind. rewrite (Hn n Hge). reflexivity. }
  exists s, x, (g :: H0), g. split; [exact L2|]. split; [right; exact Hi|]. split; [left; reflexivity|]. split; [apply Kp; exact R|].
  destruct (C14_tseitin _ _ _ _ exCf 0 f t x L2 (Kp _ _ R) (pbfree_encodable _ _ Hb) Hp (or_intror (or_introl eq_refl))) as (g2 & x2 & s2 & u2 & A & _ & B & C & D).
  exists g2, x2, s2, u2. auto.
Qed.
Example tseitin_reuse_example : exists s x H g,
  library false s H [x] /\ In fEq H /\ In g H /\ Reads s fEq tEq /\
  exists g2 x2 s2 u, returns (fun n => tseitinCNF n exCf 0 fEq x) s (g2, x2) s2 /\ Reads s2 g2 u /\ is_cnf u = true /\ projects tEq u.
Proof. destruct nf_example as (L & Hi & R & Hb & Hp & _). exact (tseitin_twice _ _ _ _ _ L Hi R Hb Hp). Qed.

Print Assumptions C11_nnf.
Print Assumptions C11_nnf_constraints.
Print Assumptions C11_isNNF.
Print Assumptions C12_factorizedCNF.
Print Assumptions C12_factorizedCNF_constraints.
Print Assumptions C12_factorizedCNF_handler.
Print Assumptions C12_isCNF.
Print Assumptions C13_factorizedDNF.
Print Assumptions C13_factorizedDNF_constraints.
Print Assumptions C13_factorizedDNF_handler.
Print Assumptions C13_isDNF.
Print Assumptions C14_tseitin.
Print Assumptions C14_tseitin_unique.
Print Assumptions C15_pg.
Print Assumptions C15_cnf_config.
Print Assumptions C16_aig.
Print Assumptions C16_aig_shape_partial.
Print Assumptions C16_aig_constraints_partial.
Print Assumptions C16_isAIG.
Print Assumptions C17_variables.
Print Assumptions C17_literals.
Print Assumptions C17_subnodes.
Print Assumptions C17_sizes.
Print Assumptions C16_aig_shape_refuted.
Print Assumptions C16_aig_constraints_refuted.
Print Assumptions C15_pg_reused_state_refuted.
