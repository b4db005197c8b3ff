(** * C66: the substitution of literals *)
From Coq Require Import String Ascii List Bool ZArith NArith Lia.
From Verif Require Import Spec Factory FactoryProofs FactoryProofs2 FactoryProofs3 FactoryApi FactoryProps Assign NormalForm NfBase NfAssign NfSubst AssignProps LitSubst.
Import ListNotations.

(** ** Specification *)
(** the formula in which every literal [l] is replaced by [h l] *)
Fixpoint replaced (h : lit -> lit) (t : tree) : tree :=
  match t with
  | TFalse | TTrue => t
  | TLit l => TLit (h l)
  | TNot t => TNot (replaced h t)
  | TAnd ts => TAnd (map (replaced h) ts)
  | TOr ts => TOr (map (replaced h) ts)
  | TImpl a b => TImpl (replaced h a) (replaced h b)
  | TEquiv a b => TEquiv (replaced h a) (replaced h b)
  | TPBC k c r ls cs => TPBC k c r (map h ls) cs
  end.
Definition opposite (l : lit) : lit := (fst l, negb (snd l)).
(** "Always the best fit is chosen": a mapping of the literal itself; for a negative literal otherwise the negation of what the variable is mapped to *)
Definition bestFit (sg : lit -> option lit) (l : lit) : lit :=
  match sg l with
  | Some m => m
  | None => if snd l then l else match sg (opposite l) with Some m => opposite m | None => l end
  end.
(** the Go map [sb] maps the literals of the factory as [sg] says *)
Definition litSubst_of (s : state) (sb : litSubstitution) (sg : lit -> option lit) : Prop :=
  forall l k, LiteralNamePhase l s = Some k -> match sb l with Some m => exists q, sg k = Some q /\ LiteralNamePhase m s = Some q | None => sg k = None end.

(** ** Proof *)
Section Sub.
Variables (s0 : state) (sb : litSubstitution) (sg : lit -> option lit).
Hypothesis W0 : wf s0.
Hypothesis Hsb : forall l k, litDen s0 l k -> match sb l with Some m => exists q, sg k = Some q /\ litDen s0 m q | None => sg k = None end.

Lemma back s f g t : wf s -> ext s0 s -> Den s0 f t -> Den s g t -> Den s0 g t.
Proof. intros W X D E. rewrite (Den_inj s W t g f E); auto. eapply ext_Den; eauto. Qed.
Lemma back_list s : wf s -> ext s0 s -> forall ts fs gs, Forall2 (Den s0) fs ts -> Forall2 (Den s) gs ts -> Forall2 (Den s0) gs ts.
Proof. intros W X. induction ts; intros fs gs F G; inversion F; inversion G; subst; constructor; eauto using back. Qed.
Lemma back_lits s : wf s -> ext s0 s -> forall ks fs gs, Forall2 (litDen s0) fs ks -> Forall2 (litDen s) gs ks -> Forall2 (litDen s0) gs ks.
Proof.
  intros W X ks. induction ks as [|k ks IH]; intros fs gs F G; inversion F as [|f ? fs' ? Df F']; inversion G as [|g ? gs' ? Dg G']; subst; constructor; eauto. assert (g = f) as ->; auto.
  destruct W as [W _]. eapply (w_uniq s W); [exact Dg|]. apply X. exact Df.
Qed.
Lemma substLit_ok l k s : wf s -> ext s0 s -> litDen s0 l k -> rp (fun _ => substLit sb l) s (fun m s' => litDen s' m (bestFit sg k)).
Proof.
  intros W X D. destruct k as [x p]. unfold substLit, bestFit. pose proof (Hsb _ _ D) as H1. destruct (sb l) as [m|].
  - destruct H1 as (q & -> & Dm). apply rp_ret; auto. apply X. exact Dm.
  - rewrite H1, (litpos _ _ _ _ W0 D). cbn [snd]. destruct p; [apply rp_ret; auto; apply X; exact D|].
    pose proof (Hsb _ _ (litVariable_den _ _ _ _ W0 D)) as H2. unfold opposite at 1. cbn [fst snd negb]. destruct (sb (litVariable l)) as [m|].
    + destruct H2 as ([y q] & -> & Dm). unfold opposite. cbn [fst snd]. apply rp_negateLit; auto. apply X. exact Dm.
    + rewrite H2. apply rp_ret; auto. apply X. exact D.
Qed.
Lemma substLits_ok ls ks s : wf s -> ext s0 s -> Forall2 (litDen s0) ls ks -> rp (fun _ => mapM (substLit sb) ls) s (fun ms s' => Forall2 (litDen s') ms (map (bestFit sg) ks)).
Proof.
  intros W X F. eapply rp_conseq; [apply (rp_mapM (fun _ => substLit sb) (fun _ l k => litDen s0 l k) (fun s m k => litDen s m (bestFit sg k))) with (cs := ks)|].
  - auto.
  - intros s1 s2 P a c D. apply (pstep_ext _ _ P). exact D.
  - intros a c _ _ s' P D. apply substLit_ok; auto; [eapply pstep_wf; eauto|]. eapply ext_trans; [exact X|apply (pstep_ext _ _ P)].
  - auto.
  - auto.
  - cbv beta. intros ms s' _ G. clear -G. induction G; constructor; auto.
Qed.
Definition post (t : tree) (g : formula) (s : state) : Prop := exists u, Den s g u /\ equiv u (replaced (bestFit sg) t).
Lemma substList_ok ts fs s : Forall (fun t => forall s f, wf s -> ext s0 s -> Den s0 f t -> rp (fun n => substituteLiterals n sb f) s (post t)) ts ->
  wf s -> ext s0 s -> Forall2 (Den s0) fs ts -> rp (fun n => mapM (substituteLiterals n sb) fs) s (fun gs s' => exists us, Forall2 (Den s') gs us /\ Forall2 equiv us (map (replaced (bestFit sg)) ts)).
Proof.
  intros IH W X F. eapply rp_conseq; [apply (rp_mapM (fun n => substituteLiterals n sb) (fun _ f t => Den s0 f t) (fun s g t => post t g s)) with (cs := ts)|].
  - auto.
  - intros s1 s2 P a c (u & D & E). exists u. split; auto. eapply ext_Den; [apply (pstep_ext _ _ P)|auto].
  - intros a c _ J s' P D. rewrite Forall_forall in IH. apply IH; auto; [eapply pstep_wf; eauto|]. eapply ext_trans; [exact X|apply (pstep_ext _ _ P)].
  - auto.
  - auto.
  - cbv beta. intros gs s' _ G. clear -G. induction G as [|g t gs ts (u & D & E) _ (us & F & H)]; [exists []; split; constructor|]. exists (u :: us). split; constructor; auto.
Qed.
Lemma substituteLiterals_ok : forall t s f, wf s -> ext s0 s -> Den s0 f t -> rp (fun n => substituteLiterals n sb f) s (post t).
Proof.
  induction t using tree_ind'; intros s f W X D0; pose proof (Den_sort _ _ _ D0) as Hs; pose proof (ext_Den _ _ X _ _ D0) as D; apply rp_S; cbn [substituteLiterals]; rewrite Hs.
  - apply rp_ret; auto. exists TFalse. split; auto. intros b; auto.
  - apply rp_ret; auto. exists TTrue. split; auto. intros b; auto.
  - eapply rp_conseq; [apply (substLit_ok f l); auto; apply Den_litt_inv; auto|]. cbv beta. intros g s' _ Dg. exists (TLit (bestFit sg l)). split; [apply litDen_Den; auto|intros b; auto].
  - apply rp_get. eapply rp_bind; [apply (IHt s); auto; eapply back; eauto; apply opNot_den; eauto|]. intros g s1 P1 (u & Dg & E).
    eapply rp_conseq; [apply (rp_not g u); [eapply pstep_wf; eauto|auto]|]. intros r s2 _ (w & Dr & Hn). exists w. split; auto. intros b. rewrite (is_neg_of_eval _ _ b Hn). cbn [replaced eval]. rewrite (E b). auto.
  - apply rp_get. eapply rp_bind; [apply (substList_ok ts); auto; eapply back_list; eauto; apply opNary_and; eauto|]. cbv beta. intros gs s1 P1 (us & F & E). rewrite naryOp_and.
    eapply rp_conseq; [apply (rp_and gs us); [eapply pstep_wf; eauto|auto]|]. intros r s2 _ (w & Dr & Q & _). exists w. split; auto. intros b. rewrite (Q b). cbn [replaced eval]. clear -E. induction E; cbn; auto. rewrite (H b), IHE. auto.
  - apply rp_get. eapply rp_bind; [apply (substList_ok ts); auto; eapply back_list; eauto; apply opNary_or; eauto|]. cbv beta. intros gs s1 P1 (us & F & E). rewrite naryOp_or.
    eapply rp_conseq; [apply (rp_or gs us); [eapply pstep_wf; eauto|auto]|]. intros r s2 _ (w & Dr & Q & _). exists w. split; auto. intros b. rewrite (Q b). cbn [replaced eval]. clear -E. induction E; cbn; auto. rewrite (H b), IHE. auto.
  - apply rp_get. destruct (opBin_impl s f t1 t2 W D) as [A1 A2], (opBin_impl s0 f t1 t2 W0 D0) as [B1 B2].
    eapply rp_bind; [apply (IHt1 s); auto; eapply back; eauto|]. intros l s1 P1 (u1 & Dl & E1). pose proof (pstep_wf _ _ P1) as W1. pose proof (pstep_ext _ _ P1) as X1.
    eapply rp_bind; [apply (IHt2 s1); auto; [eapply ext_trans; eauto|eapply (back s); eauto]|]. intros r s2 P2 (u2 & Dr & E2). rewrite binOp_impl.
    eapply rp_conseq; [apply (rp_impl l r u1 u2); [eapply pstep_wf; eauto|eapply ext_Den; [apply (pstep_ext _ _ P2)|auto]|auto]|]. intros g s3 _ (w & Dg & Q & _). exists w. split; auto. intros b. rewrite (Q b). cbn [replaced eval]. rewrite (E1 b), (E2 b). auto.
  - apply rp_get. destruct (opBin_equiv s f t1 t2 W D) as [A1 A2], (opBin_equiv s0 f t1 t2 W0 D0) as [B1 B2].
    eapply rp_bind; [apply (IHt1 s); auto; eapply back; eauto|]. intros l s1 P1 (u1 & Dl & E1). pose proof (pstep_wf _ _ P1) as W1. pose proof (pstep_ext _ _ P1) as X1.
    eapply rp_bind; [apply (IHt2 s1); auto; [eapply ext_trans; eauto|eapply (back s); eauto]|]. intros r s2 P2 (u2 & Dr & E2). rewrite binOp_equiv.
    eapply rp_conseq; [apply (rp_equiv l r u1 u2); [eapply pstep_wf; eauto|eapply ext_Den; [apply (pstep_ext _ _ P2)|auto]|auto]|]. intros g s3 _ (w & Dg & Q & _). exists w. split; auto. intros b. rewrite (Q b). cbn [replaced eval]. rewrite (E1 b), (E2 b). auto.
  - assert (G : rp (fun n => bind (get (opPbc f)) (fun p => bind (mapM (substLit sb) (p_lits p)) (fun ls => up (PBC (p_cmp p) (p_rhs p) ls (p_coeffs p))))) s (post (TPBC k c r ls cs))).
    { apply rp_get. destruct (opPbc_den s f k c r ls cs W D) as (Hl & Hcs & Hr & Hc & Hlen & _). destruct (opPbc_den s0 f k c r ls cs W0 D0) as (Hl0 & _). rewrite Hcs, Hr, Hc.
      eapply (rp_bind (fun _ => mapM (substLit sb) (p_lits (opPbc f s)))); [apply (substLits_ok _ ls); auto; eapply back_lits; eauto|]. cbv beta. intros ms s1 P1 F.
      eapply rp_conseq; [apply (rp_pbc c r ms cs (map (bestFit sg) ls)); [eapply pstep_wf; eauto|auto|rewrite (Forall2_length _ _ _ F), map_length; auto]|].
      intros g s2 _ Dg. exists (pb_tree c r (map (bestFit sg) ls) cs). split; auto. intros b. rewrite (pb_tree_equiv _ _ _ _ b). reflexivity. }
    destruct k; exact G.
Qed.
End Sub.

(** C66: in every history, SubstituteLiterals returns a formula equivalent to the original with every literal replaced by its best fit; the formulas of the
    factory stay as they are. *)
Theorem C66_literals : forall ok cv s H sb sg f t,
  history ok cv s H -> litSubst_of s sb sg -> Reads s f t ->
  exists g s' u, returns (fun n => substituteLiterals n sb f) s g s' /\ keeps s s' /\ Reads s' g u /\
    forall b, eval b u = eval b (replaced (bestFit sg) t).
Proof.
  intros ok cv s H sb sg f t Hh Hsb Hr. destruct (history_held _ _ _ _ Hh) as [Hw _]. apply Reads_Den in Hr; auto.
  assert (Hs : forall l k, litDen s l k -> match sb l with Some m => exists q, sg k = Some q /\ litDen s m q | None => sg k = None end).
  { intros l [x p] D. apply LiteralNamePhase_node in D; auto. specialize (Hsb l _ D). destruct (sb l); auto. destruct Hsb as ([y q] & E & Dm). exists (y, q). split; auto. apply LiteralNamePhase_node; auto. }
  destruct (substituteLiterals_ok s sb sg Hw Hs t s f Hw (ext_refl s) Hr) as (n0 & g & s' & Hn & P & u & D & E).
  exists g, s', u. split; [exists n0; exact Hn|]. split; [apply pstep_keeps; auto|]. split; [apply Reads_Den; auto; eapply pstep_wf; eauto|exact E].
Qed.
(** If only variables are mapped, this is the substitution of variables: the result is true under an assignment exactly if the original is true under the
    assignment that gives every variable the value of its image. *)
Lemma replaced_eval h b c : (forall l, eval_lit b (h l) = eval_lit c l) -> forall t, eval b (replaced h t) = eval c t.
Proof.
  intros Hl. induction t using tree_ind'; cbn [replaced eval]; auto.
  - rewrite IHt. auto.
  - induction H; cbn; auto. rewrite H, IHForall. auto.
  - induction H; cbn; auto. rewrite H, IHForall. auto.
  - rewrite IHt1, IHt2. auto.
  - rewrite IHt1, IHt2. auto.
  - f_equal. revert cs. induction ls; intros [|z cs]; cbn; auto. rewrite Hl, IHls. auto.
Qed.
Theorem C66_variables : forall ok cv s H sb sg f t,
  history ok cv s H -> litSubst_of s sb sg -> Reads s f t -> (forall x, sg (x, false) = None) ->
  exists g s' u, returns (fun n => substituteLiterals n sb f) s g s' /\ keeps s s' /\ Reads s' g u /\
    forall b b', (forall x, b' x = match sg (x, true) with Some m => eval_lit b m | None => b x end) -> eval b u = eval b' t.
Proof.
  intros ok cv s H sb sg f t Hh Hsb Hr Hv. destruct (C66_literals ok cv s H sb sg f t Hh Hsb Hr) as (g & s' & u & A & B & C & E). exists g, s', u. repeat (split; auto).
  intros b b' Hb. rewrite E. apply replaced_eval. intros [x [|]]; unfold bestFit; cbn [fst snd].
  - unfold eval_lit at 2. cbn [fst snd]. rewrite Hb. destruct (sg (x, true)); auto.
  - rewrite Hv. unfold eval_lit at 2, opposite. cbn [fst snd negb]. rewrite Hb. destruct (sg (x, true)) as [[y [|]]|]; unfold eval_lit; cbn; auto. rewrite negb_involutive. auto.
Qed.

(** ** Example: with a -> b and ~a -> ~c, the formula ~a | b becomes ~c | b *)
Definition hL : list (list formula -> FactoryApi.call) := [ (fun _ => CVar "a"); (fun _ => CVar "b"); (fun _ => CLit "a" false); (fun _ => CLit "c" false); (fun h => COr (firstn 2 (skipn 1 h))) ]%string.
Definition sbL : litSubstitution := fun l => if feqb l (F SLit 3) then Some (F SLit 5) else if feqb l (F SLit 2) then Some (F SLit 6) else None.
Definition sgL : lit -> option lit := fun l => if lit_eqb l ("a", true)%string then Some ("b", true)%string else if lit_eqb l ("a", false)%string then Some ("c", false)%string else None.
Example literals_example : exists s H f, history anycall false s H /\ litSubst_of s sbL sgL /\ Reads s f (TOr [TLit ("a", false); TLit ("b", true)])%string /\
  match substituteLiterals 9 sbL f s with Some (g, s') => readf 9 s' g = Some (TOr [TLit ("c", false); TLit ("b", true)])%string | None => False end.
Proof.
  exists (fst (world false hL)), (snd (world false hL)), (hd ffalse (snd (world false hL))). assert (Hh : history anycall false (fst (world false hL)) (snd (world false hL))) by (apply world_history; vm_compute; discriminate).
  split; [exact Hh|]. split; [|split; [apply (readf_ok 5); vm_compute; reflexivity|vm_compute; reflexivity]].
  destruct (history_held _ _ _ _ Hh) as [Hw _].
  assert (U : forall l m k, LiteralNamePhase l (fst (world false hL)) = Some k -> LiteralNamePhase m (fst (world false hL)) = Some k -> l = m).
  { intros l m [x p] A B. apply LiteralNamePhase_node in A, B; auto. destruct Hw as [W _]. exact (w_uniq _ W _ _ _ A B). }
  assert (A1 : LiteralNamePhase (F SLit 3) (fst (world false hL)) = Some ("a", true)%string) by (vm_compute; reflexivity).
  assert (A2 : LiteralNamePhase (F SLit 2) (fst (world false hL)) = Some ("a", false)%string) by (vm_compute; reflexivity).
  intros l k E. unfold sbL, sgL. destruct (feqb_spec l (F SLit 3)) as [->|N3].
  - rewrite A1 in E. injection E as <-. exists ("b", true)%string. split; [reflexivity|vm_compute; reflexivity].
  - destruct (feqb_spec l (F SLit 2)) as [->|N2].
    + rewrite A2 in E. injection E as <-. exists ("c", false)%string. split; [reflexivity|vm_compute; reflexivity].
    + destruct (lit_eqb_spec k ("a", true)%string) as [->|_]; [elim N3; exact (U _ _ _ E A1)|]. destruct (lit_eqb_spec k ("a", false)%string) as [->|_]; [elim N2; exact (U _ _ _ E A2)|reflexivity].
Qed.

(** with a -> b alone, ~a | b becomes a tautology: the mapping meets the hypotheses of [C66_variables] *)
Definition sbV : litSubstitution := fun l => if feqb l (F SLit 3) then Some (F SLit 5) else None.
Definition sgV : lit -> option lit := fun l => if lit_eqb l ("a", true)%string then Some ("b", true)%string else None.
Example variables_example : exists s H f, history anycall false s H /\ litSubst_of s sbV sgV /\ (forall x, sgV (x, false) = None) /\ Reads s f (TOr [TLit ("a", false); TLit ("b", true)])%string /\
  match substituteLiterals 9 sbV f s with Some (g, s') => readf 9 s' g = Some TTrue | None => False end.
Proof.
  exists (fst (world false hL)), (snd (world false hL)), (hd ffalse (snd (world false hL))). assert (Hh : history anycall false (fst (world false hL)) (snd (world false hL))) by (apply world_history; vm_compute; discriminate).
  split; [exact Hh|]. split; [|split; [|split; [apply (readf_ok 5); vm_compute; reflexivity|vm_compute; reflexivity]]].
  - destruct (history_held _ _ _ _ Hh) as [Hw _].
    assert (A1 : LiteralNamePhase (F SLit 3) (fst (world false hL)) = Some ("a", true)%string) by (vm_compute; reflexivity).
    intros l k E. unfold sbV, sgV. destruct (feqb_spec l (F SLit 3)) as [->|N3].
    + rewrite A1 in E. injection E as <-. exists ("b", true)%string. split; [reflexivity|vm_compute; reflexivity].
    + destruct (lit_eqb_spec k ("a", true)%string) as [->|_]; [|reflexivity]. elim N3. apply LiteralNamePhase_node in E, A1; auto. destruct Hw as [W _]. exact (w_uniq _ W _ _ _ E A1).
  - intros x. unfold sgV. destruct (lit_eqb_spec (x, false) ("a", true)%string) as [E|_]; [discriminate|reflexivity].
Qed.

Print Assumptions C66_literals.
Print Assumptions C66_variables.
