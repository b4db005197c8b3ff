(** * Attaching and removing clauses *)
From Coq Require Import List Bool Arith Lia ZArith Permutation.
From Verif Require Import Sat SatInv SatProp SatAna SatMin SatSearch.
Import ListNotations.

Definition lists (cl ln : list nat) (s : sat) : sat := with_clauses cl (with_learnts ln s).
Definition added (d : clause) (s : sat) : sat := with_nextc (S (nextc s)) (with_db (upd (db s) (nextc s) d) s).
Lemma added_old : forall d s c, c <> nextc s -> db (added d s) c = db s c. Proof. intros. cbn. apply upd_other; auto. Qed.
Lemma added_new : forall d s, db (added d s) (nextc s) = d. Proof. intros. cbn. apply upd_same. Qed.
Lemma wat_ext : forall s d cl ln W B (e : slit -> list (nat * option slit)) (eb : slit -> list (nat * slit)),
  Wat s -> clauseOK (nvars s) d -> (forall x, In x (cl ++ ln) <-> In x (att s) \/ x = nextc s) -> NoDup (cl ++ ln) ->
  (forall p, W p = wat s p ++ e p) -> (forall p, B p = wbin s p ++ eb p) ->
  (forall p, e p = [] \/ exists b, e p = [(nextc s, b)] /\ big d /\ In p (wset d) /\ if c_atm d then b = None else exists t, b = Some t /\ In t (c_lits d)) ->
  (forall p, eb p = [] \/ exists b, eb p = [(nextc s, b)] /\ ~ big d /\ In p (wset d) /\ In b (c_lits d) /\ b <> neg p) ->
  (forall p, In p (wset d) -> big d -> e p <> []) -> (forall p, In p (wset d) -> ~ big d -> eb p <> []) ->
  (c_atm d = false -> 2 < length (c_lits d) -> exists p t, In (nextc s, Some t) (e p) /\ In (neg p) (firstn 2 (c_lits d)) /\ In t (firstn 2 (c_lits d)) /\ t <> neg p) ->
  Wat (with_wat W (with_wbin B (lists cl ln (added d s)))).
Proof.
  intros s d cl ln W B e eb [N L C Fw Fwb Bw Bwb O Ob Bk] Cd Ac Nc Ew Eb He Heb Hf Hfb Hbk. set (c := nextc s) in *. set (s' := with_wat W (with_wbin B (lists cl ln (added d s)))).
  assert (Nl : ~ In c (att s)) by (intros X; apply L in X; unfold c in X; lia).
  assert (Old : forall x, In x (att s) -> db s' x = db s x). { intros x I. apply added_old. intros ->. auto. }
  assert (New : db s' c = d) by apply added_new.
  constructor.
  - exact Nc.
  - intros x I. apply Ac in I as [I | ->]; cbn; [apply L in I; lia|unfold c; lia].
  - intros x I. change (nvars s') with (nvars s). apply Ac in I as [I | ->]; [rewrite Old; auto|rewrite New; auto].
  - intros x p I Bx Ip. change (wat s' p) with (W p). rewrite Ew. apply Ac in I as [I | ->].
    + rewrite Old in * by auto. destruct (Fw x p I Bx Ip) as (b & Y). exists b. apply in_or_app; auto.
    + rewrite New in *. destruct (He p) as [Y|(b & Y & _)]; [exfalso; eapply Hf; eauto|]. exists b. rewrite Y. apply in_or_app; right; left; auto.
  - intros x p I Bx Ip. change (wbin s' p) with (B p). rewrite Eb. apply Ac in I as [I | ->].
    + rewrite Old in * by auto. destruct (Fwb x p I Bx Ip) as (b & Y). exists b. apply in_or_app; auto.
    + rewrite New in *. destruct (Heb p) as [Y|(b & Y & _)]; [exfalso; eapply Hfb; eauto|]. exists b. rewrite Y. apply in_or_app; right; left; auto.
  - intros p x b I. change (wat s' p) with (W p) in I. rewrite Ew in I. apply in_app_iff in I as [I|I].
    + destruct (Bw p x b I) as (Y1 & Y2). rewrite Old by auto. split; auto. apply Ac; auto.
    + destruct (He p) as [Y|(b' & Y & Y1 & Y2 & Y3)]; rewrite Y in I; [destruct I|]. destruct I as [I|[]]. inversion I; subst x b'. rewrite New. split; [apply Ac; auto|auto].
  - intros p x b I. change (wbin s' p) with (B p) in I. rewrite Eb in I. apply in_app_iff in I as [I|I].
    + destruct (Bwb p x b I) as (Y1 & Y2). rewrite Old by auto. split; auto. apply Ac; auto.
    + destruct (Heb p) as [Y|(b' & Y & Y1 & Y2 & Y3)]; rewrite Y in I; [destruct I|]. destruct I as [I|[]]. inversion I; subst x b'. rewrite New. split; [apply Ac; auto|auto].
  - intros p x. change (wat s' p) with (W p). rewrite Ew, occ_app. destruct (He p) as [Y|(b' & Y & _)]; rewrite Y; cbn; [pose proof (O p x); lia|]. destruct (Nat.eqb_spec c x); [|pose proof (O p x); lia].
    subst x. rewrite (proj1 (occ_0 c (wat s p))); [lia|]. intros Z. apply map_fst_In in Z as (b & Z). apply Bw in Z. tauto.
  - intros p x. change (wbin s' p) with (B p). rewrite Eb, occ_app. destruct (Heb p) as [Y|(b' & Y & _)]; rewrite Y; cbn; [pose proof (Ob p x); lia|]. destruct (Nat.eqb_spec c x); [|pose proof (Ob p x); lia].
    subst x. rewrite (proj1 (occ_0 c (wbin s p))); [lia|]. intros Z. apply map_fst_In in Z as (b & Z). apply Bwb in Z. tauto.
  - intros x I. apply Ac in I as [I | ->].
    + rewrite Old by auto. intros At Ln. destruct (Bk x I At Ln) as (p & t & Y1 & Y2). exists p, t. split; auto. change (wat s' p) with (W p). rewrite Ew. apply in_or_app; auto.
    + fold c in Hbk. rewrite New. intros At Ln. destruct (Hbk At Ln) as (p & t & Y1 & Y2). exists p, t. split; auto. change (wat s' p) with (W p). rewrite Ew. apply in_or_app; auto.
Qed.
Lemma fold_addW : forall c ws s, NoDup ws -> exists W, fold_left (fun s l => addW l (c, None) s) ws s = with_wat W s /\ forall p, W p = wat s p ++ if inL p ws then [(c, None)] else [].
Proof.
  intros c ws. induction ws as [|x ws IH]; intros s N.
  - exists (wat s). split; [destruct s; auto|]. intros; cbn. rewrite app_nil_r; auto.
  - inversion N; subst. destruct (IH (addW x (c, None) s) H2) as (W & E & Hw). cbn [fold_left]. rewrite E. exists W. split; auto. intros p. rewrite Hw. cbn [addW wat with_wat inL]. destruct (slit_eqb p x) eqn:X.
    + apply slit_eqb_eq in X. subst p. rewrite updl_same. cbn. destruct (inL x ws) eqn:Y; [apply inL_in in Y; contradiction|]. rewrite app_nil_r; auto.
    + apply slit_eqb_neq in X. rewrite updl_other by auto. auto.
Qed.
Lemma attach_ok : forall s d cl ln, Wat s -> clauseOK (nvars s) d -> (forall x, In x (cl ++ ln) <-> In x (att s) \/ x = nextc s) -> NoDup (cl ++ ln) ->
  exists W B, attach (nextc s) (lists cl ln (added d s)) = Ret tt (with_wat W (with_wbin B (lists cl ln (added d s)))) /\ Wat (with_wat W (with_wbin B (lists cl ln (added d s)))) /\
    (forall p c, In c (map fst (W p)) \/ In c (map fst (B p)) -> (In c (map fst (wat s p)) \/ In c (map fst (wbin s p))) \/ (c = nextc s /\ In p (wset d))) /\
    (forall p x, In x (wat s p) -> In x (W p)).
Proof.
  intros s d cl ln Hw Hc Ha Hn. pose proof Hc as (C1 & C2 & C3 & C4). set (s1 := lists cl ln (added d s)).
  assert (Ed : db s1 (nextc s) = d) by apply added_new. unfold attach. rewrite Ed.
  assert (Fin : forall W B e eb, (forall p, W p = wat s p ++ e p) -> (forall p, B p = wbin s p ++ eb p) ->
    (forall p, e p = [] \/ exists b, e p = [(nextc s, b)] /\ big d /\ In p (wset d) /\ if c_atm d then b = None else exists t, b = Some t /\ In t (c_lits d)) ->
    (forall p, eb p = [] \/ exists b, eb p = [(nextc s, b)] /\ ~ big d /\ In p (wset d) /\ In b (c_lits d) /\ b <> neg p) ->
    (forall p c, In c (map fst (W p)) \/ In c (map fst (B p)) -> (In c (map fst (wat s p)) \/ In c (map fst (wbin s p))) \/ (c = nextc s /\ In p (wset d))) /\ (forall p x, In x (wat s p) -> In x (W p))).
  { intros W B e eb E1 E2 H1 H2. split; [|intros p x I; rewrite E1; apply in_or_app; auto]. intros p c [I|I]; [rewrite E1 in I|rewrite E2 in I]; rewrite map_app, in_app_iff in I; (destruct I as [I|I]; [auto|]).
    - destruct (H1 p) as [X|(b & X & _ & Y & _)]; rewrite X in I; [destruct I|]. destruct I as [<-|[]]. auto.
    - destruct (H2 p) as [X|(b & X & _ & Y & _)]; rewrite X in I; [destruct I|]. destruct I as [<-|[]]. auto. }
  destruct (bool_dec (c_atm d) true) as [At|At]; [|apply not_true_is_false in At]; rewrite At.
  - destruct (fold_addW (nextc s) (firstn (c_w d) (c_lits d)) s1) as (W & E & Hp); [apply firstn_NoDup; auto|]. exists W, (wbin s). split; [rewrite E; reflexivity|].
    assert (Bd : big d) by (left; auto). assert (Ws : wset d = firstn (c_w d) (c_lits d)) by (unfold wset; rewrite At; auto).
    assert (H1 : forall p, (if inL p (firstn (c_w d) (c_lits d)) then [(nextc s, @None slit)] else []) = [] \/ exists b : option slit, (if inL p (firstn (c_w d) (c_lits d)) then [(nextc s, @None slit)] else []) = [(nextc s, b)] /\ big d /\ In p (wset d) /\ if c_atm d then b = None else exists t, b = Some t /\ In t (c_lits d)).
    { intros p. destruct (inL p (firstn (c_w d) (c_lits d))) eqn:I; auto. right. exists None. rewrite At, Ws. split; auto. split; auto. split; auto. apply inL_in; auto. }
    assert (H2 : forall p : slit, (@nil (nat * slit)) = [] \/ exists b : slit, [] = [(nextc s, b)] /\ ~ big d /\ In p (wset d) /\ In b (c_lits d) /\ b <> neg p) by (intros; left; auto).
    split.
    + apply (wat_ext s d cl ln W (wbin s) (fun p => if inL p (firstn (c_w d) (c_lits d)) then [(nextc s, None)] else []) (fun _ => [])); auto.
      * intros p; rewrite app_nil_r; auto.
      * intros p I _. rewrite Ws in I. apply inL_in in I. rewrite I. discriminate.
      * congruence.
    + apply (Fin W (wbin s) (fun p => if inL p (firstn (c_w d) (c_lits d)) then [(nextc s, None)] else []) (fun _ => [])); auto. intros p; rewrite app_nil_r; auto.
  - assert (El : exists a b r, c_lits d = a :: b :: r) by (destruct (c_lits d) as [|a [|b r]]; cbn in C2; try lia; eauto). destruct El as (a & b & r & El). rewrite El.
    assert (Nab : a <> b) by (intros ->; rewrite El in C1; inversion C1 as [|? ? Q ?]; apply Q; left; auto).
    assert (Ws : wset d = [neg a; neg b]) by (unfold wset; rewrite At, El; auto). assert (Nn : neg a <> neg b) by (intros X; apply neg_inj in X; auto).
    assert (In2 : forall p, In p [neg a; neg b] -> p = neg a \/ p = neg b) by (intros p [<-|[<-|[]]]; auto).
    cbn [length hd0 hd1 nth]. change (hd0 (a :: b :: r)) with a. change (hd1 (a :: b :: r)) with b. destruct (Nat.eqb_spec (S (S (length r))) 2) as [L|L].
    + assert (r = []) by (destruct r; auto; cbn in L; lia). subst r. assert (Bd : ~ big d) by (intros [X|X]; [congruence|rewrite El in X; cbn in X; lia]).
      set (eb := fun p => if slit_eqb p (neg a) then [(nextc s, b)] else if slit_eqb p (neg b) then [(nextc s, a)] else []).
      set (B := fun p => wbin s p ++ eb p). exists (wat s), (updl (updl (wbin s) (neg a) (wbin s (neg a) ++ [(nextc s, b)])) (neg b) (updl (wbin s) (neg a) (wbin s (neg a) ++ [(nextc s, b)]) (neg b) ++ [(nextc s, a)])). split; [reflexivity|].
      assert (Eb : forall p, updl (updl (wbin s) (neg a) (wbin s (neg a) ++ [(nextc s, b)])) (neg b) (updl (wbin s) (neg a) (wbin s (neg a) ++ [(nextc s, b)]) (neg b) ++ [(nextc s, a)]) p = wbin s p ++ eb p).
      { intros p. unfold eb. destruct (slit_eqb p (neg a)) eqn:X; [apply slit_eqb_eq in X; subst p; rewrite updl_other, updl_same by auto; auto|]. apply slit_eqb_neq in X.
        destruct (slit_eqb p (neg b)) eqn:Y; [apply slit_eqb_eq in Y; subst p; rewrite updl_same, updl_other by auto; auto|]. apply slit_eqb_neq in Y. rewrite !updl_other by auto. rewrite app_nil_r; auto. }
      assert (H1 : forall p : slit, (@nil (nat * option slit)) = [] \/ exists b : option slit, [] = [(nextc s, b)] /\ big d /\ In p (wset d) /\ if c_atm d then b = None else exists t, b = Some t /\ In t (c_lits d)) by (intros; left; auto).
      assert (H2 : forall p : slit, eb p = [] \/ exists i : slit, eb p = [(nextc s, i)] /\ ~ big d /\ In p (wset d) /\ In i (c_lits d) /\ i <> neg p).
      { intros p. unfold eb. rewrite Ws, El. destruct (slit_eqb p (neg a)) eqn:X; [apply slit_eqb_eq in X; subst p; right; exists b; rewrite neg_neg; cbn; auto 10|].
        destruct (slit_eqb p (neg b)) eqn:Y; [apply slit_eqb_eq in Y; subst p; right; exists a; rewrite neg_neg; cbn; auto 10|]. auto. }
      split.
      * eapply (wat_ext s d cl ln _ _ (fun _ => []) eb); auto; try (intros p I X; contradiction); [intros p; rewrite app_nil_r; auto| |intros _ X; exfalso; apply Bd; right; auto].
        intros p I _. rewrite Ws in I. unfold eb. destruct (In2 p I) as [-> | ->]; rewrite slit_eqb_refl; [discriminate|]. destruct (slit_eqb (neg b) (neg a)); discriminate.
      * eapply (Fin _ _ (fun _ => []) eb); auto. intros p; rewrite app_nil_r; auto.
    + assert (Bd : big d) by (right; rewrite El; cbn; lia).
      set (e := fun p => if slit_eqb p (neg a) then [(nextc s, Some b)] else if slit_eqb p (neg b) then [(nextc s, Some a)] else []).
      exists (updl (updl (wat s) (neg a) (wat s (neg a) ++ [(nextc s, Some b)])) (neg b) (updl (wat s) (neg a) (wat s (neg a) ++ [(nextc s, Some b)]) (neg b) ++ [(nextc s, Some a)])), (wbin s). split; [reflexivity|].
      assert (Ew : forall p, updl (updl (wat s) (neg a) (wat s (neg a) ++ [(nextc s, Some b)])) (neg b) (updl (wat s) (neg a) (wat s (neg a) ++ [(nextc s, Some b)]) (neg b) ++ [(nextc s, Some a)]) p = wat s p ++ e p).
      { intros p. unfold e. destruct (slit_eqb p (neg a)) eqn:X; [apply slit_eqb_eq in X; subst p; rewrite updl_other, updl_same by auto; auto|]. apply slit_eqb_neq in X.
        destruct (slit_eqb p (neg b)) eqn:Y; [apply slit_eqb_eq in Y; subst p; rewrite updl_same, updl_other by auto; auto|]. apply slit_eqb_neq in Y. rewrite !updl_other by auto. rewrite app_nil_r; auto. }
      assert (H2 : forall p : slit, (@nil (nat * slit)) = [] \/ exists b : slit, [] = [(nextc s, b)] /\ ~ big d /\ In p (wset d) /\ In b (c_lits d) /\ b <> neg p) by (intros; left; auto).
      assert (H1 : forall p : slit, e p = [] \/ exists b : option slit, e p = [(nextc s, b)] /\ big d /\ In p (wset d) /\ if c_atm d then b = None else exists t, b = Some t /\ In t (c_lits d)).
      { intros p. unfold e. rewrite Ws, At, El. destruct (slit_eqb p (neg a)) eqn:X; [apply slit_eqb_eq in X; subst p; right; exists (Some b); repeat (split; [cbn; auto|]); exists b; cbn; auto|].
        destruct (slit_eqb p (neg b)) eqn:Y; [apply slit_eqb_eq in Y; subst p; right; exists (Some a); repeat (split; [cbn; auto|]); exists a; cbn; auto|]. auto. }
      split.
      * eapply (wat_ext s d cl ln _ _ e (fun _ => [])); auto; try (intros p I X; contradiction); [intros p; rewrite app_nil_r; auto| |intros _ _; exists (neg a), b; unfold e; rewrite slit_eqb_refl, El, neg_neg; cbn; auto 10].
        intros p I _. rewrite Ws in I. unfold e. destruct (In2 p I) as [-> | ->]; rewrite slit_eqb_refl; [discriminate|]. destruct (slit_eqb (neg b) (neg a)); discriminate.
      * eapply (Fin _ _ e (fun _ => [])); auto. intros p; rewrite app_nil_r; auto.
Qed.

(** ** Removing a clause *)
Definition wout {A} (c : nat) (l : list (nat * A)) : list (nat * A) := filter (fun e => negb (fst e =? c)) l.
Lemma wout_in : forall {A} c (l : list (nat * A)) x b, In (x, b) (wout c l) <-> In (x, b) l /\ x <> c.
Proof. intros. unfold wout. rewrite filter_In. cbn. rewrite negb_true_iff, Nat.eqb_neq. tauto. Qed.
Lemma wout_id : forall {A} c (l : list (nat * A)), ~ In c (map fst l) -> wout c l = l.
Proof.
  induction l as [|[d b] l IH]; cbn; intros N; auto. destruct (Nat.eqb_spec d c); [exfalso; auto|]. cbn. f_equal. apply IH. auto.
Qed.
Lemma wout_occ : forall {A} c x (l : list (nat * A)), occ x (wout c l) <= occ x l.
Proof. induction l as [|[d b] l IH]; cbn; auto. fold (@wout A c l). destruct (d =? c); cbn [negb fst occ]; lia. Qed.
Lemma wout_idem : forall {A} c (l : list (nat * A)), wout c (wout c l) = wout c l.
Proof. intros. apply wout_id. intros X. apply map_fst_In in X as (b & X). apply wout_in in X. tauto. Qed.
Lemma remW_ok : forall {A} c (l : list (nat * A)), occ c l <= 1 -> remW c l = Some (wout c l).
Proof. intros. unfold remW. destruct (Nat.leb_spec (occ c l) 1); auto. lia. Qed.
Lemma each_removeWat : forall c ws s, (forall p, occ c (wat s p) <= 1) -> exists W, each ws (fun l => removeWat l c) s = Ret tt (with_wat W s) /\ forall p, W p = if inL p ws then wout c (wat s p) else wat s p.
Proof.
  intros c ws. induction ws as [|x ws IH]; intros s O.
  - exists (wat s). split; [destruct s; auto|]. auto.
  - cbn [each]. unfold bind, removeWat at 1. rewrite remW_ok by auto. destruct (IH (with_wat (updl (wat s) x (wout c (wat s x))) s)) as (W & E & Hw).
    + intros p. cbn. unfold updl. destruct (slit_eqb p x); auto. pose proof (wout_occ c c (wat s x)). pose proof (O x). lia.
    + rewrite E. exists W. split; auto. intros p. rewrite Hw. cbn. unfold updl. destruct (slit_eqb p x) eqn:X; cbn; auto. apply slit_eqb_eq in X. subst. destruct (inL x ws); auto. apply wout_idem.
Qed.
Lemma simpleRemove_ok : forall c cl ln nv s, Wat (with_nvars nv (lists cl ln s)) -> In c (cl ++ ln) ->
  exists W B, simpleRemove c s = Ret tt (with_wat W (with_wbin B s)) /\ (forall p, W p = wout c (wat s p)) /\ (forall p, B p = wout c (wbin s p)) /\
    forall cl' ln' nv', (forall x, In x (cl' ++ ln') <-> In x (cl ++ ln) /\ x <> c) -> NoDup (cl' ++ ln') -> (forall x, In x (cl' ++ ln') -> forall l, In l (c_lits (db s x)) -> fst l < nv') -> Wat (with_nvars nv' (lists cl' ln' (with_wat W (with_wbin B s)))).
Proof.
  intros c cl ln nv s [N L C Fw Fwb Bw Bwb O Ob Bk] Ic.
  change (forall p x, occ x (wat s p) <= 1) in O. change (forall p x, occ x (wbin s p) <= 1) in Ob. change (forall p x b, In (x, b) (wat s p) -> In x (cl ++ ln) /\ big (db s x) /\ In p (wset (db s x)) /\ (if c_atm (db s x) then b = None else exists t, b = Some t /\ In t (c_lits (db s x)))) in Bw.
  change (forall p x b, In (x, b) (wbin s p) -> In x (cl ++ ln) /\ ~ big (db s x) /\ In p (wset (db s x)) /\ In b (c_lits (db s x)) /\ b <> neg p) in Bwb.
  change (forall x p, In x (cl ++ ln) -> big (db s x) -> In p (wset (db s x)) -> exists b, In (x, b) (wat s p)) in Fw. change (forall x p, In x (cl ++ ln) -> ~ big (db s x) -> In p (wset (db s x)) -> exists b, In (x, b) (wbin s p)) in Fwb.
  change (forall x, In x (cl ++ ln) -> clauseOK nv (db s x)) in C. change (forall x, In x (cl ++ ln) -> x < nextc s) in L.
  assert (Main : exists W B, simpleRemove c s = Ret tt (with_wat W (with_wbin B s)) /\ (forall p, W p = wout c (wat s p)) /\ (forall p, B p = wout c (wbin s p))).
  { unfold simpleRemove. destruct (C c Ic) as (C1 & C2 & C3 & C4).
    assert (Nw : forall p, ~ big (db s c) \/ ~ In p (wset (db s c)) -> wout c (wat s p) = wat s p). { intros p H. apply wout_id. intros X. apply map_fst_In in X as (b & X). apply Bw in X. tauto. }
    assert (Nb : forall p, big (db s c) \/ ~ In p (wset (db s c)) -> wout c (wbin s p) = wbin s p). { intros p H. apply wout_id. intros X. apply map_fst_In in X as (b & X). apply Bwb in X. tauto. }
    destruct (c_atm (db s c)) eqn:At.
    - destruct (each_removeWat c (firstn (c_w (db s c)) (c_lits (db s c))) s) as (W & E & Hw); auto. exists W, (wbin s). split; [rewrite E; destruct s; auto|]. split.
      + intros p. rewrite Hw. destruct (inL p (firstn (c_w (db s c)) (c_lits (db s c)))) eqn:I; auto. symmetry. apply Nw. right. unfold wset. rewrite At. intros X. apply inL_in in X. congruence.
      + intros p. symmetry. apply Nb. left; left; auto.
    - assert (El : exists a b r, c_lits (db s c) = a :: b :: r) by (destruct (c_lits (db s c)) as [|a [|b r]]; cbn in C2; try lia; eauto). destruct El as (a & b & r & El). rewrite El in *.
      change (hd0 (a :: b :: r)) with a. change (hd1 (a :: b :: r)) with b.
      assert (Ws : wset (db s c) = [neg a; neg b]) by (unfold wset; rewrite At, El; auto).
      destruct (Nat.eqb_spec (length (a :: b :: r)) 2) as [Lr|Lr].
      + assert (Bd : ~ big (db s c)) by (intros [X|X]; [congruence|rewrite El in X; lia]).
        unfold bind, removeBin. rewrite remW_ok by auto. cbn [wbin with_wbin]. rewrite remW_ok by (unfold updl; destruct (slit_eqb (neg b) (neg a)); auto; pose proof (wout_occ c c (wbin s (neg a))); pose proof (Ob (neg a) c); lia).
        exists (wat s), (updl (updl (wbin s) (neg a) (wout c (wbin s (neg a)))) (neg b) (wout c (updl (wbin s) (neg a) (wout c (wbin s (neg a))) (neg b)))). split; [reflexivity|]. split; [intros p; symmetry; apply Nw; auto|]. intros p. unfold updl. destruct (slit_eqb p (neg b)) eqn:X.
        * apply slit_eqb_eq in X. subst p. destruct (slit_eqb (neg b) (neg a)) eqn:Y; [apply slit_eqb_eq in Y; rewrite Y; apply wout_idem|auto].
        * destruct (slit_eqb p (neg a)) eqn:Y; [apply slit_eqb_eq in Y; subst; auto|]. symmetry. apply Nb. right. rewrite Ws. apply slit_eqb_neq in X, Y. cbn. intros [Z|[Z|[]]]; congruence.
      + assert (Bd : big (db s c)) by (right; rewrite El; cbn in *; lia).
        unfold bind, removeWat. rewrite remW_ok by auto. cbn [wat with_wat]. rewrite remW_ok by (unfold updl; destruct (slit_eqb (neg b) (neg a)); auto; pose proof (wout_occ c c (wat s (neg a))); pose proof (O (neg a) c); lia).
        exists (updl (updl (wat s) (neg a) (wout c (wat s (neg a)))) (neg b) (wout c (updl (wat s) (neg a) (wout c (wat s (neg a))) (neg b)))), (wbin s). split; [reflexivity|]. split; [|intros p; symmetry; apply Nb; auto]. intros p. unfold updl. destruct (slit_eqb p (neg b)) eqn:X.
        * apply slit_eqb_eq in X. subst p. destruct (slit_eqb (neg b) (neg a)) eqn:Y; [apply slit_eqb_eq in Y; rewrite Y; apply wout_idem|auto].
        * destruct (slit_eqb p (neg a)) eqn:Y; [apply slit_eqb_eq in Y; subst; auto|]. symmetry. apply Nw. right. rewrite Ws. apply slit_eqb_neq in X, Y. cbn. intros [Z|[Z|[]]]; congruence. }
  destruct Main as (W & B & E & Hw & Hb). exists W, B. split; auto. split; auto. split; auto. intros cl' ln' nv' Ha Hn Hv. constructor.
  - exact Hn.
  - intros x I. apply L. apply Ha; auto.
  - intros x I. destruct (C x) as (C1 & C2 & C3 & C4); [apply Ha; auto|]. split; [exact C1|]. split; [exact C2|]. split; [|exact C4]. apply Hv; auto.
  - intros x p I Bx Ip. apply Ha in I as [I Nx]. destruct (Fw x p I Bx Ip) as (b & Y). exists b. change (In (x, b) (W p)). rewrite Hw. apply wout_in. auto.
  - intros x p I Bx Ip. apply Ha in I as [I Nx]. destruct (Fwb x p I Bx Ip) as (b & Y). exists b. change (In (x, b) (B p)). rewrite Hb. apply wout_in. auto.
  - intros p x b I. change (In (x, b) (W p)) in I. rewrite Hw in I. apply wout_in in I as [I Nx]. destruct (Bw p x b I) as [X Y]. split; [apply Ha; auto|exact Y].
  - intros p x b I. change (In (x, b) (B p)) in I. rewrite Hb in I. apply wout_in in I as [I Nx]. destruct (Bwb p x b I) as [X Y]. split; [apply Ha; auto|exact Y].
  - intros p x. change (occ x (W p) <= 1). rewrite Hw. pose proof (wout_occ c x (wat s p)). pose proof (O p x). lia.
  - intros p x. change (occ x (B p) <= 1). rewrite Hb. pose proof (wout_occ c x (wbin s p)). pose proof (Ob p x). lia.
  - intros x I At Ln. apply Ha in I as [I Nx]. destruct (Bk x I At Ln) as (p & t & Y1 & Y2). exists p, t. split; [|exact Y2]. change (In (x, Some t) (W p)). rewrite Hw. apply wout_in. auto.
Qed.
