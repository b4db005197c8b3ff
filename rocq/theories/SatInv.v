(** * Invariants of the core solver: definitions and the assignment *)
From Coq Require Import List Bool Arith Lia ZArith Permutation.
From Verif Require Import Sat.
Import ListNotations.

Definition wp {A} (m : S_ A) (s : sat) (Q : A -> sat -> Prop) : Prop := match m s with Ret a s' => Q a s' | Panic => False | Stuck => True end.
Lemma wp_ret : forall A (a : A) s (Q : A -> sat -> Prop), Q a s -> wp (ret a) s Q.
Proof. intros; exact H. Qed.
Lemma wp_bind : forall A B (m : S_ A) (f : A -> S_ B) s Q, wp m s (fun a s' => wp (f a) s' Q) -> wp (bind m f) s Q.
Proof. unfold wp, bind; intros. destruct (m s); auto. Qed.
Lemma wp_mono : forall A (m : S_ A) s (Q Q' : A -> sat -> Prop), wp m s Q -> (forall a s', Q a s' -> Q' a s') -> wp m s Q'.
Proof. unfold wp; intros. destruct (m s); auto. Qed.
Lemma wp_modify : forall f s (Q : unit -> sat -> Prop), Q tt (f s) -> wp (modify f) s Q.
Proof. intros; exact H. Qed.
Lemma wp_gets : forall A (f : sat -> A) s (Q : A -> sat -> Prop), Q (f s) s -> wp (gets f) s Q.
Proof. intros; exact H. Qed.

(** ** Literals *)
Lemma slit_eqb_eq : forall l m, slit_eqb l m = true <-> l = m.
Proof. intros [v a] [w b]; unfold slit_eqb; cbn. rewrite andb_true_iff, Nat.eqb_eq, eqb_true_iff. split; [intros [-> ->] | intros H; inversion H]; auto. Qed.
Lemma slit_eqb_refl : forall l, slit_eqb l l = true. Proof. intros; apply slit_eqb_eq; auto. Qed.
Lemma slit_eqb_neq : forall l m, slit_eqb l m = false <-> l <> m.
Proof. intros; rewrite <- slit_eqb_eq. destruct (slit_eqb l m); split; intros; congruence. Qed.
Lemma slit_dec : forall l m : slit, {l = m} + {l <> m}. Proof. decide equality; [apply bool_dec|apply Nat.eq_dec]. Qed.
Lemma neg_neg : forall l, neg (neg l) = l. Proof. intros [v b]; unfold neg; cbn; rewrite negb_involutive; auto. Qed.
Lemma neg_inj : forall l m, neg l = neg m -> l = m. Proof. intros l m H; rewrite <- (neg_neg l), H, neg_neg; auto. Qed.
Lemma neg_neq : forall l, neg l <> l. Proof. intros [v []]; discriminate. Qed.
Lemma fst_neg : forall l, fst (neg l) = fst l. Proof. auto. Qed.
Lemma same_var : forall l m : slit, fst l = fst m -> l = m \/ l = neg m.
Proof. intros [v a] [w b]; cbn; intros ->. destruct a, b; auto. Qed.
Lemma inL_in : forall x l, inL x l = true <-> In x l.
Proof. induction l; cbn; [split; [discriminate|intros []]|]. rewrite orb_true_iff, IHl, slit_eqb_eq. split; intros [H|H]; auto. Qed.
Lemma inN_in : forall x l, inN x l = true <-> In x l.
Proof. induction l; cbn; [split; [discriminate|intros []]|]. rewrite orb_true_iff, IHl, Nat.eqb_eq. split; intros [H|H]; auto. Qed.
Definition alit (a : nat -> bool) (l : slit) : bool := xorb (a (fst l)) (snd l).
Lemma alit_neg : forall a l, alit a (neg l) = negb (alit a l).
Proof. intros a [v b]; unfold alit, neg; cbn. destruct (a v), b; auto. Qed.

Definition tru (s : sat) (l : slit) : Prop := val s l = Some true.
Definition fls (s : sat) (l : slit) : Prop := val s l = Some false.
Lemma val_neg : forall s l, val s (neg l) = option_map negb (val s l).
Proof. intros s [v b]; unfold val, neg; cbn. destruct (val_ s v) as [x|]; cbn; auto. destruct x, b; auto. Qed.
Lemma tru_neg : forall s l, tru s (neg l) <-> fls s l.
Proof. intros; unfold tru, fls; rewrite val_neg. destruct (val s l) as [[]|]; cbn; split; congruence. Qed.
Lemma fls_neg : forall s l, fls s (neg l) <-> tru s l.
Proof. intros; unfold tru, fls; rewrite val_neg. destruct (val s l) as [[]|]; cbn; split; congruence. Qed.
Lemma tru_fls : forall s l, tru s l -> fls s l -> False. Proof. unfold tru, fls; congruence. Qed.
Lemma isT_tru : forall s l, isT s l = true <-> tru s l.
Proof. unfold isT, tru; intros. destruct (val s l) as [[]|]; split; congruence. Qed.
Lemma isF_fls : forall s l, isF s l = true <-> fls s l.
Proof. unfold isF, fls; intros. destruct (val s l) as [[]|]; split; congruence. Qed.
Lemma val_none : forall s l, val s l = None <-> val_ s (fst l) = None.
Proof. unfold val; intros. destruct (val_ s (fst l)); split; congruence. Qed.

(** ** Lists *)
Lemma filter_le : forall {A} (P Q : A -> bool) l, (forall x, In x l -> P x = true -> Q x = true) -> length (filter P l) <= length (filter Q l).
Proof. induction l; cbn; intros; auto. assert (IH := IHl (fun x I => H x (or_intror I))). destruct (P a) eqn:E; [rewrite (H a (or_introl eq_refl) E); cbn; lia|]. destruct (Q a); cbn; lia. Qed.
Lemma filter_lt : forall {A} (P Q : A -> bool) l x, (forall x, In x l -> P x = true -> Q x = true) -> In x l -> P x = false -> Q x = true -> length (filter P l) < length (filter Q l).
Proof.
  induction l; cbn; intros x H I Px Qx; [tauto|]. assert (H' : forall x, In x l -> P x = true -> Q x = true) by auto.
  destruct I as [->|I]; [rewrite Px, Qx; cbn; pose proof (filter_le P Q l H'); lia|].
  assert (IH := IHl x H' I Px Qx). destruct (P a) eqn:E; [rewrite (H a (or_introl eq_refl) E); cbn; lia|]. destruct (Q a); cbn; lia.
Qed.
Lemma filter_eq : forall {A} (P Q : A -> bool) l, (forall x, In x l -> P x = Q x) -> filter P l = filter Q l.
Proof. induction l; cbn; intros; auto. rewrite (H a); auto. rewrite IHl; auto. Qed.
Lemma filter_perm : forall {A} (P : A -> bool) l m, Permutation l m -> Permutation (filter P l) (filter P m).
Proof. induction 1; cbn; auto; [destruct (P x); auto|destruct (P x), (P y); auto; constructor|econstructor; eauto]. Qed.
Lemma filter_plen : forall {A} (P : A -> bool) l m, Permutation l m -> length (filter P l) = length (filter P m).
Proof. intros; apply Permutation_length, filter_perm; auto. Qed.
Lemma filter_disj : forall {A} (P Q : A -> bool) l, (forall x, In x l -> P x = true -> Q x = true -> False) -> length (filter P l) + length (filter Q l) <= length l.
Proof.
  induction l; cbn; intros; auto. assert (IH := IHl (fun x I => H x (or_intror I))). pose proof (H a (or_introl eq_refl)).
  destruct (P a), (Q a); cbn; try lia.
Qed.
Lemma nth_error_app : forall {A} (l m : list A) i, nth_error (l ++ m) i = if i <? length l then nth_error l i else nth_error m (i - length l).
Proof. intros; destruct (Nat.ltb_spec i (length l)); [apply nth_error_app1|apply nth_error_app2]; auto. Qed.
Lemma In_firstn : forall {A} n (l : list A) x, In x (firstn n l) -> In x l.
Proof. intros; rewrite <- (firstn_skipn n l); apply in_or_app; auto. Qed.
Lemma In_skipn : forall {A} n (l : list A) x, In x (skipn n l) -> In x l.
Proof. intros; rewrite <- (firstn_skipn n l); apply in_or_app; auto. Qed.
Lemma firstn_app_le : forall {A} n (l m : list A), n <= length l -> firstn n (l ++ m) = firstn n l.
Proof. intros. rewrite firstn_app. replace (n - length l) with 0 by lia. cbn; apply app_nil_r. Qed.
Lemma skipn_app_le : forall {A} n (l m : list A), n <= length l -> skipn n (l ++ m) = skipn n l ++ m.
Proof. intros. rewrite skipn_app. replace (n - length l) with 0 by lia. auto. Qed.
Lemma setn_length : forall {A} (l : list A) i a, length (setn l i a) = length l.
Proof. induction l; destruct i; cbn; auto. Qed.
Lemma nth_setn : forall {A} (l : list A) i j a d, i < length l -> nth j (setn l i a) d = if j =? i then a else nth j l d.
Proof. induction l; cbn; [lia|]. intros [|i] [|j] x d H; cbn; auto. apply IHl; lia. Qed.
Lemma nth_split_eq : forall {A} (l : list A) i d, i < length l -> l = firstn i l ++ nth i l d :: skipn (S i) l.
Proof. induction l; cbn; [lia|]. intros [|i] d H; cbn; auto. f_equal; apply IHl; lia. Qed.
Lemma setn_eq : forall {A} (l : list A) i a, i < length l -> setn l i a = firstn i l ++ a :: skipn (S i) l.
Proof. induction l; cbn; [lia|]. intros [|i] x H; cbn; auto. f_equal; apply IHl; lia. Qed.
Lemma list_ext : forall {A} (l m : list A) d, length l = length m -> (forall i, i < length l -> nth i l d = nth i m d) -> l = m.
Proof.
  induction l; destruct m; cbn; intros d L H; try discriminate; auto.
  f_equal; [apply (H 0); lia|]. apply IHl with d; [lia|]. intros i I; apply (H (S i)); lia.
Qed.
Lemma skipn_add : forall {A} m n (l : list A), skipn n (skipn m l) = skipn (m + n) l.
Proof. induction m; cbn; intros; auto. destruct l; auto. apply skipn_nil. Qed.
Lemma skipn_nth : forall {A} i (l : list A) d, i < length l -> skipn i l = nth i l d :: skipn (S i) l.
Proof. induction i; destruct l; cbn; intros; try lia; auto. rewrite (IHi l d); auto; lia. Qed.
(** exchanging two elements is a permutation *)
Lemma swapn_perm : forall l i j, i < length l -> j < length l -> Permutation (swapn l i j) l.
Proof.
  assert (W : forall l i j, i < j -> j < length l -> Permutation (swapn l i j) l).
  { intros l i j H1 H2. set (d := (0, false) : slit).
    assert (E : l = firstn i l ++ nth i l d :: firstn (j - S i) (skipn (S i) l) ++ nth j l d :: skipn (S j) l).
    { rewrite (nth_split_eq l i d) at 1 by lia. f_equal. f_equal.
      rewrite <- (firstn_skipn (j - S i) (skipn (S i) l)) at 1. f_equal.
      rewrite skipn_add. replace (S i + (j - S i)) with j by lia. apply skipn_nth; lia. }
    set (p := firstn i l) in *. set (q := firstn (j - S i) (skipn (S i) l)) in *. set (r := skipn (S j) l) in *. set (a := nth i l d) in *. set (b := nth j l d) in *.
    assert (E2 : swapn l i j = p ++ b :: q ++ a :: r).
    { assert (Lp : length p = i) by (unfold p; rewrite firstn_length; lia).
      assert (Lq : length q = j - S i) by (unfold q; rewrite firstn_length, skipn_length; lia).
      unfold swapn. fold d. fold a b. clearbody a b p q r.
      apply list_ext with d; [rewrite !setn_length, E, !app_length; cbn; rewrite !app_length; cbn; lia|].
      rewrite !setn_length; intros k K. rewrite !nth_setn by (rewrite ?setn_length; lia).
      destruct (Nat.eqb_spec k j); [subst k|destruct (Nat.eqb_spec k i); [subst k|]].
      - rewrite app_nth2 by lia. replace (j - length p) with (S (length q)) by lia. cbn. rewrite app_nth2 by lia. rewrite Nat.sub_diag; auto.
      - rewrite app_nth2 by lia. rewrite Lp, Nat.sub_diag; auto.
      - rewrite E. destruct (Nat.lt_ge_cases k (length p)); [rewrite !app_nth1; auto|].
        rewrite !app_nth2 by lia. destruct (k - length p) as [|x] eqn:X; [lia|]. cbn.
        destruct (Nat.lt_ge_cases x (length q)); [rewrite !app_nth1; auto|]. rewrite !app_nth2 by lia. destruct (x - length q) eqn:Y; [lia|]; auto. }
    rewrite E2. rewrite E. apply Permutation_app_head.
    change (Permutation ([b] ++ q ++ [a] ++ r) ([a] ++ q ++ [b] ++ r)).
    transitivity (q ++ [b] ++ [a] ++ r); [apply Permutation_app_swap_app|]. transitivity (q ++ [a] ++ [b] ++ r).
    - apply Permutation_app_head. apply Permutation_app_swap_app.
    - symmetry; apply Permutation_app_swap_app. }
  intros l i j H1 H2. destruct (lt_eq_lt_dec i j) as [[H|H]|H]; [apply W; auto| |].
  - subst. unfold swapn. assert (E : setn (setn l j (nth j l (0, false))) j (nth j l (0, false)) = l); [|rewrite E; auto].
    apply list_ext with (0, false); rewrite !setn_length; auto. intros k K. rewrite nth_setn by (rewrite setn_length; exact H2). rewrite nth_setn by exact H2. destruct (Nat.eqb_spec k j); subst; auto.
  - assert (E : swapn l i j = swapn l j i); [|rewrite E; apply W; auto].
    unfold swapn. apply list_ext with (0, false); rewrite !setn_length; auto. intros k K. rewrite nth_setn by (rewrite setn_length; exact H2). rewrite nth_setn by exact H1. rewrite nth_setn by (rewrite setn_length; exact H1). rewrite nth_setn by exact H2.
    destruct (Nat.eqb_spec k j), (Nat.eqb_spec k i); auto; lia.
Qed.

(** ** Clauses *)
Definition maxT (d : clause) : nat := length (c_lits d) - c_w d + 1.
Definition csat (a : nat -> bool) (d : clause) : Prop :=
  if c_atm d then length (filter (alit a) (c_lits d)) <= maxT d else exists l, In l (c_lits d) /\ alit a l = true.
(** the literals that trigger a look at the clause *)
Definition wset (d : clause) : list slit := if c_atm d then firstn (c_w d) (c_lits d) else map neg (firstn 2 (c_lits d)).
Definition big (d : clause) : Prop := c_atm d = true \/ 2 < length (c_lits d).
Definition cperm (d e : clause) : Prop := Permutation (c_lits d) (c_lits e) /\ c_atm d = c_atm e /\ c_w d = c_w e /\ c_st d = c_st e.
Lemma cperm_refl : forall d, cperm d d. Proof. repeat split; auto. Qed.
Lemma cperm_sym : forall d e, cperm d e -> cperm e d. Proof. intros d e (A & B & C & D); repeat split; auto. symmetry; auto. Qed.
Lemma cperm_trans : forall d e g, cperm d e -> cperm e g -> cperm d g.
Proof. intros d e g (A & B & C & D) (A' & B' & C' & D'); repeat split; try congruence. etransitivity; eauto. Qed.
Lemma cperm_in : forall d e l, cperm d e -> In l (c_lits d) <-> In l (c_lits e).
Proof. intros d e l (P & _). split; apply Permutation_in; auto. symmetry; auto. Qed.
Lemma cperm_len : forall d e, cperm d e -> length (c_lits d) = length (c_lits e). Proof. intros d e (P & _); apply Permutation_length; auto. Qed.
Lemma cperm_maxT : forall d e, cperm d e -> maxT d = maxT e.
Proof. intros d e P. unfold maxT. rewrite (cperm_len _ _ P). destruct P as (_ & _ & -> & _). auto. Qed.
Lemma cperm_csat : forall a d e, cperm d e -> csat a d -> csat a e.
Proof.
  intros a d e P. unfold csat. rewrite (cperm_maxT _ _ P). pose proof P as (P1 & -> & _). destruct (c_atm e).
  - rewrite (filter_plen _ _ _ P1). auto.
  - intros (l & I & A). exists l; split; auto. apply (cperm_in _ _ l P); auto.
Qed.

Definition att (s : sat) : list nat := clauses s ++ learnts s.
Definition clauseOK (nv : nat) (d : clause) : Prop :=
  NoDup (c_lits d) /\ 2 <= length (c_lits d) /\ (forall l, In l (c_lits d) -> fst l < nv) /\ (c_atm d = true -> 2 <= c_w d <= length (c_lits d) /\ forall l, In l (c_lits d) -> ~ In (neg l) (c_lits d)).
Lemma clauseOK_cperm : forall nv d e, cperm d e -> clauseOK nv d -> clauseOK nv e.
Proof.
  intros nv d e Q (C1 & C2 & C3 & C4). pose proof Q as (Q1 & Q2 & Q3 & _). assert (I := fun l => cperm_in d e l Q). split; [eapply Permutation_NoDup; eauto|].
  rewrite <- (cperm_len _ _ Q), <- Q2, <- Q3. split; auto. split; [intros l X; apply C3, I; auto|]. intros At. destruct (C4 At) as [C5 C6]. split; auto.
  intros l X Y. apply (C6 l); apply I; auto.
Qed.
(** the watch lists *)
Record Wat (s : sat) : Prop := {
  wt_nd : NoDup (att s);
  wt_lt : forall c, In c (att s) -> c < nextc s;
  wt_cl : forall c, In c (att s) -> clauseOK (nvars s) (db s c);
  wt_fw : forall c p, In c (att s) -> big (db s c) -> In p (wset (db s c)) -> exists b, In (c, b) (wat s p);
  wt_fwb : forall c p, In c (att s) -> ~ big (db s c) -> In p (wset (db s c)) -> exists b, In (c, b) (wbin s p);
  wt_bw : forall p c b, In (c, b) (wat s p) -> In c (att s) /\ big (db s c) /\ In p (wset (db s c)) /\ (if c_atm (db s c) then b = None else exists t, b = Some t /\ In t (c_lits (db s c)));
  wt_bwb : forall p c i, In (c, i) (wbin s p) -> In c (att s) /\ ~ big (db s c) /\ In p (wset (db s c)) /\ In i (c_lits (db s c)) /\ i <> neg p;
  wt_once : forall p c, occ c (wat s p) <= 1;
  wt_onceb : forall p c, occ c (wbin s p) <= 1;
  wt_blk : forall c, In c (att s) -> c_atm (db s c) = false -> 2 < length (c_lits (db s c)) ->
           exists p t, In (c, Some t) (wat s p) /\ In (neg p) (firstn 2 (c_lits (db s c))) /\ In t (firstn 2 (c_lits (db s c))) /\ t <> neg p }.
Definition ent (M : (nat -> bool) -> Prop) (d : clause) : Prop := forall a, M a -> csat a d.
(** While the literals of an at-most constraint are made false one by one, [E] has the remaining ones. *)
Definition reasonOK M (E : nat -> slit -> Prop) (s : sat) (pre : list slit) (l : slit) (c : nat) : Prop :=
  let d := db s c in c < nextc s /\ ent M d /\
  if c_atm d then In (neg l) (c_lits d) /\ (forall q, In q (c_lits d) -> In q pre \/ (fls s q /\ lev s q <= lev s l) \/ (E c q /\ lev s l = dl s)) /\ maxT d <= length (filter (fun q => inL q pre) (c_lits d))
  else In l (c_lits d) /\ (forall q, In q (c_lits d) -> q = l \/ In (neg q) pre) /\ (2 < length (c_lits d) -> hd0 (c_lits d) = l) /\ NoDup (c_lits d).
(** the assignment, levels and reasons *)
Record Asg (M : (nat -> bool) -> Prop) (E : nat -> slit -> Prop) (s : sat) : Prop := {
  as_val : forall l, In l (trail s) <-> tru s l;
  as_vars : forall l, In l (trail s) -> fst l < nvars s;
  as_lev : forall l, In l (trail s) -> lev s l <= dl s;
  as_lim : forall k m, nth_error (tlim s) k = Some m -> m <= length (trail s) /\ (forall l, In l (firstn m (trail s)) -> lev s l <= k) /\ (forall l, In l (skipn m (trail s)) -> k < lev s l);
  as_nd : forall i j l, nth_error (trail s) i = Some l -> nth_error (trail s) j = Some l -> 0 < lev s l -> i = j;
  as_rsn : forall pre l post c, trail s = pre ++ l :: post -> rsn s (fst l) = Some c -> reasonOK M E s pre l c;
  as_dec : forall i l, nth_error (trail s) i = Some l -> rsn s (fst l) = None -> 0 < lev s l ->
           nth_error (tlim s) (lev s l - 1) = Some i /\ (lev s l <= length (assumps s) -> In l (assumps s));
  as_ass : forall i l, nth_error (assumps s) i = Some l -> i < dl s -> tru s l /\ lev s l <= S i;
  as_l0 : forall l a, In l (trail s) -> lev s l = 0 -> M a -> alit a l = true;
  as_q : qhead s <= length (trail s) /\ forall l, In l (skipn (qhead s) (trail s)) -> lev s l = dl s }.
(** [t] is the blocker of the entry for clause [c] in the watch list of [q], or watched in [c] *)
Definition blk (s : sat) (q : slit) (c : nat) (t : slit) : Prop := In (c, Some t) (wat s q) \/ In t (firstn 2 (c_lits (db s c))).
(** the entry for clause [c] in the watch list of the assigned literal [q] has been dealt with *)
Definition wok (s : sat) (q : slit) (c : nat) : Prop :=
  let d := db s c in
  if c_atm d then c_w d - 1 <= length (filter (fun l => isF s l && (lev s l <=? lev s q)) (firstn (c_w d) (c_lits d)))
  else exists t, blk s q c t /\ tru s t /\ lev s t <= lev s q.
Definition Proc (s : sat) (E : slit -> nat -> Prop) : Prop :=
  forall q c, In q (firstn (qhead s) (trail s)) -> In c (map fst (wat s q)) \/ In c (map fst (wbin s q)) -> E q c \/ wok s q c.

(** ** Assigning a literal *)
Lemma val_enq : forall l r s m, val (enq l r s) m = if fst m =? fst l then Some (slit_eqb m l) else val s m.
Proof.
  intros l r s m. unfold val; cbn. unfold upd. destruct (Nat.eqb_spec (fst m) (fst l)); auto.
  f_equal. unfold slit_eqb. rewrite e, Nat.eqb_refl. cbn. destruct (snd l), (snd m); auto.
Qed.
Lemma tru_enq : forall l r s m, val s l = None -> tru (enq l r s) m <-> m = l \/ tru s m.
Proof.
  intros l r s m V. unfold tru. rewrite val_enq. destruct (Nat.eqb_spec (fst m) (fst l)).
  - destruct (slit_eqb m l) eqn:E; [apply slit_eqb_eq in E; subst; split; auto|].
    apply slit_eqb_neq in E. split; [discriminate|]. intros [H|H]; [contradiction|]. exfalso. apply val_none in V. unfold val in H. rewrite e, V in H. discriminate.
  - split; auto. intros [->|H]; auto. contradiction.
Qed.
Lemma fls_enq : forall l r s m, val s l = None -> fls (enq l r s) m <-> m = neg l \/ fls s m.
Proof.
  intros. rewrite <- !tru_neg, tru_enq by auto. split; (intros [X|X]; [left|right; auto]); [rewrite <- X, neg_neg|rewrite X, neg_neg]; auto.
Qed.
Lemma lev_enq : forall l r s m, lev (enq l r s) m = if fst m =? fst l then dl s else lev s m.
Proof. auto. Qed.
Lemma val_fst : forall s l m, fst l = fst m -> val s m = None -> val s l = None.
Proof. intros s l m E V. apply val_none. rewrite E. apply val_none; auto. Qed.
Lemma lev_enq_old : forall l r s m, val s l = None -> (tru s m \/ fls s m) -> lev (enq l r s) m = lev s m.
Proof.
  intros. rewrite lev_enq. destruct (Nat.eqb_spec (fst m) (fst l)); auto. exfalso. pose proof (val_fst _ _ _ e H) as N. unfold tru, fls in H0. destruct H0; congruence.
Qed.

Lemma app_cases : forall {A} (a b : list A) (x y : A) c, a ++ [x] = b ++ y :: c -> (a = b /\ x = y /\ c = []) \/ (exists c', c = c' ++ [x] /\ a = b ++ y :: c').
Proof.
  intros A a b x y c H. destruct (rev c) as [|z c'] eqn:E.
  - apply (f_equal (@rev A)) in E. rewrite rev_involutive in E. cbn in E. subst. apply app_inj_tail in H as [-> ->]. auto.
  - apply (f_equal (@rev A)) in E. rewrite rev_involutive in E. cbn in E. subst. right. exists (rev c').
    change (y :: rev c' ++ [z]) with ((y :: rev c') ++ [z]) in H. rewrite app_assoc in H. apply app_inj_tail in H as [-> ->]. auto.
Qed.
(** reasons depend on the clause and the part of the trail before *)
Lemma reasonOK_mono : forall M E E' s s' pre l c, (c < nextc s -> c < nextc s') -> (c < nextc s -> cperm (db s c) (db s' c)) ->
  (c < nextc s -> c_atm (db s c) = false -> 2 < length (c_lits (db s c)) -> hd0 (c_lits (db s c)) = l -> hd0 (c_lits (db s' c)) = l) ->
  (forall q, In q (c_lits (db s c)) -> c_atm (db s c) = true -> In q pre \/ (fls s q /\ lev s q <= lev s l) \/ (E c q /\ lev s l = dl s) -> In q pre \/ (fls s' q /\ lev s' q <= lev s' l) \/ (E' c q /\ lev s' l = dl s')) ->
  reasonOK M E s pre l c -> reasonOK M E' s' pre l c.
Proof.
  intros M E E' s s' pre l c Hn Hd Hh Ht (R1 & R2 & R3). specialize (Hn R1). specialize (Hd R1). unfold reasonOK. split; auto. split.
  { intros a Ma. eapply cperm_csat; eauto. }
  rewrite <- (cperm_maxT _ _ Hd), <- (cperm_len _ _ Hd). pose proof Hd as (P & <- & _). destruct (c_atm (db s c)) eqn:At.
  - destruct R3 as (R3 & R4 & R5). split; [apply (cperm_in _ _ (neg l) Hd); auto|]. split.
    + intros q Iq. apply (cperm_in _ _ q Hd) in Iq. apply Ht; auto.
    + rewrite <- (filter_plen _ _ _ P). auto.
  - destruct R3 as (R3 & R4 & R5 & R6). split; [apply (cperm_in _ _ l Hd); auto|]. split; [|split; [auto|eapply Permutation_NoDup; eauto]].
    intros q Iq. apply R4. apply (cperm_in _ _ q Hd); auto.
Qed.
Lemma enq_asg : forall M E l r s, Asg M E s -> val s l = None -> fst l < nvars s ->
  (forall c, r = Some c -> reasonOK M E (enq l r s) (trail s) l c) ->
  (dl s = 0 -> forall a, M a -> alit a l = true) ->
  (r = None -> 0 < dl s -> nth_error (tlim s) (dl s - 1) = Some (length (trail s)) /\ (dl s <= length (assumps s) -> In l (assumps s))) ->
  Asg M E (enq l r s).
Proof.
  intros M E l r s A V Vl Hr H0 Hd.
  assert (NI : forall m, In m (trail s) -> (fst m =? fst l) = false).
  { intros m I. apply Nat.eqb_neq. intros X. apply (as_val _ _ _ A) in I. pose proof (val_fst _ _ _ X V). unfold tru in I. congruence. }
  assert (LO : forall m, In m (trail s) -> lev (enq l r s) m = lev s m) by (intros m I; rewrite lev_enq, NI; auto).
  assert (Ll : lev (enq l r s) l = dl s) by (rewrite lev_enq, Nat.eqb_refl; auto).
  assert (ND : forall i, nth_error (trail s) i <> Some l).
  { intros i X. apply nth_error_In in X. pose proof (NI _ X). rewrite Nat.eqb_refl in H. discriminate. }
  constructor.
  - intros m. cbn [trail enq with_trail]. rewrite in_app_iff, tru_enq, (as_val _ _ _ A) by auto. cbn. intuition (subst; auto).
  - intros m. cbn. rewrite in_app_iff. intros [I|[<-|[]]]; auto. apply (as_vars _ _ _ A); auto.
  - intros m. change (dl (enq l r s)) with (dl s). cbn [trail enq with_trail]. rewrite in_app_iff. intros [I|[<-|[]]]; [rewrite LO by auto; apply (as_lev _ _ _ A); auto|lia].
  - intros k m X. change (nth_error (tlim s) k = Some m) in X. destruct (as_lim _ _ _ A k m X) as (L1 & L2 & L3).
    assert (k < dl s) by (apply nth_error_Some; congruence). cbn [trail enq with_trail]. rewrite app_length. split; [lia|]. split.
    + intros x I. rewrite firstn_app_le in I by auto. rewrite LO; eauto using In_firstn.
    + intros x I. rewrite skipn_app_le in I by auto. apply in_app_iff in I as [I|[<-|[]]]; [rewrite LO; eauto using In_skipn|lia].
  - intros i j m E1 E2 P. cbn [trail enq with_trail] in E1, E2. rewrite nth_error_app in E1, E2.
    destruct (Nat.ltb_spec i (length (trail s))), (Nat.ltb_spec j (length (trail s))).
    + apply (as_nd _ _ _ A i j m); auto. rewrite LO in P; auto. eapply nth_error_In; eauto.
    + exfalso. destruct (j - length (trail s)) as [|[]]; cbn in E2; try discriminate. inversion E2; subst. eapply ND; eauto.
    + exfalso. destruct (i - length (trail s)) as [|[]]; cbn in E1; try discriminate. inversion E1; subst. eapply ND; eauto.
    + destruct (i - length (trail s)) as [|[]] eqn:I, (j - length (trail s)) as [|[]] eqn:J; cbn in E1, E2; try discriminate. lia.
  - intros pre m post c X Er. cbn [trail enq with_trail] in X. apply app_cases in X as [(<- & <- & ->)|(c' & -> & X)].
    + cbn in Er. unfold upd in Er. rewrite Nat.eqb_refl in Er. auto.
    + assert (I : In m (trail s)) by (rewrite X; apply in_elt).
      cbn in Er. unfold upd in Er. rewrite NI in Er by auto. assert (R := as_rsn _ _ _ A _ _ _ _ X Er). revert R.
      apply reasonOK_mono; auto; try (intros; apply cperm_refl).
      intros q Iq At [Y|[[Y Z]|[Y Z]]]; auto; right.
      * left. split; [apply fls_enq; auto|]. rewrite (LO m) by auto. rewrite lev_enq_old; auto.
      * right. split; auto. rewrite (LO m) by auto. auto.
  - intros i m X Er P. cbn [trail enq with_trail] in X. rewrite nth_error_app in X. destruct (Nat.ltb_spec i (length (trail s))).
    + assert (I := nth_error_In _ _ X). rewrite LO in * by auto. cbn in Er. unfold upd in Er. rewrite NI in Er by auto. apply (as_dec _ _ _ A); auto.
    + destruct (i - length (trail s)) as [|[]] eqn:I; cbn in X; try discriminate. inversion X; subst m. rewrite Ll in *. cbn in Er. unfold upd in Er. rewrite Nat.eqb_refl in Er.
      replace i with (length (trail s)) by lia. apply Hd; auto.
  - intros i m X L. change (dl (enq l r s)) with (dl s) in L. destruct (as_ass _ _ _ A i m X L) as [T Lv]. split; [apply tru_enq; auto|]. rewrite lev_enq_old; auto.
  - intros m a. cbn [trail enq with_trail]. rewrite in_app_iff. intros [I|[<-|[]]] L Ma; [rewrite LO in L by auto; eapply as_l0; eauto|]. apply H0; auto; lia.
  - destruct (as_q _ _ _ A) as [Q1 Q2]. cbn [trail qhead enq with_trail with_lvl with_rsn with_val]. rewrite app_length. split; [lia|]. intros m I. rewrite skipn_app_le in I by auto.
    change (dl (enq l r s)) with (dl s). apply in_app_iff in I as [I|[<-|[]]]; auto. rewrite LO; eauto using In_skipn.
Qed.
Lemma wok_enq : forall s l r q c, val s l = None -> tru s q -> wok s q c -> wok (enq l r s) q c.
Proof.
  intros s l r q c V Tq. unfold wok. change (db (enq l r s)) with (db s). rewrite (lev_enq_old l r s q) by auto. destruct (c_atm (db s c)).
  - intros W. etransitivity; [apply W|]. apply filter_le. intros x Ix P. apply andb_true_iff in P as [P1 P2]. apply isF_fls in P1.
    rewrite andb_true_iff, isF_fls, fls_enq, lev_enq_old by auto. auto.
  - intros (t & It & Tt & L). exists t. rewrite tru_enq, lev_enq_old by auto. auto.
Qed.
Lemma blk_in : forall s q c t, Wat s -> blk s q c t -> In t (c_lits (db s c)).
Proof.
  intros s q c t W [I|I]; [|eapply In_firstn; eauto]. destruct (wt_bw _ W q c (Some t) I) as (_ & _ & _ & H). destruct (c_atm (db s c)); [discriminate|].
  destruct H as (u & X & Y). inversion X; subst; auto.
Qed.
Lemma enq_wat : forall l r s, Wat s -> Wat (enq l r s).
Proof. intros l r s [X1 X2 X3 X4 X5 X6 X7 X8 X9 X10]. constructor; assumption. Qed.
Lemma enq_proc : forall M E l r s X, Asg M E s -> val s l = None -> Proc s X -> Proc (enq l r s) X.
Proof.
  intros M E l r s X A V P q c I W. assert (Iq : In q (firstn (qhead s) (trail s))).
  { cbn in I. rewrite firstn_app_le in I; auto. apply (as_q _ _ _ A). }
  destruct (P q c Iq W); auto. right. apply wok_enq; auto. apply (as_val _ _ _ A). eapply In_firstn; eauto.
Qed.
