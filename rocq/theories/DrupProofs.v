(** * The propagation and conflict analysis of the unsat core computation *)
From Coq Require Import List Bool Arith ZArith Lia Permutation.
From Verif Require Import Sat SatInv SatProp Drup.
Import ListNotations.

Lemma xbind_ret : forall {A B} (m : X A) (k : A -> X B) x b z, xbind m k x = RRet b z -> exists a y, m x = RRet a y /\ k a y = RRet b z.
Proof. intros A B m k x b z H; unfold xbind in H; destruct (m x) as [a y| |]; try discriminate; eauto. Qed.
Ltac xb H := let a := fresh "a" in let y := fresh "y" in let E := fresh "E" in apply xbind_ret in H; destruct H as (a & y & E & H).

Fixpoint occL (l : slit) (ls : list slit) : nat := match ls with [] => 0 | m :: r => (if slit_eqb m l then 1 else 0) + occL l r end.
Lemma occL_in : forall l ls, 0 < occL l ls <-> In l ls.
Proof.
  induction ls as [|m r IH]; cbn; [lia|]. destruct (slit_eqb m l) eqn:E.
  - apply slit_eqb_eq in E. split; [auto|lia].
  - apply slit_eqb_neq in E. rewrite Nat.add_0_l, IH. tauto.
Qed.

Definition mark (x : dr) (c : nat) : bool := match nth_error (x_db x) c with Some d => q_mark d | None => false end.
Definition tr (a : nat -> bool) (ls : list slit) : Prop := exists l, In l ls /\ alit a l = true.

Record Inv (act : nat -> bool) (P : nat) (B : list slit) (x : dr) : Prop := {
  i_w : forall c l, occ c (x_wl x l) <= if act c then occL l (firstn 2 (litsOf x c)) else 0;
  i_p : forall c, act c = true -> c < P;
  i_f : forall f, x_fl x f <> 0 <-> In f (x_stack x);
  i_c : x_forced x <= length (x_stack x);
  i_r : forall k f, nth_error (x_stack x) k = Some f ->
          match x_rsn x (fst f) with
          | Some c => c < P /\ ~ In f (firstn k (x_stack x)) /\ exists r, litsOf x c = neg f :: r /\ incl r (firstn k (x_stack x))
          | None => In f B /\ x_forced x <= k
          end }.

Lemma isFalse_t : forall act P B x l, Inv act P B x -> isFalse x l = true <-> In l (x_stack x).
Proof. intros act P B x l I. rewrite <- (i_f _ _ _ _ I). unfold isFalse. destruct (Nat.eqb_spec (x_fl x l) 0); cbn; split; intros; congruence || auto. Qed.
Lemma isFalse_f : forall act P B x l, Inv act P B x -> isFalse x l = false <-> ~ In l (x_stack x).
Proof. intros. rewrite <- (isFalse_t _ _ _ _ _ H). destruct (isFalse x l); split; congruence. Qed.

Lemma neg_fst : forall l, fst (neg l) = fst l. Proof. intros [v b]; reflexivity. Qed.
Lemma same_var : forall l m : slit, fst l = fst m -> l = m \/ l = neg m.
Proof. intros [v b] [w c]; cbn; intros ->. destruct b, c; unfold neg; cbn; auto. Qed.

(** ** Changes to clauses *)
Lemma nth_error_setn : forall {A} (l : list A) i j a, nth_error (setn l i a) j = if (j =? i) && (i <? length l) then Some a else nth_error l j.
Proof.
  induction l as [|y l IH]; intros i j a; cbn.
  - rewrite andb_false_r. destruct j; auto.
  - destruct i, j; cbn; auto. rewrite IH. auto.
Qed.
Lemma litsOf_setLits : forall x c ls d, litsOf (setLits c ls x) d = if (d =? c) && (c <? length (x_db x)) then ls else litsOf x d.
Proof.
  intros x c ls d. unfold setLits. destruct (nth_error (x_db x) c) as [q|] eqn:E.
  - unfold litsOf. cbn [set_db x_db]. rewrite nth_error_setn. destruct (Nat.eqb_spec d c) as [->|]; cbn [andb]; auto.
    assert (L : c < length (x_db x)) by (apply nth_error_Some; congruence). apply Nat.ltb_lt in L. rewrite L. auto.
  - apply nth_error_None in E. replace (c <? length (x_db x)) with false by (symmetry; apply Nat.ltb_ge; auto). rewrite andb_false_r. auto.
Qed.
Lemma litsOf_in : forall x c l r, litsOf x c = l :: r -> c < length (x_db x).
Proof. intros x c l r H. unfold litsOf in H. destruct (nth_error (x_db x) c) eqn:E; [|discriminate]. apply nth_error_Some. congruence. Qed.
Lemma setLits_db : forall x c ls, length (x_db (setLits c ls x)) = length (x_db x).
Proof. intros. unfold setLits. destruct nth_error; auto. cbn. apply setn_length. Qed.
Lemma mark_setLits : forall x c ls d, mark (setLits c ls x) d = mark x d.
Proof.
  intros. unfold mark, setLits. destruct (nth_error (x_db x) c) eqn:E; auto. cbn. rewrite nth_error_setn.
  destruct (Nat.eqb_spec d c) as [->|]; cbn [andb]; auto. destruct (c <? length (x_db x)); auto. rewrite E. auto.
Qed.
Lemma setLits_other : forall x c ls, let y := setLits c ls x in
  x_stack y = x_stack x /\ x_fl y = x_fl x /\ x_rsn y = x_rsn x /\ x_forced y = x_forced x /\ x_proc y = x_proc x /\ x_wl y = x_wl x /\ x_ad y = x_ad x.
Proof. intros. unfold y, setLits. destruct nth_error; cbn; repeat split. Qed.

(** ** The same state up to the order of literals, with a longer stack *)
Record Ext (x y : dr) : Prop := {
  e_len : length (x_db y) = length (x_db x);
  e_lits : forall c, Permutation (litsOf y c) (litsOf x c);
  e_mark : forall c, mark y c = mark x c;
  e_stack : exists e, x_stack y = x_stack x ++ e;
  e_forced : x_forced y = x_forced x;
  e_ad : x_ad y = x_ad x;
  e_rsn : forall f, In f (x_stack x) -> x_rsn y (fst f) = x_rsn x (fst f);
  e_new : forall v, x_rsn y v = x_rsn x v \/ exists f, In f (x_stack y) /\ fst f = v }.
Lemma Ext_refl : forall x, Ext x x.
Proof. intros; split; auto. exists []. rewrite app_nil_r. auto. Qed.
Lemma Ext_trans : forall x y z, Ext x y -> Ext y z -> Ext x z.
Proof.
  intros x y z A C. split.
  - rewrite (e_len _ _ C). apply A.
  - intros c. etransitivity; [apply C|apply A].
  - intros c. rewrite (e_mark _ _ C). apply A.
  - destruct (e_stack _ _ A) as (e & E), (e_stack _ _ C) as (f & F). exists (e ++ f). rewrite F, E, app_assoc. auto.
  - rewrite (e_forced _ _ C). apply A.
  - rewrite (e_ad _ _ C). apply A.
  - intros f F. rewrite (e_rsn _ _ C), (e_rsn _ _ A); auto. destruct (e_stack _ _ A) as (e & ->). apply in_or_app. auto.
  - intros v. destruct (e_new _ _ C v) as [-> |]; auto. destruct (e_new _ _ A v) as [? | (f & F1 & F2)]; auto. right. exists f. split; auto.
    destruct (e_stack _ _ C) as (e & ->). apply in_or_app. auto.
Qed.

Lemma Ext_in : forall x y f, Ext x y -> In f (x_stack x) -> In f (x_stack y).
Proof. intros x y f A H. destruct (e_stack _ _ A) as (e & ->). apply in_or_app; auto. Qed.

(** the result of a conflict *)
Record Conf (act : nat -> bool) (P : nat) (B : list slit) (x y : dr) : Prop := {
  c_len : length (x_db y) = length (x_db x);
  c_lits : forall c, Permutation (litsOf y c) (litsOf x c);
  c_grow : forall c, mark x c = true -> mark y c = true;
  c_stack : x_stack y = firstn (x_forced x) (x_stack x);
  c_forced : x_forced y = x_forced x;
  c_proc : x_proc y = x_forced x;
  c_ad : x_ad y = x_ad x;
  c_rsn : forall f, In f (x_stack x) -> x_rsn y (fst f) = x_rsn x (fst f);
  c_inv : Inv act P [] y;
  c_mark : forall c, mark y c = true -> mark x c = true \/
             (c < P /\ forall l, In l (litsOf y c) -> In (neg l) (firstn (x_forced x) (x_stack x)) -> x_rsn y (fst l) = Some c);
  c_sem : forall a, (forall c, c < P -> mark y c = true -> tr a (litsOf y c)) -> (forall f, In f B -> alit a f = false) -> False }.
Lemma firstn_app_le : forall {A} n (l m : list A), n <= length l -> firstn n (l ++ m) = firstn n l.
Proof. intros. rewrite firstn_app. replace (n - length l) with 0 by lia. cbn. apply app_nil_r. Qed.
Lemma Ext_Conf : forall act P B x y z, x_forced x <= length (x_stack x) -> Ext x y -> Conf act P B y z -> Conf act P B x z.
Proof.
  intros act P B x y z L A C. pose proof (e_forced _ _ A) as F. destruct (e_stack _ _ A) as (e & E).
  assert (K : firstn (x_forced y) (x_stack y) = firstn (x_forced x) (x_stack x)) by (rewrite F, E; apply firstn_app_le; auto).
  split.
  - rewrite (c_len _ _ _ _ _ C). apply A.
  - intros c. etransitivity; [apply C|apply A].
  - intros c M. apply (c_grow _ _ _ _ _ C). rewrite (e_mark _ _ A). auto.
  - rewrite (c_stack _ _ _ _ _ C). auto.
  - rewrite (c_forced _ _ _ _ _ C). auto.
  - rewrite (c_proc _ _ _ _ _ C). auto.
  - rewrite (c_ad _ _ _ _ _ C). apply A.
  - intros f G. rewrite (c_rsn _ _ _ _ _ C), (e_rsn _ _ A); auto. rewrite E. apply in_or_app. auto.
  - apply C.
  - intros c M. destruct (c_mark _ _ _ _ _ C c M) as [H|H]; [left; rewrite <- (e_mark _ _ A); auto|right].
    rewrite K in H. auto.
  - apply C.
Qed.

(** ** Preservation of the invariant *)
Lemma In_firstn : forall {A} n (l : list A) a, In a (firstn n l) -> In a l.
Proof. intros A n l a H. rewrite <- (firstn_skipn n l). apply in_or_app. auto. Qed.
Lemma nth_error_firstn : forall {A} (l : list A) k a n, nth_error l k = Some a -> k < n -> In a (firstn n l).
Proof. induction l as [|y l IH]; intros k a n H L; destruct k, n; cbn in *; try discriminate; try lia; [injection H as ->; auto|]. right. eapply IH; eauto. lia. Qed.
Lemma In_nth : forall {A} (l : list A) n a, In a (firstn n l) -> exists k, k < n /\ nth_error l k = Some a.
Proof.
  induction l as [|y l IH]; intros n a H; destruct n; cbn in H; try contradiction. destruct H as [->|H]; [exists 0; split; [lia|auto]|].
  destruct (IH _ _ H) as (k & L & E). exists (S k). split; [lia|auto].
Qed.

Lemma firstn_S : forall {A} (l : list A) k a, nth_error l k = Some a -> firstn (S k) l = firstn k l ++ [a].
Proof. induction l as [|z s IHs]; intros k a Nk; destruct k; cbn in *; try discriminate; [injection Nk as ->; auto|]. f_equal. apply IHs; auto. Qed.

(** no false literal has its negation false unless both are assumed *)
Lemma Inv_cons : forall act P B x f, Inv act P B x -> In f (x_stack x) -> In (neg f) (x_stack x) -> x_rsn x (fst f) = None.
Proof.
  intros act P B x f I F G. apply In_nth_error in F, G. destruct F as (k & F), G as (j & G).
  pose proof (i_r _ _ _ _ I _ _ F) as H. pose proof (i_r _ _ _ _ I _ _ G) as J. rewrite neg_fst in J.
  destruct (x_rsn x (fst f)) as [c|]; auto. destruct H as (_ & _ & r & H & _), J as (_ & _ & s & J & _). rewrite H, neg_neg in J.
  injection J as J _. exfalso. eapply neg_neq; eauto.
Qed.

Lemma Inv_lits : forall act P B x c ls, Inv act P B x -> c < length (x_db x) ->
  (forall f, In f (x_stack x) -> x_rsn x (fst f) <> Some c) ->
  (forall l, occL l (firstn 2 ls) = occL l (firstn 2 (litsOf x c))) ->
  Inv act P B (setLits c ls x).
Proof.
  intros act P B x c ls I L R O. destruct (setLits_other x c ls) as (E1 & E2 & E3 & E4 & _ & E6 & _). split.
  - intros d l. rewrite E6, litsOf_setLits. destruct (Nat.eqb_spec d c) as [->|]; cbn [andb].
    + replace (c <? length (x_db x)) with true by (symmetry; apply Nat.ltb_lt; auto). rewrite O. apply I.
    + apply I.
  - apply I.
  - intros f. rewrite E1, E2. apply I.
  - rewrite E1, E4. apply I.
  - intros k f H. rewrite E1 in *. rewrite E3, E4. pose proof (i_r _ _ _ _ I _ _ H) as J. destruct (x_rsn x (fst f)) as [d|] eqn:Rf; auto.
    destruct J as (J1 & J2 & r & J3 & J4). split; [auto|split; [auto|]]. exists r. split; auto. rewrite litsOf_setLits.
    destruct (Nat.eqb_spec d c) as [->|]; cbn [andb]; auto. exfalso. eapply (R f); eauto. eapply nth_error_In; eauto.
Qed.
Lemma setLits_Ext : forall x c ls, Permutation ls (litsOf x c) -> Ext x (setLits c ls x).
Proof.
  intros x c ls H. destruct (setLits_other x c ls) as (E1 & E2 & E3 & E4 & _ & E6 & E7). split; auto.
  - apply setLits_db.
  - intros d. rewrite litsOf_setLits. destruct (Nat.eqb_spec d c) as [->|]; cbn [andb]; auto. destruct (c <? _); auto.
  - intros; apply mark_setLits.
  - exists []. rewrite E1, app_nil_r. auto.
  - intros; rewrite E3; auto.
  - intros; rewrite E3; auto.
Qed.

Lemma upd_same : forall {A} (m : nat -> A) i a, upd m i a i = a. Proof. intros; unfold upd; rewrite Nat.eqb_refl; auto. Qed.
Lemma upd_other : forall {A} (m : nat -> A) i j a, j <> i -> upd m i a j = m j.
Proof. intros; unfold upd. destruct (Nat.eqb_spec j i); congruence. Qed.
Lemma Inv_assign : forall act P B x a c r, Inv act P B x -> ~ In a (x_stack x) -> ~ In (neg a) (x_stack x) ->
  litsOf x c = a :: r -> incl r (x_stack x) -> c < P -> Inv act P B (assignLit a (Some c) x).
Proof.
  intros act P B x a c r I Na Nn L R CP. split; cbn.
  - apply I.
  - apply I.
  - intros f. unfold updl. rewrite in_app_iff, <- (i_f _ _ _ _ I). destruct (slit_eqb f (neg a)) eqn:E; cbn.
    + apply slit_eqb_eq in E as ->. split; [auto|discriminate].
    + apply slit_eqb_neq in E. split; [auto|]. intros [H|[H|[]]]; auto; congruence.
  - rewrite app_length. pose proof (i_c _ _ _ _ I). lia.
  - intros k f H. destruct (Nat.lt_ge_cases k (length (x_stack x))) as [K|K].
    + rewrite nth_error_app1 in H by auto. rewrite firstn_app_le by lia.
      assert (F : fst f <> fst a).
      { apply nth_error_In in H. intros F. destruct (same_var _ _ F) as [-> | ->]; auto. }
      rewrite upd_other by auto. exact (i_r _ _ _ _ I _ _ H).
    + rewrite nth_error_app2 in H by auto. destruct (k - length (x_stack x)) as [|j] eqn:J; cbn in H; [|destruct j; discriminate].
      injection H as <-. rewrite neg_fst, upd_same, neg_neg. assert (k = length (x_stack x)) as -> by lia.
      rewrite firstn_app_le, firstn_all by auto. eauto.
Qed.
Lemma assign_Ext : forall x a c, ~ In a (x_stack x) -> ~ In (neg a) (x_stack x) -> Ext x (assignLit a c x).
Proof.
  intros x a c Na Nn. split; cbn; auto; [eauto| |].
  - intros f F. rewrite upd_other; auto. intros G. destruct (same_var _ _ G) as [-> | ->]; auto.
  - intros v. destruct (Nat.eq_dec v (fst a)) as [-> |]; [right; exists (neg a); split; [apply in_or_app; right; left; auto|apply neg_fst]|left; apply upd_other; auto].
Qed.

(** ** Conflict analysis *)
Record SameA (x y : dr) : Prop := {
  s_len : length (x_db y) = length (x_db x);
  s_lits : forall c, litsOf y c = litsOf x c;
  s_grow : forall c, mark x c = true -> mark y c = true;
  s_stack : x_stack y = x_stack x;
  s_forced : x_forced y = x_forced x;
  s_ad : x_ad y = x_ad x;
  s_rsn : x_rsn y = x_rsn x;
  s_wl : forall c l, occ c (x_wl y l) = occ c (x_wl x l) }.
Lemma SameA_refl : forall x, SameA x x. Proof. split; auto. Qed.
Lemma SameA_trans : forall x y z, SameA x y -> SameA y z -> SameA x z.
Proof. intros x y z A C. split; try (intros; etransitivity; [apply C|apply A]; fail). intros c H. apply C, A, H. Qed.

Lemma findC_some : forall c l i j, findC c l i = Some j -> i <= j /\ exists b, nth_error l (j - i) = Some (c, b).
Proof.
  induction l as [|(d, b) l IH]; intros i j H; cbn in H; [discriminate|]. destruct (Nat.eqb_spec d c) as [->|].
  - injection H as <-. split; auto. rewrite Nat.sub_diag. cbn. eauto.
  - destruct (IH _ _ H) as (L & b' & E). split; [lia|]. replace (j - i) with (S (j - S i)) by lia. cbn. eauto.
Qed.
Lemma occ_setn : forall {A} (l : list (nat * A)) i c a b d, nth_error l i = Some (c, a) -> occ d (setn l i (c, b)) = occ d l.
Proof. induction l as [|(e, x) l IH]; intros i c a b d H; destruct i; cbn in *; try discriminate; [injection H as -> ->; auto|]. rewrite (IH _ _ _ _ _ H). auto. Qed.
Lemma markWatch_ok : forall c l x y, markWatch c l x = RRet tt y -> SameA x y /\ x_fl y = x_fl x /\ (forall d, mark y d = mark x d).
Proof.
  intros c l x y H. unfold markWatch in H. destruct (findC c (x_wl x l) 0) as [i|] eqn:E; [|discriminate]. injection H as <-.
  destruct (findC_some _ _ _ _ E) as (_ & b & F). rewrite Nat.sub_0_r in F.
  split; [|split; reflexivity]. split; cbn; auto. intros d m. unfold updl. destruct (slit_eqb m l) eqn:M; auto.
  apply slit_eqb_eq in M as ->. eapply occ_setn; eauto.
Qed.
Lemma markLits_fl : forall ls f g, fold_left (fun f l => updl f l 3) ls f g = if inL g ls then 3 else f g.
Proof.
  induction ls as [|l ls IH]; intros f g; cbn; auto. rewrite IH. unfold updl. destruct (slit_eqb g l), (inL g ls) eqn:E; cbn; rewrite ?E; auto.
Qed.
Lemma markClause_ok : forall c w x y, markClause c w x = RRet tt y ->
  SameA x y /\ mark y c = true /\ (forall d, mark y d = true -> mark x d = true \/ d = c) /\
  let L := if w then litsOf x c else tl (litsOf x c) in
  (w = false \/ 2 <= length (litsOf x c) -> forall f, In f L -> x_fl y f = 3) /\
  (forall f, x_fl y f = x_fl x f \/ (x_fl y f = 3 /\ In f L)).
Proof.
  intros c w x y H. unfold markClause in H. destruct (nth_error (x_db x) c) as [d|] eqn:E; [|discriminate].
  assert (Ld : litsOf x c = q_lits d) by (unfold litsOf; rewrite E; auto). assert (cl : c < length (x_db x)) by (apply nth_error_Some; congruence).
  destruct (q_mark d) eqn:M.
  - injection H as <-. rewrite Ld. split; [split; auto|]. split; [unfold mark; cbn; rewrite E; auto|]. split; [intros; left; auto|].
    cbn. split.
    + intros _ f F. rewrite markLits_fl. rewrite (proj2 (inL_in f _) F). auto.
    + intros f. rewrite markLits_fl. destruct (inL f _) eqn:G; auto. apply inL_in in G. auto.
  - set (x1 := set_db (setn (x_db x) c (Dcl (q_lits d) true)) x) in *.
    assert (N : forall j, nth_error (x_db x1) j = if j =? c then Some (Dcl (q_lits d) true) else nth_error (x_db x) j).
    { intros j. unfold x1; cbn. rewrite nth_error_setn. replace (c <? length (x_db x)) with true by (symmetry; apply Nat.ltb_lt; auto). rewrite andb_true_r. auto. }
    assert (S1 : SameA x x1).
    { split; auto.
      - apply setn_length.
      - intros j. unfold litsOf at 1. rewrite N. destruct (Nat.eqb_spec j c) as [->|]; auto.
      - intros j. unfold mark. rewrite N. destruct (Nat.eqb_spec j c) as [->|]; auto. }
    assert (M1 : mark x1 c = true) by (unfold mark; rewrite N, Nat.eqb_refl; auto).
    assert (M2 : forall j, mark x1 j = true -> mark x j = true \/ j = c).
    { intros j. unfold mark. rewrite N. destruct (Nat.eqb_spec j c) as [->|]; auto. }
    rewrite Ld. destruct (q_lits d) as [|l0 [|l1 r]] eqn:Q.
    + injection H as <-. split; auto. split; auto. split; auto. cbn. split; auto. intros W f F. destruct w; contradiction.
    + injection H as <-. split; auto. split; auto. split; auto. cbn. split; auto. intros W f F. destruct w; [destruct W; [discriminate|lia]|contradiction].
    + xb H. xb H. destruct a, a0. apply markWatch_ok in E0, E1. destruct E0 as (S2 & F2 & K2), E1 as (S3 & F3 & K3). injection H as <-.
      split.
      { eapply SameA_trans; [exact S1|]. eapply SameA_trans; [exact S2|]. eapply SameA_trans; [exact S3|]. split; auto. }
      split; [change (mark y1 c = true); rewrite K3, K2; auto|]. split; [intros j J; apply M2; rewrite <- K2, <- K3; exact J|].
      cbn [markLits set_fl x_fl]. rewrite F3, F2. cbn. split.
      * intros _ f F. rewrite markLits_fl. rewrite (proj2 (inL_in f _) F). auto.
      * intros f. rewrite markLits_fl. destruct (inL f _) eqn:G; auto. apply inL_in in G. auto.
Qed.

Definition RI (P : nat) (B : list slit) (x : dr) : Prop := forall k f, nth_error (x_stack x) k = Some f ->
  match x_rsn x (fst f) with
  | Some c => c < P /\ ~ In f (firstn k (x_stack x)) /\ exists r, litsOf x c = neg f :: r /\ incl r (firstn k (x_stack x))
  | None => In f B /\ x_forced x <= k
  end.
Lemma RI_same : forall P B x y, SameA x y -> RI P B x -> RI P B y.
Proof.
  intros P B x y S R k f H. rewrite (s_stack _ _ S) in *. rewrite (s_rsn _ _ S), (s_forced _ _ S). specialize (R _ _ H).
  destruct (x_rsn x (fst f)); auto. rewrite (s_lits _ _ S). auto.
Qed.
Lemma analyzeStack_ok : forall P B k x y, k <= length (x_stack x) -> RI P B x ->
  (forall f, x_fl x f <> 0 -> In f (firstn k (x_stack x)) \/ In f (firstn (x_forced x) (x_stack x))) ->
  (forall f, In f (firstn (x_forced x) (x_stack x)) -> x_fl x f <> 0) ->
  analyzeStack k x = RRet tt y ->
  SameA x y /\
  (forall f, x_fl y f <> 0 <-> In f (firstn (x_forced x) (x_stack x))) /\
  (forall c, mark y c = true -> mark x c = true \/ exists f, In f (x_stack x) /\ x_rsn x (fst f) = Some c) /\
  (forall a, (forall c, c < P -> mark y c = true -> tr a (litsOf x c)) -> (forall f, In f B -> alit a f = false) ->
     forall f, In f (firstn k (x_stack x)) -> x_fl x f = 3 -> alit a f = false).
Proof.
  induction k as [|k IH]; intros x y Lk R F1 F2 H.
  - injection H as <-. split; [apply SameA_refl|]. split; [|split; [auto|intros; contradiction]].
    intros f. split; auto. intros G. destruct (F1 f G) as [[]|]; auto.
  - cbn [analyzeStack] in H. set (l := nth k (x_stack x) (0, false)) in *.
    assert (Nk : nth_error (x_stack x) k = Some l) by (apply nth_error_nth'; lia).
    assert (Sk : firstn (S k) (x_stack x) = firstn k (x_stack x) ++ [l]).
    { apply firstn_S; auto. }
    xb H. xb H. destruct a, a0. injection E0 as <-. set (y2 := set_fl _ y0) in *.
    (* the marking of the reason *)
    assert (Q : SameA x y0 /\
      (forall d, mark y0 d = true -> mark x d = true \/ x_rsn x (fst l) = Some d) /\
      (forall f, x_fl y0 f = x_fl x f \/ (x_fl y0 f = 3 /\ In f (firstn k (x_stack x)))) /\
      (x_fl x l = 3 -> match x_rsn x (fst l) with Some c => mark y0 c = true /\ (forall f, In f (tl (litsOf x c)) -> x_fl y0 f = 3) | None => True end)).
    { specialize (R _ _ Nk). destruct (Nat.eqb_spec (x_fl x l) 3) as [E3|E3]; [|injection E as <-; split; [apply SameA_refl|]; split; auto; split; auto; congruence].
      destruct (x_rsn x (fst l)) as [c|] eqn:Rl; [|injection E as <-; split; [apply SameA_refl|]; split; auto].
      destruct R as (R1 & R2 & r & R3 & R4). apply markClause_ok in E. destruct E as (S0 & M0 & M1 & E4 & E5). rewrite R3 in *. cbn [tl] in *.
      split; auto. split; [intros d D; destruct (M1 d D) as [? | ->]; auto|]. split; [intros f; destruct (E5 f) as [?|(? & ?)]; auto|].
      intros _. split; auto. }
    destruct Q as (Q1 & Q2 & Q3 & Q4).
    assert (St : x_stack y2 = x_stack x) by (apply Q1). assert (Fo : x_forced y2 = x_forced x) by (apply Q1).
    assert (Q1' : SameA x y2) by (eapply SameA_trans; [exact Q1|split; auto]).
    assert (Fl : forall f, x_fl y2 f = if slit_eqb f l then if k <? x_forced x then 1 else 0 else x_fl y0 f).
    { intros f. unfold y2; cbn. unfold updl. rewrite (s_forced _ _ Q1). auto. }
    apply IH in H; rewrite ?St, ?Fo; auto; [| lia | eapply RI_same; eauto | | ]; cycle 1.
    { intros f G. rewrite Fl in G. destruct (slit_eqb f l) eqn:E1.
      - apply slit_eqb_eq in E1 as ->. destruct (Nat.ltb_spec k (x_forced x)); [|congruence]. right. eapply nth_error_firstn; eauto.
      - destruct (Q3 f) as [G'|(_ & G')]; [|auto]. rewrite G' in G. destruct (F1 f G) as [G1|]; auto. rewrite Sk, in_app_iff in G1. apply slit_eqb_neq in E1.
        destruct G1 as [? | [-> | []]]; auto; congruence. }
    { intros f G. rewrite Fl. destruct (slit_eqb f l) eqn:E1.
      - apply slit_eqb_eq in E1 as ->. destruct (Nat.ltb_spec k (x_forced x)); [discriminate|].
        (* then l occurs twice, which only assumed literals do, and these are behind forced *)
        exfalso. destruct (In_nth _ _ _ G) as (j & Lj & Nj). pose proof (R _ _ Nk) as R0. pose proof (R _ _ Nj) as R1.
        pose proof (nth_error_firstn _ _ _ k Nj ltac:(lia)) as Hj. destruct (x_rsn x (fst l)) as [c|] eqn:Rl; [tauto|lia].
      - destruct (Q3 f) as [->|(-> & _)]; auto. }
    destruct H as (H1 & H2 & H3 & H4). rewrite St, Fo in *.
    split; [eapply SameA_trans; eauto|]. split; auto. split.
    { intros c C. destruct (H3 c C) as [D|(f & D1 & D2)].
      - destruct (Q2 c D) as [|D']; auto. right. exists l. split; auto. eapply nth_error_In; eauto.
      - right. exists f. split; auto. rewrite <- D2. rewrite (s_rsn _ _ Q1'). auto. }
    intros a A1 A2. assert (A1' : forall c, c < P -> mark y c = true -> tr a (litsOf y2 c)) by (intros; rewrite (s_lits _ _ Q1'); auto).
    specialize (H4 a A1' A2).
    assert (Al : x_fl x l = 3 -> alit a l = false).
    { intros E3. specialize (Q4 E3). specialize (R _ _ Nk). destruct (x_rsn x (fst l)) as [c|] eqn:Rl; [|apply A2; tauto].
      destruct R as (R1 & R2 & r & R3 & R4), Q4 as (Q4 & Q5). rewrite R3 in Q5; cbn [tl] in Q5.
      destruct (A1 c R1) as (m & Mi & Mt); [apply (s_grow _ _ H1); exact Q4|]. rewrite R3 in Mi. destruct Mi as [<-|Mi].
      - rewrite alit_neg in Mt. destruct (alit a l); auto; discriminate.
      - exfalso. enough (alit a m = false) by congruence. apply H4; auto. rewrite Fl, (Q5 _ Mi). destruct (slit_eqb m l) eqn:E1; auto.
        apply slit_eqb_eq in E1 as ->. exfalso; auto. }
    intros f G E3. destruct (slit_eqb f l) eqn:E1; [apply slit_eqb_eq in E1 as ->; auto|].
    rewrite Sk, in_app_iff in G. apply slit_eqb_neq in E1. destruct G as [G|[<-|[]]]; [|congruence]. apply H4; auto. rewrite Fl.
    rewrite (proj2 (slit_eqb_neq f l) E1). destruct (Q3 f) as [->|(-> & _)]; auto.
Qed.

Lemma base_cons : forall act P B x l, Inv act P B x -> In l (x_stack x) -> In (neg l) (firstn (x_forced x) (x_stack x)) -> False.
Proof.
  intros act P B x l I H G. destruct (In_nth _ _ _ G) as (k & Lk & Nk). pose proof (In_firstn _ _ _ G) as G'.
  pose proof (Inv_cons _ _ _ _ _ I H G') as R. pose proof (i_r _ _ _ _ I _ _ Nk) as J. rewrite neg_fst, R in J. lia.
Qed.
Lemma nth_error_firstn_inv : forall {A} (l : list A) n k a, nth_error (firstn n l) k = Some a -> k < n /\ nth_error l k = Some a.
Proof. induction l as [|z l IH]; intros n k a H; destruct n, k; cbn in *; try discriminate; [split; [lia|auto]|]. apply IH in H. split; [lia|tauto]. Qed.

Lemma analyzeC_ok : forall act P B c x y, Inv act P B x -> c < P -> 2 <= length (litsOf x c) -> incl (litsOf x c) (x_stack x) ->
  analyzeC c x = RRet tt y -> Conf act P B x y.
Proof.
  intros act P B c x y I CP L2 In0 H. unfold analyzeC in H. xb H. xb H. xb H. destruct a, a1. injection E0 as <- <-. injection H as <-. rename y2 into z.
  apply markClause_ok in E. destruct E as (S0 & M0 & M1 & F3 & F4). cbn [negb] in *. specialize (F3 (or_intror L2)).
  apply (analyzeStack_ok P B) in E1; auto.
  2: { eapply RI_same; eauto. exact (i_r _ _ _ _ I). }
  2: { rewrite (s_stack _ _ S0), firstn_all. intros f F. left. destruct (F4 f) as [G|(_ & G)]; [|auto]. apply (i_f _ _ _ _ I). congruence. }
  2: { rewrite (s_stack _ _ S0). intros f F. apply In_firstn in F. apply (i_f _ _ _ _ I) in F. destruct (F4 f) as [->|(-> & _)]; auto. }
  destruct E1 as (S1 & Z1 & Z2 & Z3). rewrite (s_stack _ _ S0), (s_forced _ _ S0), (s_rsn _ _ S0) in *.
  pose proof (SameA_trans _ _ _ S0 S1) as S2. pose proof (i_c _ _ _ _ I) as Fl.
  assert (St : x_stack z = x_stack x) by apply S2. assert (Fo : x_forced z = x_forced x) by apply S2. assert (Rs : x_rsn z = x_rsn x) by apply S2.
  split; try (cbn; rewrite ?Fo, ?St, ?Rs; auto; fail).
  - apply S2.
  - intros d. change (Permutation (litsOf z d) (litsOf x d)). rewrite (s_lits _ _ S2). auto.
  - apply S2.
  - cbn. apply S2.
  - split; cbn; rewrite ?Fo, ?St, ?Rs.
    + intros d l. change (occ d (x_wl z l) <= if act d then occL l (firstn 2 (litsOf z d)) else 0). rewrite (s_wl _ _ S2), (s_lits _ _ S2). apply I.
    + apply I.
    + exact Z1.
    + rewrite firstn_length. lia.
    + intros k f N. apply nth_error_firstn_inv in N. destruct N as (K & N). pose proof (i_r _ _ _ _ I _ _ N) as J.
      destruct (x_rsn x (fst f)) as [d|]; [|lia]. rewrite firstn_firstn, Nat.min_l by lia.
      change (litsOf (set_proc _ _) d) with (litsOf z d). rewrite (s_lits _ _ S2). auto.
  - intros d M. change (mark z d = true) in M. cbn [set_proc set_stack x_rsn]. rewrite Rs.
    change (litsOf (set_proc _ _) d) with (litsOf z d). rewrite (s_lits _ _ S2).
    destruct (Z2 d M) as [D|(f & D1 & D2)].
    + destruct (M1 d D) as [? | ->]; auto. right. split; auto. intros l Hl Hb. exfalso. eapply base_cons; eauto.
    + right. apply In_nth_error in D1. destruct D1 as (k & Nk). pose proof (i_r _ _ _ _ I _ _ Nk) as J. rewrite D2 in J.
      destruct J as (J1 & _ & r & J2 & J3). split; auto. rewrite J2. intros l [<-|Hl] Hb; [rewrite neg_fst; auto|].
      exfalso. eapply base_cons; eauto. eapply In_firstn. apply J3; auto.
  - intros a A1 A2. destruct (A1 c CP) as (l & Hl & Ht); [apply (s_grow _ _ S1); exact M0|].
    change (In l (litsOf z c)) in Hl. rewrite (s_lits _ _ S2) in Hl. enough (alit a l = false) by congruence.
    apply (Z3 a); auto.
    + intros d D1 D2. rewrite <- (s_lits _ _ S1). apply A1; auto.
    + rewrite firstn_all. auto.
Qed.

(** ** Propagation *)
Lemma occ_swapRemove : forall (l : list (nat * bool)) i c b d, nth_error l i = Some (c, b) -> occ d (swapRemove l i) + (if c =? d then 1 else 0) = occ d l.
Proof.
  intros l i c b d H. unfold swapRemove. destruct (rev l) as [|e r] eqn:E; [apply (f_equal (@rev _)) in E; rewrite rev_involutive in E; subst; destruct i; discriminate|].
  apply (f_equal (@rev _)) in E. rewrite rev_involutive in E. cbn in E. subst l. generalize dependent (rev r). clear r. intros m H. destruct (Nat.lt_ge_cases i (length m)) as [L|L].
  - rewrite nth_error_app1 in H by auto.
    assert (S1 : setn (m ++ [e]) i e = setn m i e ++ [e]).
    { clear H. revert i L. induction m as [|z m IH]; intros i L; destruct i; cbn in *; auto; try lia. f_equal. apply IH. lia. }
    rewrite S1, removelast_last, occ_app. clear S1. revert i L H. induction m as [|(z, y) m IH]; intros i L H; destruct i; cbn in *; try lia.
    + injection H as -> ->. destruct e; cbn. lia.
    + rewrite <- !Nat.add_assoc. f_equal. apply IH; auto. lia.
  - rewrite nth_error_app2 in H by auto. destruct (i - length m) as [|j] eqn:J; cbn in H; [|destruct j; discriminate]. injection H as ->.
    assert (S1 : setn (m ++ [(c, b)]) i (c, b) = m ++ [(c, b)]).
    { assert (i = length m) as -> by lia. clear L J. induction m; cbn; auto. f_equal; auto. }
    rewrite S1, removelast_last, occ_app. cbn. lia.
Qed.

Lemma findFree_some : forall x ls i j, findFree x ls i = Some j -> i <= j < i + length ls /\ isFalse x (nth (j - i) ls (0, false)) = false.
Proof.
  induction ls as [|l ls IH]; intros i j H; cbn in H; [discriminate|]. destruct (isFalse x l) eqn:E.
  - apply IH in H. destruct H as (L & F). split; [cbn; lia|]. replace (j - i) with (S (j - S i)) by lia. auto.
  - injection H as <-. rewrite Nat.sub_diag. cbn. split; [lia|auto].
Qed.
Lemma findFree_none : forall x ls i, findFree x ls i = None -> forall l, In l ls -> isFalse x l = true.
Proof. induction ls as [|l ls IH]; intros i H m []; cbn in H; destruct (isFalse x l) eqn:E; try discriminate; subst; auto. eapply IH; eauto. Qed.
Lemma isFalse_setLits : forall x c ls l, isFalse (setLits c ls x) l = isFalse x l.
Proof. intros. unfold isFalse. destruct (setLits_other x c ls) as (_ & -> & _). auto. Qed.

Lemma visit_ok : forall act P B lit c x v y, Inv act P B x -> In lit (x_stack x) -> In lit (firstn 2 (litsOf x c)) -> c < P -> visit lit c x = RRet v y ->
  match v with
  | VSkip => y = x
  | VMoved m => exists a r, y = setLits c (a :: m :: r) x /\ Permutation (a :: m :: r) (litsOf x c) /\ ~ In m (x_stack x) /\
      (forall f, In f (x_stack x) -> x_rsn x (fst f) <> Some c) /\ c < length (x_db x) /\
      forall l, occL l (firstn 2 (litsOf x c)) = (if slit_eqb a l then 1 else 0) + (if slit_eqb lit l then 1 else 0)
  | VUnit => Inv act P B y /\ Ext x y
  | VConf => Inv act P B y /\ Ext x y /\ 2 <= length (litsOf y c) /\ incl (litsOf y c) (x_stack y)
  end.
Proof.
  intros act P B lit c x v y I Hl H2 CP H. unfold visit in H. destruct (litsOf x c) as [|l0 [|l1 rest]] eqn:L; try discriminate.
  pose proof (litsOf_in _ _ _ _ L) as CL.
  destruct (isFalse x (neg l0)) eqn:N0; [injection H as <- <-; auto|]. destruct (isFalse x (neg l1)) eqn:N1; [injection H as <- <-; auto|]. cbn [orb] in H.
  apply (isFalse_f _ _ _ _ _ I) in N0, N1. cbn in H2. set (a := if slit_eqb l0 lit then l1 else l0) in *.
  assert (Hp : forall r, Permutation (a :: lit :: r) (l0 :: l1 :: r) /\ forall l, occL l (firstn 2 (l0 :: l1 :: rest)) = (if slit_eqb a l then 1 else 0) + (if slit_eqb lit l then 1 else 0)).
  { intros r. unfold a. destruct (slit_eqb l0 lit) eqn:E; cbn.
    - apply slit_eqb_eq in E as <-. split; [apply perm_swap|intros l; lia].
    - apply slit_eqb_neq in E. destruct H2 as [? | [-> | []]]; [congruence|]. split; [apply Permutation_refl|intros l; lia]. }
  assert (Rc : forall f, In f (x_stack x) -> x_rsn x (fst f) <> Some c).
  { intros f F R. pose proof F as F'. apply In_nth_error in F as (k & Nk). pose proof (i_r _ _ _ _ I _ _ Nk) as J. rewrite R in J. destruct J as (_ & _ & r & J & _).
    rewrite L in J. injection J as -> _. rewrite neg_neg in N0. auto. }
  assert (Na : ~ In (neg a) (x_stack x)) by (unfold a; destruct (slit_eqb l0 lit); auto).
  destruct (findFree x rest 0) as [i|] eqn:E.
  - injection H as <- <-. apply findFree_some in E. destruct E as (E1 & E2). rewrite Nat.sub_0_r in E2. apply (isFalse_f _ _ _ _ _ I) in E2.
    exists a, (setn rest i lit). split; [auto|]. split.
    { etransitivity; [|apply (proj1 (Hp rest))]. constructor. clear -E1. destruct E1 as (_ & E1). cbn in E1. revert i E1. induction rest as [|z r IH]; intros i E1; destruct i; cbn in *; try lia.
      - apply perm_swap.
      - etransitivity; [apply perm_swap|]. etransitivity; [|apply perm_swap]. constructor. apply IH. lia. }
    split; auto. split; auto. split; auto. apply (proj2 (Hp [])).
  - set (x1 := setLits c (a :: lit :: rest) x) in *.
    assert (I1 : Inv act P B x1).
    { apply Inv_lits; auto. intros l. rewrite L, (proj2 (Hp [])). cbn. lia. }
    assert (X1 : Ext x x1) by (apply setLits_Ext; rewrite L; apply (proj1 (Hp rest))).
    assert (St : x_stack x1 = x_stack x) by (apply setLits_other).
    assert (Lx : litsOf x1 c = a :: lit :: rest).
    { unfold x1. rewrite litsOf_setLits, Nat.eqb_refl. replace (c <? length (x_db x)) with true by (symmetry; apply Nat.ltb_lt; auto). auto. }
    assert (Ir : incl (lit :: rest) (x_stack x1)).
    { rewrite St. intros l [<-|F]; auto. apply (isFalse_t _ _ _ _ _ I). eapply findFree_none; eauto. }
    destruct (isFalse x1 a) eqn:Fa.
    + injection H as <- <-. split; auto. split; auto. rewrite Lx. split; [cbn; lia|]. apply incl_cons; auto. apply (isFalse_t _ _ _ _ _ I1). auto.
    + injection H as <- <-. apply (isFalse_f _ _ _ _ _ I1) in Fa. rewrite <- St in Na. split.
      * eapply Inv_assign; eauto.
      * eapply Ext_trans; [exact X1|]. apply assign_Ext; auto.
Qed.

Lemma Inv_move : forall act P B x c lit a m r w b, Inv act P B x -> In lit (x_stack x) ->
  ~ In m (x_stack x) -> (forall f, In f (x_stack x) -> x_rsn x (fst f) <> Some c) -> c < length (x_db x) ->
  (forall l, occL l (firstn 2 (litsOf x c)) = (if slit_eqb a l then 1 else 0) + (if slit_eqb lit l then 1 else 0)) ->
  nth_error (x_wl x lit) w = Some (c, b) -> act c = true ->
  let y := setLits c (a :: m :: r) x in
  let y := set_wl (updl (x_wl y) m (x_wl y m ++ [(c, b)])) y in
  Inv act P B (set_wl (updl (x_wl y) lit (swapRemove (x_wl y lit) w)) y).
Proof.
  intros act P B x c lit a m r w b I Hl Nm Rc CL O Nw Ac y0 y. destruct (setLits_other x c (a :: m :: r)) as (E1 & E2 & E3 & E4 & _ & E6 & _). fold y0 in E1, E2, E3, E4, E6.
  assert (Ne : lit <> m) by (intros ->; auto). assert (Tl : (c <? length (x_db x)) = true) by (apply Nat.ltb_lt; auto).
  assert (Ld : forall d, litsOf y0 d = if d =? c then a :: m :: r else litsOf x d) by (intros d; unfold y0; rewrite litsOf_setLits, Tl, andb_true_r; auto).
  split.
  - intros d l. change (litsOf (set_wl _ y) d) with (litsOf y0 d). rewrite Ld.
    unfold y. cbn [set_wl x_wl]. rewrite E6. pose proof (i_w _ _ _ _ I d l) as W. rewrite (updl_other _ _ _ _ Ne).
    unfold updl. destruct (slit_eqb l lit) eqn:L1.
    + apply slit_eqb_eq in L1 as ->. pose proof (occ_swapRemove _ _ _ _ d Nw) as S. rewrite Nat.eqb_sym in S. destruct (Nat.eqb_spec d c) as [->|]; cbn [andb]; [|lia].
      rewrite Ac in *. rewrite O, slit_eqb_refl in W. cbn. lia.
    + destruct (slit_eqb l m) eqn:L2.
      * apply slit_eqb_eq in L2 as ->. rewrite occ_app. cbn [occ]. rewrite (Nat.eqb_sym c d). destruct (Nat.eqb_spec d c) as [->|]; cbn [andb]; [|lia].
        rewrite Ac in *. rewrite O in W. cbn. rewrite slit_eqb_refl. apply slit_eqb_neq in Ne. rewrite Ne in W. lia.
      * destruct (Nat.eqb_spec d c) as [->|]; cbn [andb]; [|auto]. rewrite Ac in *. rewrite O in W. cbn.
        replace (slit_eqb lit l) with false in W; [lia|]. symmetry. apply slit_eqb_neq. apply slit_eqb_neq in L1. congruence.
  - apply I.
  - intros f. cbn. rewrite E1, E2. apply I.
  - cbn. rewrite E1, E4. apply I.
  - intros k f. cbn. rewrite E1, E3, E4. intros H. pose proof (i_r _ _ _ _ I _ _ H) as J. destruct (x_rsn x (fst f)) as [d|] eqn:Rf; auto.
    destruct J as (J1 & J2 & s & J3 & J4). split; [auto|split; [auto|]]. exists s. split; auto. change (litsOf (set_wl _ _) d) with (litsOf y0 d). rewrite Ld.
    destruct (Nat.eqb_spec d c) as [->|]; cbn [andb]; auto. exfalso. eapply (Rc f); eauto. eapply nth_error_In; eauto.
Qed.

Lemma occ_nth : forall {A} (l : list (nat * A)) w c b, nth_error l w = Some (c, b) -> 0 < occ c l.
Proof. intros. apply occ_in. apply nth_error_In in H. apply (in_map fst) in H. auto. Qed.
Lemma watchLoop_ok : forall act P B n check lit wp x w y, Inv act P B x -> In lit (x_stack x) -> watchLoop n check lit wp x = RRet w y ->
  match w with WUnsat => Conf act P B x y | _ => Inv act P B y /\ Ext x y end.
Proof.
  intros act P B. induction n as [|n IH]; intros check lit wp x w y I Hl H; [discriminate|]. cbn in H.
  destruct (nth_error (x_wl x lit) wp) as [(c, b)|] eqn:E; [|injection H as <- <-; split; [auto|apply Ext_refl]].
  destruct (negb (Bool.eqb b check)); [eapply IH; eauto|]. xb H.
  pose proof (i_w _ _ _ _ I c lit) as W. pose proof (occ_nth _ _ _ _ E) as Oc. destruct (act c) eqn:Ac; [|lia].
  pose proof (i_p _ _ _ _ I _ Ac) as CP. assert (H2 : In lit (firstn 2 (litsOf x c))) by (apply occL_in; lia).
  pose proof (visit_ok _ _ _ _ _ _ _ _ I Hl H2 CP E0) as V. destruct a.
  - subst. eapply IH; eauto.
  - destruct V as (a & r & -> & V1 & V2 & V3 & V4 & V5). xb H. xb H. injection E1 as <- <-. injection E2 as <- <-.
    pose proof (Inv_move act P B x c lit a l r wp b I Hl V2 V3 V4 V5 E Ac) as I1. cbn zeta in I1.
    assert (X1 : Ext x (set_wl (updl (x_wl (set_wl (updl (x_wl (setLits c (a :: l :: r) x)) l (x_wl (setLits c (a :: l :: r) x) l ++ [(c, b)])) (setLits c (a :: l :: r) x))) lit
                 (swapRemove (x_wl (set_wl (updl (x_wl (setLits c (a :: l :: r) x)) l (x_wl (setLits c (a :: l :: r) x) l ++ [(c, b)])) (setLits c (a :: l :: r) x)) lit) wp))
                 (set_wl (updl (x_wl (setLits c (a :: l :: r) x)) l (x_wl (setLits c (a :: l :: r) x) l ++ [(c, b)])) (setLits c (a :: l :: r) x)))).
    { eapply Ext_trans; [apply (setLits_Ext _ c (a :: l :: r)); auto|]. split; auto. exists []. cbn. rewrite app_nil_r. auto. }
    apply IH in H; auto.
    + destruct w; [destruct H as (H & H'); split; [auto|eapply Ext_trans; eauto]..|]. eapply Ext_Conf; eauto. apply I.
    + exact (Ext_in _ _ _ X1 Hl).
  - destruct V as (V1 & V2). destruct check.
    + apply IH in H; auto.
      * destruct w; [destruct H as (H & H'); split; [auto|eapply Ext_trans; eauto]..|]. eapply Ext_Conf; eauto. apply I.
      * exact (Ext_in _ _ _ V2 Hl).
    + injection H as <- <-. auto.
  - destruct V as (V1 & V2 & V3 & V4). xb H. destruct a. injection H as <- <-. eapply Ext_Conf; [apply I|exact V2|]. eapply analyzeC_ok; eauto.
Qed.

Lemma Inv_proc : forall act P B n x, Inv act P B x -> Inv act P B (set_proc n x).
Proof. intros act P B n x I. split; apply I. Qed.
Lemma propLoop_ok : forall act P B n check s0 s1 ml mw x r y, Inv act P B x -> propLoop n check s0 s1 ml mw x = RRet r y ->
  if r : bool then Inv act P B y /\ Ext x y /\ x_proc y = length (x_stack y) else Conf act P B x y.
Proof.
  intros act P B. induction n as [|n IH]; intros check s0 s1 ml mw x r y I H; [discriminate|]. cbn [propLoop] in H.
  destruct (nth_error (x_stack x) (if check then s1 else s0)) as [lit|] eqn:E.
  - xb H. apply nth_error_In in E. apply (watchLoop_ok act P B) in E0; auto. destruct a.
    + destruct E0 as (E1 & E2). destruct check; (apply IH in H; auto; destruct r; [destruct H as (H1 & H2 & H3); split; [auto|split; [eapply Ext_trans; eauto|auto]]|eapply Ext_Conf; eauto; apply I]).
    + destruct E0 as (E1 & E2). apply IH in H; auto. destruct r; [destruct H as (H1 & H2 & H3); split; [auto|split; [eapply Ext_trans; eauto|auto]]|eapply Ext_Conf; eauto; apply I].
    + injection H as <- <-. auto.
  - destruct check; [eapply IH; eauto|]. injection H as <- <-. split; [apply Inv_proc; auto|]. split; auto. split; auto. exists []. cbn. rewrite app_nil_r. auto.
Qed.
Lemma propagateD_ok : forall act P B n x r y, Inv act P B x -> propagateD n x = RRet r y ->
  if r : bool then Inv act P B y /\ Ext x y /\ x_proc y = length (x_stack y) else Conf act P B x y.
Proof. intros act P B n x r y I H. unfold propagateD in H. eapply propLoop_ok; eauto. Qed.
