(** * The forward and backward passes of the unsat core computation *)
From Coq Require Import List Bool Arith ZArith Lia Permutation.
From Verif Require Import Sat SatInv SatProp Drup DrupProofs.
Import ListNotations.

Definition gstk (gs : list (slit * nat)) (x : dr) : Prop := x_stack x = map fst gs /\ forall f c, In (f, c) gs -> x_rsn x (fst f) = Some c.
Definition satD (D : nat -> list slit) (i : nat) (gs : list (slit * nat)) : Prop := exists l, In l (D i) /\ In (neg l) (map fst gs).
Definition freeD (D : nat -> list slit) (i : nat) (gs : list (slit * nat)) : list slit := filter (fun l => negb (inL l (map fst gs))) (D i).
Definition addA (D : nat -> list slit) (act : nat -> bool) (i : nat) : nat -> bool := if 2 <=? length (D i) then upd act i true else act.
Definition isDel (e : option (nat * bool)) : bool := match e with Some (_, b) => b | None => false end.

Inductive LemStep (D : nat -> list slit) (i : nat) (gs : list (slit * nat)) (s : list nat) : option (nat * bool) -> list (slit * nat) -> list nat -> Prop :=
| LSat : satD D i gs -> LemStep D i gs s None gs (i :: s)
| LMany : forall e, ~ satD D i gs -> 2 <= length (freeD D i gs) -> LemStep D i gs s (Some e) gs s
| LUnit : forall e a t, ~ satD D i gs -> freeD D i gs = [a] -> Forall (fun p => snd p < S i) t -> LemStep D i gs s (Some e) (gs ++ (neg a, i) :: t) s.
(** what the forward pass has done up to a place of adlist and a lemma *)
Inductive Hist (D : nat -> list slit) (ad : list (option (nat * bool))) (first k0 : nat) : nat -> nat -> list (slit * nat) -> (nat -> bool) -> list nat -> Prop :=
| HStart : forall gs act, Forall (fun p => snd p < first) gs -> (forall c, act c = true -> c < first) -> Hist D ad first k0 k0 first gs act []
| HSkip : forall k i gs act s c, Hist D ad first k0 k i gs act s -> nth_error ad k = Some (Some (c, true)) -> length (D c) < 2 \/ (exists f, In (f, c) gs) ->
    Hist D ad first k0 (S k) i gs act s
| HDel : forall k i gs act s c, Hist D ad first k0 k i gs act s -> nth_error ad k = Some (Some (c, true)) -> act c = true -> Hist D ad first k0 (S k) i gs (upd act c false) s
| HLem : forall k i gs act s e gs' s', Hist D ad first k0 k i gs act s -> nth_error ad k = Some e -> isDel e = false -> LemStep D i gs s e gs' s' ->
    Hist D ad first k0 (S k) (S i) gs' (addA D act i) s'.

Lemma Hist_ad : forall D ad ad' first k0 k i gs act s, Hist D ad first k0 k i gs act s -> (forall j, j < k -> nth_error ad' j = nth_error ad j) -> Hist D ad' first k0 k i gs act s.
Proof.
  intros D ad ad' first k0 k i gs act s H. induction H; intros A.
  - constructor; auto.
  - econstructor; [apply IHHist; intros; apply A; lia| |eauto]. rewrite A by lia. eauto.
  - econstructor; [apply IHHist; intros; apply A; lia| |eauto]. rewrite A by lia. eauto.
  - econstructor; [apply IHHist; intros; apply A; lia| |eauto|eauto]. rewrite A by lia. eauto.
Qed.
Lemma Forall_lt : forall (gs : list (slit * nat)) i j, Forall (fun p => snd p < i) gs -> i <= j -> Forall (fun p => snd p < j) gs.
Proof. intros gs i j H L. eapply Forall_impl; [|exact H]. cbn; intros; lia. Qed.
Lemma Hist_lt : forall D ad first k0 k i gs act s, Hist D ad first k0 k i gs act s ->
  first <= i /\ Forall (fun p => snd p < i) gs /\ (forall c, act c = true -> c < i) /\
  (forall j, In j s -> j < i /\ exists l c, In l (D j) /\ In (neg l, c) gs /\ c < j).
Proof.
  intros D ad first k0 k i gs act s H. induction H as [| | |k i gs act s e gs' s' H IH N Nd L].
  - split; auto. split; auto. split; auto. intros j [].
  - auto.
  - destruct IHHist as (A0 & A1 & A2 & A3). split; auto. split; auto. split; auto. intros d. unfold upd. destruct (Nat.eqb_spec d c); [discriminate|auto].
  - destruct IH as (A0 & A1 & A2 & A3). split; [lia|].
    assert (A2' : forall c, addA D act i c = true -> c < S i).
    { intros c. unfold addA. destruct (2 <=? length (D i)); [unfold upd; destruct (Nat.eqb_spec c i); [lia|]|]; intros Hc; apply A2 in Hc; lia. }
    destruct L as [Sa|e' Ns L2|e' a t Ns Fr Ft].
    + split; [eapply Forall_lt; eauto|]. split; auto. intros j [<-|J]; [|destruct (A3 j J) as (? & ?); split; [lia|auto]].
      split; [lia|]. destruct Sa as (l & L1 & L2). apply in_map_iff in L2 as ((f, c) & L2 & L3). cbn in L2. subst f. exists l, c. split; auto. split; auto.
      rewrite Forall_forall in A1. apply (A1 _ L3).
    + split; [eapply Forall_lt; eauto|]. split; auto. intros j J. destruct (A3 j J) as (? & ?). split; [lia|auto].
    + split; [apply Forall_app; split; [eapply Forall_lt; eauto|constructor; [cbn; lia|auto]]|]. split; auto. intros j J. destruct (A3 j J) as (J1 & l & c & J2 & J3 & J4).
      split; [lia|]. exists l, c. split; auto. split; auto. apply in_or_app; auto.
Qed.

(** ** Watches *)
Lemma slit_eqb_sym : forall l m, slit_eqb l m = slit_eqb m l.
Proof. intros [v b] [w c]. unfold slit_eqb; cbn. rewrite Nat.eqb_sym. destruct b, c; auto. Qed.
Lemma Inv_ext : forall act act' P B x, (forall c, act c = act' c) -> Inv act P B x -> Inv act' P B x.
Proof. intros act act' P B x E I. split; try apply I; intros; rewrite <- ?E in *; apply I; auto. Qed.
Lemma Inv_P : forall act P P' B x, P <= P' -> Inv act P B x -> Inv act P' B x.
Proof.
  intros act P P' B x L I. split; try apply I.
  - intros c Hc. apply I in Hc. lia.
  - intros k f N. pose proof (i_r _ _ _ _ I _ _ N) as J. destruct (x_rsn x (fst f)); auto. destruct J as (J & ?). split; [lia|auto].
Qed.
Lemma removeWatch_ok : forall c l x y, removeWatch c l x = RRet tt y -> exists W, y = set_wl W x /\
  (forall d m, occ d (W m) + (if slit_eqb m l && (c =? d) then 1 else 0) = occ d (x_wl x m)).
Proof.
  intros c l x y H. unfold removeWatch in H. destruct (findC c (x_wl x l) 0) as [i|] eqn:E; [|discriminate]. injection H as <-.
  destruct (findC_some _ _ _ _ E) as (_ & b & F). rewrite Nat.sub_0_r in F. eexists. split; [reflexivity|]. intros d m. unfold updl.
  destruct (slit_eqb m l) eqn:M; cbn [andb]; [|lia]. apply slit_eqb_eq in M as ->. eapply occ_swapRemove; eauto.
Qed.
Lemma getLits_ok : forall c x ls y, getLits c x = RRet ls y -> y = x /\ ls = litsOf x c /\ c < length (x_db x).
Proof. intros c x ls y H. unfold getLits in H. unfold litsOf. destruct (nth_error (x_db x) c) eqn:E; [|discriminate]. injection H as <- <-. split; auto. split; auto. apply nth_error_Some. congruence. Qed.
Lemma has2_ok : forall c x b y, has2 c x = RRet b y -> y = x /\ b = (2 <=? length (litsOf x c)) /\ c < length (x_db x) /\ litsOf x c <> [].
Proof.
  intros c x b y H. unfold has2 in H. xb H. apply getLits_ok in E. destruct E as (-> & -> & L). destruct (litsOf x c) as [|l0 [|l1 r]]; try discriminate; injection H as <- <-; repeat split; auto; discriminate.
Qed.
Lemma removeWatches_ok : forall act P B c x y, Inv act P B x -> removeWatches c x = RRet tt y -> act c = true /\ Inv (upd act c false) P B y /\ exists W, y = set_wl W x.
Proof.
  intros act P B c x y I H. unfold removeWatches in H. xb H. apply getLits_ok in E. destruct E as (-> & -> & _).
  destruct (litsOf x c) as [|l0 [|l1 r]] eqn:L; try discriminate. xb H. destruct a. apply removeWatch_ok in E, H. destruct E as (W & -> & W1), H as (V & -> & V1).
  cbn [set_wl x_wl] in V1.
  assert (Ac : act c = true).
  { pose proof (i_w _ _ _ _ I c l0) as J. specialize (W1 c l0). rewrite slit_eqb_refl, Nat.eqb_refl in W1. cbn in W1. destruct (act c); auto. lia. }
  split; auto. split; [|exists V; auto]. split; try apply I.
  - intros d l. change (litsOf _ d) with (litsOf x d). cbn [set_wl x_wl]. pose proof (i_w _ _ _ _ I d l) as J. specialize (W1 d l). specialize (V1 d l). unfold upd.
    destruct (Nat.eqb_spec d c) as [->|Ne].
    + rewrite Ac, L in J. cbn in J. rewrite Nat.eqb_refl, andb_true_r in *.
      rewrite (slit_eqb_sym l0 l), (slit_eqb_sym l1 l) in J. destruct (slit_eqb l l0), (slit_eqb l l1); lia.
    + assert (c =? d = false) as Ne' by (apply Nat.eqb_neq; auto). rewrite Ne', andb_false_r in *. lia.
  - intros d. unfold upd. destruct (Nat.eqb_spec d c); [discriminate|]. apply I.
Qed.
Lemma addWatches_ok : forall act P B c x y, Inv act P B x -> act c = false -> c < P -> addWatches c x = RRet tt y -> Inv (upd act c true) P B y /\ exists W, y = set_wl W x.
Proof.
  intros act P B c x y I Ac CP H. unfold addWatches in H. xb H. apply getLits_ok in E. destruct E as (-> & -> & _).
  destruct (litsOf x c) as [|l0 [|l1 r]] eqn:L; try discriminate. xb H. injection E as <- <-. injection H as <-. split; [|eexists; reflexivity]. split; try apply I.
  - intros d l. change (litsOf _ d) with (litsOf x d). unfold addWatch. cbn [set_wl x_wl].
    pose proof (i_w _ _ _ _ I d l) as J. pose proof (i_w _ _ _ _ I d l1) as J1.
    assert (E : occ d (updl (updl (x_wl x) l0 (x_wl x l0 ++ [(c, false)])) l1 (updl (x_wl x) l0 (x_wl x l0 ++ [(c, false)]) l1 ++ [(c, false)]) l) =
                occ d (x_wl x l) + (if slit_eqb l0 l && (c =? d) then 1 else 0) + (if slit_eqb l1 l && (c =? d) then 1 else 0)).
    { rewrite (slit_eqb_sym l0 l), (slit_eqb_sym l1 l).
      unfold updl. destruct (slit_eqb l l1) eqn:E1, (slit_eqb l l0) eqn:E0;
        try (apply slit_eqb_eq in E1; subst l1); try (apply slit_eqb_eq in E0; subst l0); rewrite ?slit_eqb_refl, ?E0, ?E1, ?occ_app; cbn; destruct (c =? d); lia. }
    rewrite E. unfold upd. destruct (Nat.eqb_spec d c) as [->|Ne].
    + rewrite Ac in J. rewrite L. cbn. rewrite Nat.eqb_refl, !andb_true_r. lia.
    + assert (c =? d = false) as Ne' by (apply Nat.eqb_neq; auto). rewrite Ne', !andb_false_r. lia.
  - intros d. unfold upd. destruct (Nat.eqb_spec d c); [subst; auto|]. apply I.
Qed.

(** ** The forward pass *)
Definition Perm (D : nat -> list slit) (x : dr) : Prop := forall c, Permutation (litsOf x c) (D c).
Definition K (D : nat -> list slit) (p : nat) (x : dr) : Prop := forall a, (forall c, c < p -> mark x c = true -> tr a (D c)) -> False.
Lemma tr_perm : forall a l m, Permutation l m -> tr a l -> tr a m.
Proof. intros a l m P (f & F & T). exists f. split; auto. eapply Permutation_in; eauto. Qed.

Record FI (D : nat -> list slit) (first k0 k i : nat) (gs : list (slit * nat)) (act : nat -> bool) (s : list nat) (x : dr) : Prop := {
  f_hist : Hist D (x_ad x) first k0 k i gs act s;
  f_gs : gstk gs x;
  f_inv : Inv act i [] x;
  f_perm : Perm D x;
  f_proc : x_proc x = length (x_stack x);
  f_ad : forall j, k <= j -> nth_error (x_ad x) j <> Some None;
  f_mark : forall c, mark x c = false;
  f_rsn : forall v c, x_rsn x v = Some c -> exists f, In (f, c) gs /\ fst f = v }.

Lemma Inv_wl_act : forall act P B x W, Inv act P B x -> (forall c l, occ c (W l) <= if act c then occL l (firstn 2 (litsOf x c)) else 0) -> Inv act P B (set_wl W x).
Proof. intros act P B x W I H. split; try apply I. exact H. Qed.

Lemma adForward_ok : forall D first k0 n k i gs act s x k' y, FI D first k0 k i gs act s x -> adForward n k x = RRet k' y ->
  exists kk act' c, k' = S kk /\ FI D first k0 kk i gs act' s y /\ nth_error (x_ad y) kk = Some (Some (c, false)).
Proof.
  intros D first k0. induction n as [|n IH]; intros k i gs act s x k' y F H; [discriminate|]. cbn in H.
  destruct (nth_error (x_ad x) k) as [[(c, [])|]|] eqn:E; try discriminate.
  - xb H. apply has2_ok in E0. destruct E0 as (-> & -> & CL & _). xb H. destruct a.
    assert (Lc : length (litsOf x c) = length (D c)) by (apply Permutation_length, F). rewrite Lc in *.
    assert (Ad : forall W, (forall j, S k <= j -> nth_error (x_ad (set_wl W x)) j <> Some None)) by (intros W j J; apply (f_ad _ _ _ _ _ _ _ _ _ F); lia).
    assert (F0 : length (D c) < 2 \/ (exists f, In (f, c) gs) -> FI D first k0 (S k) i gs act s x).
    { intros Q. split; try apply F; [eapply HSkip; eauto; apply F|]. intros j J. apply (f_ad _ _ _ _ _ _ _ _ _ F). lia. }
    destruct (Nat.leb_spec 2 (length (D c))) as [L2|L2]; [|injection E0 as <-; eapply IH; [apply F0; auto|eauto]].
    assert (Q : y0 = x /\ (exists f, In (f, c) gs) \/ removeWatches c x = RRet tt y0).
    { destruct (litsOf x c) as [|l0 r] eqn:L; [discriminate|]. destruct (x_rsn x (fst l0)) as [d|] eqn:R; auto. destruct (Nat.eqb_spec d c) as [->|]; auto.
      injection E0 as <-. left. split; auto. destruct (f_rsn _ _ _ _ _ _ _ _ _ F _ _ R) as (f & ? & ?). eauto. }
    destruct Q as [(-> & Q)|Q]; [eapply IH; [apply F0; auto|eauto]|].
    apply (removeWatches_ok _ _ _ _ _ _ (f_inv _ _ _ _ _ _ _ _ _ F)) in Q. destruct Q as (Ac & I1 & W & ->).
    apply (IH (S k) i gs (upd act c false) s (set_wl W x)); auto. destruct F. split; auto. cbn. eapply HDel; eauto.
  - injection H as <- <-. exists k, act, c. auto.
  - exfalso. exact (f_ad _ _ _ _ _ _ _ _ _ F k (Nat.le_refl _) E).
Qed.

Lemma map_nth_seq : forall (ls : list slit), map (fun p => nth p ls (0, false)) (seq 0 (length ls)) = ls.
Proof. induction ls as [|l ls IH]; cbn; auto. rewrite <- seq_shift, map_map. cbn. f_equal. auto. Qed.
Lemma nth_swapn : forall ls j k p, j < length ls -> k <= j -> nth p (swapn ls j k) (0, false) = if p =? k then nth j ls (0, false) else if p =? j then nth k ls (0, false) else nth p ls (0, false).
Proof. intros ls j k p L1 L2. unfold swapn. rewrite nth_setn by (rewrite setn_length; lia). destruct (p =? k); auto. rewrite nth_setn by lia. auto. Qed.
Lemma toFront_ok : forall x n j (ls b : list slit), j + n = length ls -> length b <= j -> (b <> [] -> nth 0 ls (0, false) = hd (0, false) b) ->
  let r := toFront x n j ls b in Permutation (fst r) ls /\ snd r = b ++ filter (fun l => negb (isFalse x l)) (map (fun p => nth p ls (0, false)) (seq j n)) /\
  (snd r <> [] -> nth 0 (fst r) (0, false) = hd (0, false) (snd r)).
Proof.
  intros x. induction n as [|n IH]; intros j ls b Ln Lb Hb; cbn zeta; cbn [toFront seq map filter]; cbv zeta.
  - cbn [fst snd]. rewrite app_nil_r. auto.
  - destruct (isFalse x (nth j ls (0, false))) eqn:E; cbn [negb].
    + apply IH; auto; lia.
    + set (ls' := if length b <=? 1 then swapn ls j (length b) else ls).
      assert (P1 : Permutation ls' ls) by (unfold ls'; destruct (length b <=? 1); auto; apply swapn_perm; lia).
      assert (L1 : length ls' = length ls) by (apply Permutation_length; auto).
      destruct (IH (S j) ls' (b ++ [nth j ls (0, false)])) as (Q1 & Q2 & Q3); [lia|rewrite app_length; cbn; lia| |].
      { intros _. unfold ls'. destruct b as [|b0 b]; cbn [app hd length Nat.leb].
        - rewrite nth_swapn by (cbn in *; lia). auto.
        - pose proof (Hb ltac:(discriminate)) as Hb0. cbn [hd] in Hb0. rewrite <- Hb0. destruct b; cbn [length Nat.leb]; auto. rewrite nth_swapn by (cbn in *; lia). cbn. destruct j; cbn in *; auto. lia. }
      cbn zeta in *. split; [etransitivity; eauto|]. split; auto. rewrite Q2, <- app_assoc. cbn [app]. do 2 f_equal. f_equal. apply map_ext_in. intros p Hp. apply in_seq in Hp.
      unfold ls'. destruct (length b <=? 1); auto. rewrite nth_swapn by lia. destruct (Nat.eqb_spec p (length b)); [lia|]. destruct (Nat.eqb_spec p j); [lia|auto].
Qed.

Lemma Inv_lits0 : forall act P B x c ls, Inv act P B x -> act c = false -> (forall f, In f (x_stack x) -> x_rsn x (fst f) <> Some c) -> Inv act P B (setLits c ls x).
Proof.
  intros act P B x c ls I L R. destruct (setLits_other x c ls) as (E1 & E2 & E3 & E4 & _ & E6 & _). split.
  - intros d l. rewrite E6, litsOf_setLits. pose proof (i_w _ _ _ _ I d l) as W. destruct (Nat.eqb_spec d c) as [->|]; cbn [andb]; auto. rewrite L in *. auto.
  - apply I.
  - intros f. rewrite E1, E2. apply I.
  - rewrite E1, E4. apply I.
  - intros k f H. rewrite E1 in *. rewrite E3, E4. pose proof (i_r _ _ _ _ I _ _ H) as J. destruct (x_rsn x (fst f)) as [d|] eqn:Rf; auto.
    destruct J as (J1 & J2 & r & J3 & J4). split; [auto|split; [auto|]]. exists r. split; auto. rewrite litsOf_setLits.
    destruct (Nat.eqb_spec d c) as [->|]; cbn [andb]; auto. exfalso. eapply (R f); eauto. eapply nth_error_In; eauto.
Qed.
Lemma Inv_forced : forall act P n x, Inv act P [] x -> n <= length (x_stack x) -> Inv act P [] (set_forced n x).
Proof.
  intros act P n x I L. split; try apply I; auto. intros k f N. pose proof (i_r _ _ _ _ I _ _ N) as J. cbn. destruct (x_rsn x (fst f)); [auto|destruct J as ([] & _)].
Qed.
Lemma gstk_in : forall gs x f, gstk gs x -> In f (x_stack x) -> exists c, In (f, c) gs /\ x_rsn x (fst f) = Some c.
Proof. intros gs x f (G1 & G2) F. rewrite G1 in F. apply in_map_iff in F as ((g, c) & <- & F). exists c. split; [auto|apply (G2 _ _ F)]. Qed.
Lemma inL_stack : forall act P B x (gs : list (slit * nat)), Inv act P B x -> x_stack x = map fst gs -> forall l, inL l (map fst gs) = isFalse x l.
Proof. intros act P B x gs I G l. rewrite <- G. apply eq_iff_eq_true. rewrite inL_in, (isFalse_t _ _ _ _ _ I). tauto. Qed.

Record Found (D : nat -> list slit) (first k0 : nat) (e k : nat) (y : dr) : Prop := {
  d_all : exists kk gs act s c a, k = S kk /\ Hist D (x_ad y) first k0 kk e gs act s /\ nth_error (x_ad y) kk = Some (Some (c, false)) /\
    ~ satD D e gs /\ freeD D e gs = [a] /\ gstk gs y /\ Inv (addA D act e) (S e) [] y /\ Perm D y /\
    x_proc y = length (x_stack y) /\ x_forced y = length (x_stack y) /\ (forall j, In j s -> mark y j = false) /\ K D (S e) y }.

Lemma Conf_sats : forall D ad first k0 k i gs act s P B x y act0, Hist D ad first k0 k i gs act s -> Conf act0 P B x y -> Perm D y ->
  incl (map fst gs) (firstn (x_forced x) (x_stack x)) -> (forall f c, In (f, c) gs -> x_rsn y (fst f) = Some c) ->
  (forall j, In j s -> mark x j = false) -> forall j, In j s -> mark y j = false.
Proof.
  intros D ad first k0 k i gs act s P B x y act0 H C Pm G R M j J. destruct (mark y j) eqn:E; auto. exfalso.
  destruct (c_mark _ _ _ _ _ C j E) as [Q|(_ & Q)]; [rewrite M in Q by auto; discriminate|].
  destruct (Hist_lt _ _ _ _ _ _ _ _ _ H) as (_ & _ & _ & Hs). destruct (Hs j J) as (_ & l & c & L1 & L2 & L3).
  specialize (Q l). rewrite <- (neg_fst l), (R _ _ L2) in Q. enough (Some c = Some j) by (injection H0; lia). apply Q.
  - eapply Permutation_in; [symmetry; apply Pm|auto].
  - apply G. apply (in_map fst) in L2. auto.
Qed.

Lemma forward_ok : forall D first k0 n i k gs act s x e k' y, FI D first k0 k i gs act s x -> forward n i k x = RRet (e, k') y -> Found D first k0 e k' y.
Proof.
  intros D first k0. induction n as [|n IH]; intros i k gs act s x e k' y F H; [discriminate|]. cbn [forward] in H.
  xb H. destruct (adForward_ok _ _ _ _ _ _ _ _ _ _ _ _ F E) as (kk & act' & c & -> & F1 & Ad). clear F E act. rename y0 into x1, act' into act. clear k x.
  xb H. apply getLits_ok in E. destruct E as (-> & -> & CL). xb H. injection E as <- <-. xb H. injection E as <- <-. xb H. injection E as <- <-.
  set (tf := toFront x1 (length (litsOf x1 i)) 0 (litsOf x1 i) []) in *.
  destruct (toFront_ok x1 (length (litsOf x1 i)) 0 (litsOf x1 i) [] eq_refl (Nat.le_refl _) ltac:(congruence)) as (T1 & T2 & T3). fold tf in T1, T2, T3.
  rewrite map_nth_seq in T2. cbn [app] in T2.
  destruct F1 as [Fh Fg Fi Fp Fpr Fad Fm Fr]. destruct (Hist_lt _ _ _ _ _ _ _ _ _ Fh) as (H0 & H1 & H2 & H3).
  assert (Ai : act i = false) by (destruct (act i) eqn:Q; auto; apply H2 in Q; lia).
  assert (Ri : forall f, In f (x_stack x1) -> x_rsn x1 (fst f) <> Some i).
  { intros f Hf. destruct (gstk_in _ _ _ Fg Hf) as (d & Hd & ->). rewrite Forall_forall in H1. apply H1 in Hd. cbn in Hd. intros Q. injection Q. lia. }
  set (x2 := setLits i (fst tf) x1) in *.
  assert (I2 : Inv act i [] x2) by (apply Inv_lits0; auto).
  assert (X2 : Ext x1 x2) by (apply setLits_Ext; auto).
  destruct (setLits_other x1 i (fst tf)) as (S1 & S2 & S3 & S4 & S5 & S6 & S7). fold x2 in S1, S2, S3, S4, S5, S6, S7.
  assert (L2 : litsOf x2 i = fst tf).
  { unfold x2. rewrite litsOf_setLits, Nat.eqb_refl. replace (i <? length (x_db x1)) with true by (symmetry; apply Nat.ltb_lt; auto). auto. }
  assert (P2 : Perm D x2) by (intros d; etransitivity; [apply X2|apply Fp]).
  assert (G2 : gstk gs x2) by (split; [rewrite S1|intros; rewrite S3]; apply Fg; auto).
  xb H. apply has2_ok in E. destruct E as (-> & -> & _ & Nil). xb H. destruct a. rename y0 into x3.
  assert (Q3 : Inv (addA D act i) (S i) [] x3 /\ exists W, x3 = set_wl W x2).
  { unfold addA. rewrite <- (Permutation_length (P2 i)). destruct (2 <=? length (litsOf x2 i)).
    - apply (addWatches_ok act (S i) []) in E; auto. eapply Inv_P; [|exact I2]. lia.
    - injection E as <-. split; [eapply Inv_P; [|exact I2]; lia|]. exists (x_wl x2). destruct x2; auto. }
  destruct Q3 as (I3 & W & ->). clear E. set (x3 := set_wl W x2) in *.
  assert (Sat : existsb (fun l => isFalse x1 (neg l)) (litsOf x1 i) = true <-> satD D i gs).
  { rewrite existsb_exists. split.
    - intros (l & A & B). exists l. split; [eapply Permutation_in; [apply Fp|auto]|]. rewrite <- (proj1 Fg). eapply isFalse_t; eauto.
    - intros (l & A & B). exists l. split; [eapply Permutation_in; [symmetry; apply Fp|auto]|]. rewrite <- (proj1 Fg) in B. eapply isFalse_t; eauto. }
  assert (Fre : Permutation (snd tf) (freeD D i gs)).
  { rewrite T2. unfold freeD. etransitivity; [apply filter_perm, (Fp i)|]. erewrite filter_ext; [reflexivity|]. intros l. cbn. f_equal. symmetry. eapply inL_stack; eauto. apply Fg. }
  assert (Ad' : nth_error (x_ad x2) kk = Some (Some (c, false))) by (rewrite S7; auto).
  destruct (existsb (fun l => isFalse x1 (neg l)) (litsOf x1 i)) eqn:Fl.
  - (* satisfied *)
    xb H. injection E as <- <-. eapply IH; [|exact H].
    assert (Kl : kk < length (x_ad x2)) by (apply nth_error_Some; congruence).
    assert (Nn : forall j, nth_error (setn (x_ad x2) kk None) j = if j =? kk then Some None else nth_error (x_ad x2) j).
    { intros j. rewrite nth_error_setn. replace (kk <? length (x_ad x2)) with true by (symmetry; apply Nat.ltb_lt; auto). rewrite andb_true_r. auto. }
    split; try apply I3; try (cbn; replace (kk - 0) with kk by lia).
    + eapply HLem with (e := None); [eapply Hist_ad; [exact Fh|]| | |].
      * intros j J. cbn. rewrite ?Nat.sub_0_r, Nn, S7. destruct (Nat.eqb_spec j kk); [lia|auto].
      * rewrite Nn, Nat.eqb_refl. auto.
      * auto.
      * apply LSat. apply Sat. auto.
    + exact G2.
    + split; apply I3.
    + exact P2.
    + rewrite S5, S1. auto.
    + intros j J. rewrite Nn, S7. destruct (Nat.eqb_spec j kk); [lia|]. apply Fad. lia.
    + intros d. rewrite <- (Fm d). apply (e_mark _ _ X2).
    + intros v d. rewrite S3. apply Fr.
  - assert (Ns : ~ satD D i gs) by (rewrite <- Sat; congruence). clear Sat.
    assert (P3 : Perm D x3) by exact P2. assert (G3 : gstk gs x3) by exact G2. assert (M3 : forall d, mark x3 d = false) by (intros d; rewrite <- (Fm d); apply (e_mark _ _ X2)).
    assert (R3 : forall v d, x_rsn x3 v = Some d -> exists f, In (f, d) gs /\ fst f = v) by (intros v d; cbn; rewrite S3; apply Fr).
    assert (A3 : forall j, kk <= j -> nth_error (x_ad x3) j <> Some None) by (intros; cbn; rewrite S7; auto).
    assert (H3' : Hist D (x_ad x3) first k0 kk i gs act s) by (cbn; rewrite S7; auto).
    assert (Pr3 : x_proc x3 = length (x_stack x3)) by (cbn; rewrite S5, S1; auto). assert (Ad3 : nth_error (x_ad x3) kk = Some (Some (c, false))) by exact Ad'.
    assert (St3 : x_stack x3 = x_stack x1) by exact S1. assert (Li3 : litsOf x3 i = fst tf) by exact L2.
    assert (CL3 : length (x_db x3) = length (x_db x1)) by (apply X2).
    assert (Fl3 : forall l, isFalse x1 l = isFalse x3 l) by (intros l; unfold isFalse; cbn; rewrite S2; auto).
    clearbody x3. clear x2 I2 X2 S1 S2 S3 S4 S5 S6 S7 L2 P2 G2 Nil Ad' W Ri.
    xb H. rename a into rb. destruct (snd tf) as [|a [|b l]] eqn:Tf; [discriminate| |].
    + (* unit *)
      apply Permutation_length_1_inv in Fre. cbn in T3. specialize (T3 ltac:(discriminate)).
      destruct (fst tf) as [|a' r] eqn:Tl; [exfalso; apply Permutation_nil in T1; rewrite T1 in T2; discriminate|].
      cbn in T3. subst a'.
      assert (Ina : In a (D i)) by (apply filter_In with (f := fun l => negb (inL l (map fst gs))); fold (freeD D i gs); rewrite Fre; left; auto).
      assert (Na : ~ In a (x_stack x3)).
      { assert (Q : In a (freeD D i gs)) by (rewrite Fre; left; auto). unfold freeD in Q. apply filter_In in Q as (_ & Q). rewrite (inL_stack _ _ _ _ _ I3 (proj1 G3)) in Q.
        intros Q'. apply (isFalse_t _ _ _ _ _ I3) in Q'. rewrite Q' in Q. discriminate. }
      assert (Nn : ~ In (neg a) (x_stack x3)) by (rewrite (proj1 G3); intros Q; apply Ns; exists a; auto).
      assert (Ir : incl r (x_stack x3)).
      { intros l Hl. apply (isFalse_t _ _ _ _ _ I3). destruct (isFalse x3 l) eqn:Q; auto. exfalso.
        assert (Permutation (filter (fun l => negb (isFalse x3 l)) (a :: r)) [a]) as Q1.
        { rewrite T2. etransitivity; [apply filter_perm, T1|]. erewrite filter_ext; [reflexivity|]. intros z. cbn. rewrite Fl3. auto. }
        cbn in Q1. replace (isFalse x3 a) with false in Q1 by (symmetry; apply (isFalse_f _ _ _ _ _ I3); auto). cbn in Q1. apply Permutation_cons_inv in Q1. apply Permutation_sym, Permutation_nil in Q1.
        assert (In l []) by (rewrite <- Q1; apply filter_In; rewrite Q; auto). contradiction. }
      xb E. injection E0 as <- <-.
      set (x4 := set_forced (x_proc x3) (assignLit a (Some i) x3)) in *.
      assert (I4 : Inv (addA D act i) (S i) [] x4).
      { apply Inv_forced; [eapply Inv_assign; eauto|]. cbn. rewrite app_length, Pr3. lia. }
      assert (X4 : Ext x3 (assignLit a (Some i) x3)) by (apply assign_Ext; auto).
      assert (St4 : x_stack x4 = map fst gs ++ [neg a]) by (cbn; rewrite (proj1 G3); auto).
      assert (Fo4 : x_forced x4 = length (map fst gs)) by (cbn; rewrite Pr3, (proj1 G3); auto).
      assert (R4 : forall f d, In (f, d) (gs ++ [(neg a, i)]) -> x_rsn x4 (fst f) = Some d).
      { intros f d Q. apply in_app_or in Q. destruct Q as [Q|[Q|[]]].
        - change (x_rsn (assignLit a (Some i) x3) (fst f) = Some d). rewrite (e_rsn _ _ X4); [apply (proj2 G3); auto|]. rewrite (proj1 G3). apply (in_map fst) in Q. auto.
        - injection Q as <- <-. cbn. apply upd_same. }
      apply (propagateD_ok _ _ _ _ _ _ _ I4) in E. destruct rb; cbn [negb] in H.
      * destruct E as (I5 & X5 & Pr5). xb H. injection E as <- <-. destruct (_ <=? _) in H; [discriminate|]. destruct (e_stack _ _ X5) as (t & St5).
        set (gt := map (fun f => (f, match x_rsn y0 (fst f) with Some d => d | None => 0 end)) t).
        assert (Gt : map fst gt = t) by (unfold gt; rewrite map_map; cbn; apply map_id).
        assert (Gr : forall f d, In (f, d) gt -> x_rsn y0 (fst f) = Some d /\ d < S i).
        { intros f d Q. unfold gt in Q. apply in_map_iff in Q as (f' & Q & Ft). injection Q as -> <-.
          assert (In f (x_stack y0)) as Fy by (rewrite St5; apply in_or_app; auto). apply In_nth_error in Fy as (j & Nj). pose proof (i_r _ _ _ _ I5 _ _ Nj) as J.
          destruct (x_rsn y0 (fst f)) as [d|]; [|destruct J as ([] & _)]. split; auto. apply J. }
        clearbody gt.
        assert (G5 : gstk (gs ++ (neg a, i) :: gt) y0).
        { split; [rewrite St5, St4, map_app, <- app_assoc; f_equal; cbn [map fst app]; f_equal; symmetry; exact Gt|]. intros f d Q.
          change (gs ++ (neg a, i) :: gt) with (gs ++ [(neg a, i)] ++ gt) in Q. rewrite app_assoc in Q. apply in_app_or in Q. destruct Q as [Q|Q]; [|apply Gr; auto].
          rewrite (e_rsn _ _ X5); [apply R4; auto|]. rewrite St4. apply (in_map fst) in Q. rewrite map_app in Q. auto. }
        apply (IH (S i) (S kk) (gs ++ (neg a, i) :: gt) (addA D act i) s y0); [|exact H]. split; auto.
        -- rewrite (e_ad _ _ X5). cbn. eapply HLem with (e := Some (c, false)); eauto. apply LUnit; auto. apply Forall_forall. intros (f, d) Q. apply Gr in Q. apply Q.
        -- intros d. etransitivity; [apply X5|]. apply P3.
        -- intros j J. rewrite (e_ad _ _ X5). apply A3. lia.
        -- intros d. rewrite (e_mark _ _ X5). apply M3.
        -- intros v d Q. destruct (e_new _ _ X5 v) as [Q1|(f & Q1 & <-)].
           ++ rewrite Q1 in Q. cbn in Q. unfold upd in Q. destruct (Nat.eqb_spec v (fst a)) as [->|].
              ** injection Q as <-. exists (neg a). split; [apply in_or_app; right; left; auto|apply neg_fst].
              ** destruct (R3 _ _ Q) as (f & ? & ?). exists f. split; auto. apply in_or_app; auto.
           ++ destruct (gstk_in _ _ _ G5 Q1) as (d' & Q2 & Q3). rewrite Q in Q3. injection Q3 as <-. eauto.
      * injection H as <- <- <-.
        assert (B4 : firstn (x_forced x4) (x_stack x4) = map fst gs) by (rewrite Fo4, St4, firstn_app_le, firstn_all; auto).
        assert (P5 : Perm D y0) by (intros d; etransitivity; [apply (c_lits _ _ _ _ _ E)|apply P3]).
        assert (St5 : x_stack y0 = map fst gs) by (rewrite (c_stack _ _ _ _ _ E); auto).
        assert (G5 : forall f d, In (f, d) gs -> x_rsn y0 (fst f) = Some d).
        { intros f d Q. rewrite (c_rsn _ _ _ _ _ E); [apply R4; apply in_or_app; auto|]. rewrite St4. apply in_or_app. left. apply (in_map fst) in Q. auto. }
        assert (H5 : Hist D (x_ad y0) first k0 kk i gs act s) by (rewrite (c_ad _ _ _ _ _ E); exact H3').
        constructor. exists kk, gs, act, s, c, a. split; auto. split; auto. split; [rewrite (c_ad _ _ _ _ _ E); auto|]. split; auto. split; auto. split; [split; auto|].
        split; [apply E|]. split; auto. split; [rewrite (c_proc _ _ _ _ _ E), St5, Fo4; auto|]. split; [rewrite (c_forced _ _ _ _ _ E), St5, Fo4; auto|].
        split.
        -- eapply Conf_sats; eauto. rewrite B4. apply incl_refl.
        -- intros z Z. eapply (c_sem _ _ _ _ _ E z); [|intros ? []]. intros d D1 D2. eapply tr_perm; [symmetry; apply P5|]. auto.
    + (* nothing *)
      injection E as <- <-. cbn [negb] in H. xb H. injection E as <- <-. destruct (_ <=? _) in H; [discriminate|]. apply (IH (S i) (S kk) gs (addA D act i) s x3); [|exact H]. split; auto.
      * eapply HLem with (e := Some (c, false)); eauto. apply LMany; auto. rewrite <- (Permutation_length Fre). cbn. lia.
      * intros j J. apply A3. lia.
Qed.

(** ** The backward pass *)
Record Pre (D : nat -> list slit) (first k0 p k : nat) (gs : list (slit * nat)) (act : nat -> bool) (s : list nat) (x : dr) : Prop := {
  p_hist : Hist D (x_ad x) first k0 k p gs act s;
  p_gs : gstk gs x;
  p_inv : Inv act p [] x;
  p_perm : Perm D x;
  p_proc : x_proc x = length (x_stack x);
  p_forced : x_forced x = length (x_stack x);
  p_mark : forall j, In j s -> mark x j = false;
  p_k : K D p x }.
Record Ctx (D : nat -> list slit) (first k0 p kk : nat) (e : option (nat * bool)) (fl : bool) (gs : list (slit * nat)) (act : nat -> bool) (s : list nat) (x : dr) : Prop := {
  t_hist : Hist D (x_ad x) first k0 kk p gs act s;
  t_inv : Inv (addA D act p) (S p) [] x;
  t_perm : Perm D x;
  t_proc : x_proc x = length (x_stack x);
  t_forced : x_forced x = length (x_stack x);
  t_mark : forall j, In j s -> mark x j = false;
  t_k : K D (S p) x;
  t_rsn : forall f c, In (f, c) gs -> x_rsn x (fst f) = Some c;
  t_ext : exists t, x_stack x = map fst gs ++ t /\
    match e with
    | None => t = [] /\ mark x p = false
    | Some _ => ~ satD D p gs /\ ((2 <= length (freeD D p gs) /\ t = []) \/ exists a, freeD D p gs = [a] /\ ((t = [] /\ fl = false) \/ exists u, t = neg a :: u))
    end }.

Lemma upd_upd : forall (act : nat -> bool) c d, act c = true -> upd (upd act c false) c true d = act d.
Proof. intros act c d H. unfold upd. destruct (Nat.eqb_spec d c) as [->|]; auto. Qed.
Lemma Pre_wl : forall D first k0 p k gs act s act' x W k', Pre D first k0 p k gs act s x -> Hist D (x_ad x) first k0 k' p gs act' s -> Inv act' p [] (set_wl W x) ->
  Pre D first k0 p k' gs act' s (set_wl W x).
Proof. intros D first k0 p k gs act s act' x W k' Q H I. destruct Q. split; auto. Qed.

Lemma adBackward_ok : forall D first k0 fl p k gs act s x kk e y, Pre D first k0 (S p) k gs act s x -> S p <> first -> adBackward k x = RRet (kk, e) y ->
  exists gs act s, Ctx D first k0 p kk e fl gs act s y.
Proof.
  intros D first k0 fl p. induction k as [|k IH]; intros gs act s x kk e y Q Ne H; [discriminate|]. cbn in H.
  pose proof (p_hist _ _ _ _ _ _ _ _ _ Q) as Hh. inversion Hh as [|k1 i1 gs1 act1 s1 c H1 H2 H3|k1 i1 gs1 act0 s1 c H1 H2 H3|k1 i1 gs1 act1 s1 e0 gs2 s2 HH HN HD HL]; subst.
  - congruence.
  - (* kept *)
    rewrite H2 in H. xb H. apply has2_ok in E. destruct E as (-> & -> & CL & _). xb H. destruct a.
    assert (y0 = x) as ->.
    { destruct (Nat.leb_spec 2 (length (litsOf x c))) as [L2|L2]; [|injection E as <-; auto].
      destruct H3 as [L|(f & F)]; [rewrite <- (Permutation_length (p_perm _ _ _ _ _ _ _ _ _ Q c)) in L; lia|].
      pose proof (p_gs _ _ _ _ _ _ _ _ _ Q) as G. assert (Fs : In f (x_stack x)) by (rewrite (proj1 G); apply (in_map fst) in F; auto).
      apply In_nth_error in Fs as (j & Nj). pose proof (i_r _ _ _ _ (p_inv _ _ _ _ _ _ _ _ _ Q) _ _ Nj) as J. rewrite (proj2 G _ _ F) in J. destruct J as (_ & _ & r & J & _).
      rewrite J, neg_fst, (proj2 G _ _ F), Nat.eqb_refl in E. injection E as <-. auto. }
    apply (IH gs act s x); auto. destruct Q. split; auto.
  - (* deleted *)
    rewrite H2 in H. xb H. apply has2_ok in E. destruct E as (-> & -> & CL & _). xb H. destruct a.
    assert (Sk : Pre D first k0 (S p) k gs act0 s x).
    { destruct Q. split; auto. destruct p_inv0. split; auto.
      - intros d l. specialize (i_w d l). unfold upd in i_w. destruct (Nat.eqb_spec d c) as [->|]; auto. lia.
      - intros d. apply (Hist_lt _ _ _ _ _ _ _ _ _ H1). }
    assert (Ad : forall z, addWatches c x = RRet tt z -> Pre D first k0 (S p) k gs act0 s z).
    { intros z A. apply (addWatches_ok _ _ _ _ _ _ (p_inv _ _ _ _ _ _ _ _ _ Q)) in A.
      - destruct A as (A & W & ->). eapply Pre_wl; [exact Q|auto|]. eapply Inv_ext; [|exact A]. intros d. apply upd_upd; auto.
      - apply upd_same.
      - destruct (Hist_lt _ _ _ _ _ _ _ _ _ H1) as (_ & _ & Hl & _). apply Hl; auto. }
    apply (IH gs act0 s y0); auto. destruct (2 <=? length (litsOf x c)); [|injection E as <-; auto].
    destruct (litsOf x c) as [|l0 r]; [discriminate|]. destruct (x_rsn x (fst l0)) as [d|]; auto. destruct (d =? c); auto. injection E as <-. auto.
  - (* the lemma *)
    rewrite HN in H. assert (H' : RRet (k, e0) x = RRet (kk, e) y) by (destruct e0 as [(c, [])|]; [discriminate|auto..]). injection H' as <- <- <-. clear H.
    destruct Q as [Q1 Q2 Q3 Q4 Q5 Q6 Q7 Q8].
    inversion HL as [Sa|e1 Ns L2|e1 a t Ns Fr Ft]; subst; eexists _, _, _; (split; [exact HH|exact Q3|exact Q4|exact Q5|exact Q6| |exact Q8| |]).
    + intros j J. apply Q7. right; auto.
    + apply Q2.
    + exists []. rewrite app_nil_r. split; [apply Q2|]. split; auto. apply Q7. left; auto.
    + exact Q7.
    + apply Q2.
    + exists []. rewrite app_nil_r. split; [apply Q2|]. split; auto.
    + exact Q7.
    + intros f c F. apply (proj2 Q2). apply in_or_app; auto.
    + exists (neg a :: map fst t). split; [rewrite (proj1 Q2), map_app; auto|]. split; auto. right. exists a. split; auto. right. eauto.
Qed.

Lemma popTo_ok : forall l j k x y, k <= length (x_stack x) -> j < k -> nth_error (x_stack x) j = Some (neg l) -> (forall i, j < i -> i < k -> nth_error (x_stack x) i <> Some (neg l)) ->
  popTo l k x = RRet tt y ->
  exists F, y = set_proc j (set_stack (firstn j (x_stack x)) (set_forced j (set_fl F x))) /\
    forall f, F f <> 0 <-> x_fl x f <> 0 /\ (forall i, j <= i -> i < k -> nth_error (x_stack x) i <> Some f).
Proof.
  intros l j. induction k as [|k IH]; intros x y Lk Lj Nj Un H; [discriminate|]. cbn in H.
  destruct (nth_error (x_stack x) k) as [f0|] eqn:E; [|discriminate]. destruct (slit_eqb f0 (neg l)) eqn:Q.
  - apply slit_eqb_eq in Q. subst f0. assert (k = j) as ->.
    { destruct (Nat.eq_dec k j); auto. exfalso. eapply (Un k); eauto; lia. }
    injection H as <-. eexists. split; [reflexivity|]. intros f. unfold updl. destruct (slit_eqb f (neg l)) eqn:F.
    + apply slit_eqb_eq in F as ->. split; [congruence|]. intros (_ & C). exfalso. apply (C j); auto.
    + apply slit_eqb_neq in F. split; [|tauto]. intros G. split; auto. intros i I1 I2. assert (i = j) as -> by lia. congruence.
  - apply slit_eqb_neq in Q. assert (j < k). { destruct (Nat.eq_dec j k); [subst; congruence|lia]. }
    apply IH in H; cbn; [|lia|lia|auto|intros; apply Un; lia]. destruct H as (F & -> & HF). cbn in HF.
    exists F. split; [auto|]. intros f. rewrite HF. unfold updl. destruct (slit_eqb f f0) eqn:G.
    + apply slit_eqb_eq in G as ->. split; [intros (? & _); congruence|]. intros (_ & C). exfalso. apply (C k); auto. lia.
    + apply slit_eqb_neq in G. split.
      * intros (A & C). split; auto. intros i I1 I2. destruct (Nat.eq_dec i k) as [->|]; [congruence|]. apply C; lia.
      * intros (A & C). split; auto.
Qed.

Lemma Inv_pop : forall act P x j F, Inv act P [] x -> j <= length (x_stack x) ->
  (forall f, F f <> 0 <-> x_fl x f <> 0 /\ (forall i, j <= i -> i < length (x_stack x) -> nth_error (x_stack x) i <> Some f)) ->
  Inv act P [] (set_proc j (set_stack (firstn j (x_stack x)) (set_forced j (set_fl F x)))).
Proof.
  intros act P x j F I Lj HF. split; cbn.
  - apply I.
  - apply I.
  - intros f. rewrite HF, (i_f _ _ _ _ I). split.
    + intros (A & C). apply In_nth_error in A as (i & Ni). destruct (Nat.lt_ge_cases i j) as [L|L]; [eapply nth_error_firstn; eauto|].
      exfalso. eapply (C i); eauto. apply nth_error_Some. congruence.
    + intros A. split; [eapply In_firstn; eauto|]. intros i L1 L2 Ni. pose proof (i_r _ _ _ _ I _ _ Ni) as J. destruct (x_rsn x (fst f)); [|destruct J as ([] & _)].
      destruct J as (_ & J & _). apply J. destruct (In_nth _ _ _ A) as (m & Lm & Nm). eapply nth_error_firstn; eauto. lia.
  - rewrite firstn_length. lia.
  - intros k f N. apply nth_error_firstn_inv in N. destruct N as (Lk & N). pose proof (i_r _ _ _ _ I _ _ N) as J. destruct (x_rsn x (fst f)) as [c|]; [|destruct J as ([] & _)].
    rewrite firstn_firstn, Nat.min_l by lia. exact J.
Qed.

Lemma Inv_down : forall D ad first k0 k p gs act s P x, Hist D ad first k0 k p gs act s -> gstk gs x -> Inv act P [] x -> Inv act p [] x.
Proof.
  intros D ad first k0 k p gs act s P x H G I. destruct (Hist_lt _ _ _ _ _ _ _ _ _ H) as (_ & H1 & H2 & _). split; try apply I; auto.
  intros j f N. pose proof (i_r _ _ _ _ I _ _ N) as J. destruct (gstk_in _ _ f G (nth_error_In _ _ N)) as (c & Hc & R). rewrite R in *. destruct J as (_ & J). split; auto.
  rewrite Forall_forall in H1. apply (H1 _ Hc).
Qed.

Lemma assignNegs_ok : forall act P B r x, Inv act P B x ->
  (forall k f, nth_error (x_stack x) k = Some f -> x_forced x <= k -> In f B) ->
  (forall b, In b r -> In b B /\ ~ In b (firstn (x_forced x) (x_stack x)) /\ ~ In (neg b) (firstn (x_forced x) (x_stack x))) ->
  let y := assignNegs r x in
  Inv act P B y /\ x_stack y = x_stack x ++ r /\ x_db y = x_db x /\ x_forced y = x_forced x /\ x_ad y = x_ad x /\
  (forall f, In f (firstn (x_forced x) (x_stack x)) -> x_rsn y (fst f) = x_rsn x (fst f)).
Proof.
  intros act P B. induction r as [|l r IH]; intros x I Bx Br; cbn.
  - rewrite app_nil_r. auto 10.
  - set (x1 := assignLit (neg l) None x). destruct (Br l (or_introl eq_refl)) as (B1 & B2 & B3).
    assert (St : x_stack x1 = x_stack x ++ [l]) by (cbn; rewrite neg_neg; auto). pose proof (i_c _ _ _ _ I) as Lf.
    assert (Bs : firstn (x_forced x1) (x_stack x1) = firstn (x_forced x) (x_stack x)) by (rewrite St; cbn; apply firstn_app_le; auto).
    assert (R1 : forall f, In f (firstn (x_forced x) (x_stack x)) -> x_rsn x1 (fst f) = x_rsn x (fst f)).
    { intros f F. cbn. rewrite upd_other; auto. intros Q. destruct (same_var _ _ Q) as [-> | ->]; rewrite ?neg_neg in *; auto. }
    assert (Bx1 : forall k f, nth_error (x_stack x1) k = Some f -> x_forced x <= k -> In f B).
    { intros k f N Lk. rewrite St in N. destruct (Nat.lt_ge_cases k (length (x_stack x))) as [L|L]; [rewrite nth_error_app1 in N by auto; eauto|].
      rewrite nth_error_app2 in N by auto. destruct (k - length (x_stack x)) as [|j]; cbn in N; [injection N as <-; auto|destruct j; discriminate]. }
    assert (I1 : Inv act P B x1).
    { split.
      - apply I.
      - apply I.
      - intros f. rewrite St. cbn. rewrite neg_neg. unfold updl. rewrite in_app_iff, <- (i_f _ _ _ _ I). destruct (slit_eqb f l) eqn:E; cbn.
        + apply slit_eqb_eq in E as ->. split; [auto|discriminate].
        + apply slit_eqb_neq in E. split; [auto|]. intros [H|[H|[]]]; auto; congruence.
      - rewrite St, app_length. cbn. lia.
      - intros k f N. cbn [x1 assignLit set_rsn x_rsn x_forced set_stack set_fl]. rewrite neg_fst. unfold upd. destruct (Nat.eqb_spec (fst f) (fst l)) as [Q|Q].
        + assert (x_forced x <= k); [|split; [eapply Bx1; eauto|auto]]. destruct (Nat.lt_ge_cases k (x_forced x)) as [L|]; auto. exfalso.
          assert (In f (firstn (x_forced x) (x_stack x))) by (rewrite <- Bs; eapply nth_error_firstn; eauto). destruct (same_var _ _ Q) as [-> | ->]; auto.
        + rewrite St in *. destruct (Nat.lt_ge_cases k (length (x_stack x))) as [L|L].
          * rewrite nth_error_app1 in N by auto. rewrite firstn_app_le by lia. exact (i_r _ _ _ _ I _ _ N).
          * exfalso. rewrite nth_error_app2 in N by auto. destruct (k - length (x_stack x)) as [|j]; cbn in N; [injection N as <-; auto|destruct j; discriminate]. }
    destruct (IH x1 I1 Bx1) as (C1 & C2 & C3 & C4 & C5 & C6).
    { intros b Hb. rewrite Bs. apply Br. right; auto. }
    split; auto. split; [rewrite C2, St, <- app_assoc; auto|]. split; auto. split; auto. split; auto. intros f F. rewrite C6; [apply R1; auto|]. rewrite Bs. auto.
Qed.

Lemma addA_remove : forall D act p c, act p = false -> upd (addA D act p) p false c = act c.
Proof. intros D act p c H. unfold addA. destruct (2 <=? length (D p)); unfold upd; destruct (Nat.eqb_spec c p) as [->|]; auto. Qed.

Lemma backward_ok : forall D first k0 n p k fl x y,
  (forall kk e z, adBackward k x = RRet (kk, e) z -> exists gs act s, Ctx D first k0 p kk e fl gs act s z) -> first <= p ->
  backward n first p k fl x = RRet tt y -> K D first y /\ Perm D y.
Proof.
  intros D first k0. induction n as [|n IH]; intros p k fl x y Q Fp H; [discriminate|]. cbn [backward] in H.
  xb H. destruct a as (kk, e). cbn [fst snd] in H. destruct (Q _ _ _ E) as (gs & act & s & [T1 T2 T3 T4 T5 T6 T7 T8 T9]). clear Q E k x. rename y0 into x.
  xb H. injection E as <- <-. xb H. apply has2_ok in E. destruct E as (-> & -> & CL & Nil). xb H. destruct a. rename y0 into x1.
  destruct (Hist_lt _ _ _ _ _ _ _ _ _ T1) as (H0 & H1 & H2 & H3). assert (Ap : act p = false) by (destruct (act p) eqn:Ac; auto; apply H2 in Ac; lia).
  assert (Q1 : Inv act (S p) [] x1 /\ exists W, x1 = set_wl W x).
  { rewrite (Permutation_length (T3 p)) in E. destruct (2 <=? length (D p)) eqn:L2.
    - apply (removeWatches_ok _ _ _ _ _ _ T2) in E. destruct E as (_ & E & W & ->). split; [|eauto]. eapply Inv_ext; [|exact E]. intros c. apply addA_remove; auto.
    - injection E as <-. split; [unfold addA in T2; rewrite L2 in T2; auto|]. exists (x_wl x). destruct x; auto. }
  destruct Q1 as (I1 & W & ->). clear E T2. set (x1 := set_wl W x) in *. xb H. rename y0 into x2, a into fl2.
  change (match nth_error (x_db x) p with Some d => q_mark d | None => false end) with (mark x1 p) in E.
  (* the lemma is undone *)
  assert (Main : Pre D first k0 p kk gs act s x2).
  { clear H. destruct T9 as (t & St & Te). change (x_stack x) with (x_stack x1) in *.
    destruct e as [ec|].
    2: { (* not checked *)
      injection E as _ <-. destruct Te as (-> & Mp). rewrite app_nil_r in St. assert (G : gstk gs x1) by (split; auto).
      split; auto; [eapply Inv_down; eauto|]. intros a A. apply (T7 a). intros c Hc Mc. apply A; auto. destruct (Nat.eq_dec c p) as [->|]; [change (mark x p = true) in Mc; congruence|lia]. }
    destruct Te as (Ns & Te). xb E. apply getLits_ok in E0. destruct E0 as (-> & -> & _). xb E. injection E0 as <- <-. xb E. injection E0 as <- <-. xb E. destruct a.
    set (buf := filter (fun l => negb (isFalse x1 l)) (litsOf x1 p)) in *.
    set (flag := existsb (fun l => isFalse x1 (neg l)) (litsOf x1 p)) in *.
    (* back to the stack before the lemma *)
    assert (R3 : Inv act (S p) [] y0 /\ gstk gs y0 /\ x_db y0 = x_db x /\ x_ad y0 = x_ad x /\ x_proc y0 = length (x_stack y0) /\ x_forced y0 = length (x_stack y0) /\
                 Permutation buf (freeD D p gs)).
    { destruct Te as [(L2 & ->)|(a & Fr & Te)].
      - rewrite app_nil_r in St. assert (Pb : Permutation buf (freeD D p gs)).
        { unfold buf, freeD. etransitivity; [apply filter_perm, (T3 p)|]. erewrite filter_ext; [reflexivity|]. intros l. cbn. f_equal. symmetry. eapply inL_stack; eauto. }
        assert (y0 = x1) as ->.
        { pose proof (Permutation_length Pb) as Lb. destruct buf as [|l0 [|l1 r]]; cbn in Lb; try lia. injection E0 as <-. auto. }
        split; [auto|]. split; [split; auto|]. auto 10.
      - destruct Te as [(-> & ->)|(u & ->)].
        + rewrite app_nil_r in St. assert (Pb : Permutation buf (freeD D p gs)).
          { unfold buf, freeD. etransitivity; [apply filter_perm, (T3 p)|]. erewrite filter_ext; [reflexivity|]. intros l. cbn. f_equal. symmetry. eapply inL_stack; eauto. }
          assert (flag = false) as Ff.
          { unfold flag. apply not_true_iff_false. rewrite existsb_exists. intros (l & A & B). apply Ns. exists l. split; [eapply Permutation_in; [apply (T3 p)|auto]|].
            rewrite <- St. eapply isFalse_t; eauto. }
          rewrite Ff in E0. cbn [orb] in E0.
          assert (y0 = x1) as -> by (destruct buf as [|l0 [|l1 r]]; injection E0 as <-; auto).
          split; [auto|]. split; [split; auto|]. auto 10.
        + assert (Nu : nth_error (x_stack x1) (length gs) = Some (neg a)).
          { rewrite St, nth_error_app2; rewrite map_length; [|auto]. rewrite Nat.sub_diag. auto. }
          assert (Ina : In (neg a) (x_stack x1)) by (eapply nth_error_In; eauto).
          assert (Na : ~ In a (x_stack x1)).
          { intros A. eapply (base_cons _ _ _ _ _ I1 A). change (x_forced x1) with (x_forced x). rewrite T5. change (x_stack x) with (x_stack x1). rewrite firstn_all. auto. }
          assert (Fa : In a (D p) /\ forall l, In l (D p) -> l <> a -> In l (map fst gs)).
          { split.
            - apply (proj1 (filter_In (fun l => negb (inL l (map fst gs))) a (D p))). fold (freeD D p gs). rewrite Fr. left; auto.
            - intros l Hl Hn. destruct (inL l (map fst gs)) eqn:El; [apply inL_in; auto|]. exfalso. apply Hn.
              assert (In l (freeD D p gs)) as Hi by (apply filter_In; rewrite El; auto). rewrite Fr in Hi. destruct Hi as [|[]]; auto. }
          assert (Pb : Permutation buf (freeD D p gs)).
          { unfold buf, freeD. etransitivity; [apply filter_perm, (T3 p)|]. erewrite filter_ext_in; [reflexivity|]. intros l Hl. cbn. f_equal.
            destruct (slit_eqb l a) eqn:El.
            - apply slit_eqb_eq in El as ->. transitivity false; [eapply isFalse_f; eauto|]. symmetry. apply not_true_iff_false. rewrite inL_in. intros A. apply Na. rewrite St. apply in_or_app; auto.
            - apply slit_eqb_neq in El. pose proof (proj2 Fa l Hl El) as A. transitivity true; [eapply isFalse_t; eauto; rewrite St; apply in_or_app; auto|]. symmetry. apply inL_in; auto. }
          rewrite Fr in Pb. pose proof (Permutation_length_1_inv (Permutation_sym Pb)) as Eb. rewrite Eb in E0.
          assert (flag = true) as Ff.
          { unfold flag. apply existsb_exists. exists a. split; [eapply Permutation_in; [symmetry; apply (T3 p)|apply Fa]|]. eapply isFalse_t; eauto. }
          rewrite Ff, orb_true_r in E0. change (x_forced x1) with (x_forced x) in E0. rewrite T5 in E0. change (x_stack x) with (x_stack x1) in E0.
          apply (popTo_ok a (length gs)) in E0; auto; [|apply nth_error_Some; congruence|].
          * destruct E0 as (F & -> & HF). assert (Lg : length gs <= length (x_stack x1)) by (rewrite St, app_length, map_length; lia).
            assert (Fs : firstn (length gs) (x_stack x1) = map fst gs) by (rewrite St, <- (map_length fst gs), firstn_app_le, firstn_all; auto).
            split; [apply Inv_pop; auto|]. cbn [set_proc set_stack set_forced set_fl x_db x_ad x_proc x_stack x_forced x_rsn].
            rewrite Fs, map_length, Fr, Eb. split; [split; cbn; auto|]. auto.
          * intros i Li1 Li2 Ni. pose proof (i_r _ _ _ _ I1 _ _ Ni) as J. destruct (x_rsn x1 (fst (neg a))) as [c|]; [|destruct J as ([] & _)].
            destruct J as (_ & J & _). apply J. apply (nth_error_firstn _ (length gs)); auto. }
    destruct R3 as (I3 & G3 & Db & Ad & Pr & Fo & Pb). clear E0.
    assert (I3' : Inv act p [] y0) by (eapply Inv_down; eauto).
    assert (P3 : Perm D y0) by (intros c; unfold litsOf; rewrite Db; apply T3). assert (M3 : forall c, mark y0 c = mark x c) by (intros c; unfold mark; rewrite Db; auto).
    xb E. destruct a. injection E as _ <-. change (mark x1 p) with (mark x p) in E0. destruct (mark x p) eqn:Mp.
    - xb E0. injection E as <- <-. xb E0. destruct a; [discriminate|]. injection E0 as <-.
      assert (Bb : firstn (x_forced y0) (x_stack y0) = map fst gs) by (rewrite Fo, firstn_all; apply G3).
      destruct (assignNegs_ok act p buf buf y0) as (C1 & C2 & C3 & C4 & C5 & C6).
      + destruct I3'. split; auto. intros j f N. specialize (i_r _ _ N). destruct (x_rsn y0 (fst f)); auto. destruct i_r as ([] & _).
      + intros j f N L. exfalso. assert (j < length (x_stack y0)) by (apply nth_error_Some; congruence). lia.
      + intros b Hb. split; auto. rewrite Bb. pose proof (Permutation_in _ Pb Hb) as Hb'. apply filter_In in Hb' as (Hb1 & Hb2). split.
        * intros A. apply inL_in in A. rewrite A in Hb2. discriminate.
        * intros A. apply Ns. exists b. auto.
      + set (y1 := assignNegs buf y0) in *.
        assert (G4 : forall f c, In (f, c) gs -> x_rsn y1 (fst f) = Some c).
        { intros f c F. rewrite C6; [apply G3; auto|]. rewrite Bb. apply (in_map fst) in F. auto. }
        assert (B4 : firstn (x_forced y1) (x_stack y1) = map fst gs) by (rewrite C4, C2, firstn_app_le, Bb; auto; lia).
        apply (propagateD_ok _ _ _ _ _ _ _ C1) in E. cbv iota in E. rename y into yend, y2 into y.
        assert (P5 : Perm D y) by (intros c; etransitivity; [apply (c_lits _ _ _ _ _ E)|]; unfold litsOf; rewrite C3; apply P3).
        assert (St5 : x_stack y = map fst gs) by (rewrite (c_stack _ _ _ _ _ E); auto).
        assert (G5 : gstk gs y).
        { split; auto. intros f c F. rewrite (c_rsn _ _ _ _ _ E); [apply G4; auto|]. apply In_firstn with (n := x_forced y1). rewrite B4. apply (in_map fst) in F. auto. }
        assert (Ad5 : x_ad y = x_ad x) by (rewrite (c_ad _ _ _ _ _ E), C5; auto).
        assert (Lf : x_forced y1 = length (map fst gs)) by (rewrite C4, Fo, (proj1 G3); auto).
        assert (M5 : forall c, mark x c = true -> mark y c = true).
        { intros c Mc. apply (c_grow _ _ _ _ _ E). unfold mark. rewrite C3. rewrite <- M3 in Mc. exact Mc. }
        split; auto.
        * rewrite Ad5. auto.
        * apply E.
        * rewrite (c_proc _ _ _ _ _ E), St5. auto.
        * rewrite (c_forced _ _ _ _ _ E), St5. auto.
        * eapply Conf_sats; eauto.
          -- rewrite B4. apply incl_refl.
          -- apply G5.
          -- intros j J. unfold mark. rewrite C3. change (mark y0 j = false). rewrite M3. auto.
        * intros a A. destruct (existsb (alit a) (D p)) eqn:Ex.
          -- apply existsb_exists in Ex as (l & L1 & L2). apply (T7 a). intros c Hc Mc. destruct (Nat.eq_dec c p) as [->|]; [exists l; auto|]. apply A; [lia|auto].
          -- eapply (c_sem _ _ _ _ _ E a).
             ++ intros c Hc Mc. eapply tr_perm; [symmetry; apply P5|]. auto.
             ++ intros f Hf. destruct (alit a f) eqn:Ef; auto. exfalso. apply not_true_iff_false in Ex. apply Ex. apply existsb_exists. exists f. split; auto.
                apply (Permutation_in _ Pb) in Hf. apply filter_In in Hf. apply Hf.
    - injection E0 as <-. split; auto; [rewrite Ad; auto|intros j J; rewrite M3; auto|].
      intros a A. apply (T7 a). intros c Hc Mc. destruct (Nat.eq_dec c p) as [->|]; [congruence|]. apply A; [lia|rewrite M3; auto]. }
  clear E. destruct (Nat.eqb_spec p first) as [->|Ne].
  - injection H as <-. split; apply Main.
  - apply IH in H; auto; [|lia]. destruct p as [|p]; [lia|]. cbn [Nat.sub]. rewrite Nat.sub_0_r. intros kk' e' z A. eapply adBackward_ok; eauto.
Qed.
