(** * MaxSAT: symmetry breaking of WBO keeps the optimum of unweighted problems

    Two cores that share the soft clauses [i] and [j] can exchange which of them they relax. The symmetry breaking
    clauses allow only one of the two ways; by exchanges, the newest core first, every solution reaches one that they allow. *)
From Coq Require Import List Bool Arith Lia Permutation.
From Verif Require Import SatSpec Sat SatProps MaxSpec MaxSat MaxBase MaxTot MaxAlg MaxWbo.
Import ListNotations.

Fixpoint pos (x : nat) (l : list nat) : nat := match l with [] => 0 | y :: r => if x =? y then 0 else S (pos x r) end.
Lemma pos_in : forall x l, In x l -> pos x l < length l /\ nth (pos x l) l 0 = x.
Proof. induction l as [|y r IH]; intros I; [destruct I|]. cbn. destruct (Nat.eqb_spec x y) as [->|N]; [split; [lia|auto]|]. destruct I as [->|I]; [congruence|]. destruct (IH I). split; [lia|auto]. Qed.
Lemma pos_nth : forall l n, NoDup l -> n < length l -> pos (nth n l 0) l = n.
Proof.
  induction l as [|y r IH]; intros n N L; [cbn in L; lia|]. inversion N; subst. destruct n as [|n]; cbn in *; [rewrite Nat.eqb_refl; auto|]. destruct (Nat.eqb_spec (nth n r 0) y) as [<-|D]; [exfalso; apply H1, nth_In; lia|]. f_equal. apply IH; auto. lia.
Qed.
Lemma pos_lt_sorted : forall l, NoDup l -> ForallOrdPairs (fun i j => pos i l < pos j l) l.
Proof.
  induction l as [|y r IH]; intros N; [constructor|]. inversion N; subst. constructor.
  - apply Forall_forall. intros x I. cbn. rewrite Nat.eqb_refl. destruct (Nat.eqb_spec x y) as [->|]; [contradiction|lia].
  - assert (G : forall l', (forall z, In z l' -> z <> y) -> ForallOrdPairs (fun i j => pos i r < pos j r) l' -> ForallOrdPairs (fun i j => pos i (y :: r) < pos j (y :: r)) l').
    { intros l' Hl F. induction F as [|a l' Fa F IHF]; constructor; [|apply IHF; intros; apply Hl; right; auto]. rewrite Forall_forall in *. intros z I. specialize (Fa z I). cbn. pose proof (Hl a (or_introl eq_refl)) as N1. pose proof (Hl z (or_intror I)) as N2. apply Nat.eqb_neq in N1, N2. rewrite N1, N2. lia. }
    apply G; auto. intros z I ->. auto.
Qed.
Lemma fop_filter : forall {A} (R : A -> A -> Prop) f l, ForallOrdPairs R l -> ForallOrdPairs R (filter f l).
Proof. intros A R f l F. induction F as [|a l Fa F IH]; cbn; [constructor|]. destruct (f a); auto. constructor; auto. rewrite Forall_forall in *. intros z I. apply filter_In in I as [I _]. auto. Qed.

(** ** Cores *)
Record core := Core { k_no : nat; k_el : list (nat * nat); k_aux : list nat }.
Definition softs (k : core) : list nat := map fst (k_el k).
Definition kvars (k : core) : list nat := map snd (k_el k) ++ k_aux k.
Definition pl (v : nat) : slit := (v, false).
Definition eoC (k : core) : list (list slit) := eoClauses None (map (fun p => pl (snd p)) (k_el k)) (map pl (k_aux k)).
Definition shape (k : core) : Prop := length (k_el k) = S (length (k_aux k)) /\ NoDup (softs k).
(** the pair of choices that the clauses forbid: [p] belongs to the newer core *)
Definition bad (p q : core * nat) : Prop := In (snd p) (softs (fst q)) /\ In (snd q) (softs (fst p)) /\ pos (snd q) (softs (fst p)) < pos (snd p) (softs (fst p)).
Definition valid_ch (ps : list (core * nat)) : Prop := forall p, In p ps -> In (snd p) (softs (fst p)).
Lemma bad_dec : forall p q, {bad p q} + {~ bad p q}.
Proof. intros p q. unfold bad. destruct (in_dec Nat.eq_dec (snd p) (softs (fst q))); [|right; tauto]. destruct (in_dec Nat.eq_dec (snd q) (softs (fst p))); [|right; tauto]. destruct (lt_dec (pos (snd q) (softs (fst p))) (pos (snd p) (softs (fst p)))); [left|right]; tauto. Qed.
Lemma fst_split : forall (l1 l2 : list (core * nat)) k i j, map fst (l1 ++ (k, i) :: l2) = map fst (l1 ++ (k, j) :: l2).
Proof. intros. rewrite !map_app. reflexivity. Qed.
Lemma exchange : forall ks ps, map fst ps = ks -> valid_ch ps -> exists qs, map fst qs = ks /\ Permutation (map snd ps) (map snd qs) /\ valid_ch qs /\ ForallOrdPairs (fun p q => ~ bad p q) qs.
Proof.
  induction ks as [|k ks IH]; intros ps E V.
  - exists []. destruct ps; [|discriminate]. repeat split; auto. constructor.
  - assert (G : forall n j ps, pos j (softs k) < n -> In j (softs k) -> map fst ps = ks -> valid_ch ps -> exists qs, map fst qs = k :: ks /\ Permutation (j :: map snd ps) (map snd qs) /\ valid_ch qs /\ ForallOrdPairs (fun p q => ~ bad p q) qs).
    { clear ps E V. induction n as [|n IHn]; intros j ps L Ij E V; [lia|]. destruct (IH ps E V) as (qs & Eq & Pq & Vq & Fq).
      destruct (Exists_dec (bad (k, j)) qs (bad_dec (k, j))) as [B|B].
      - apply Exists_exists in B as ([k' i] & I & B1 & B2 & B3). cbn [fst snd] in *. apply in_split in I as (l1 & l2 & ->). destruct (IHn i (l1 ++ (k', j) :: l2)) as (rs & Er & Pr & Vr & Fr).
        + lia.
        + auto.
        + rewrite (fst_split l1 l2 k' j i). auto.
        + intros p I. apply in_app_or in I as [I|[<-|I]]; [apply Vq, in_or_app; auto|auto|apply Vq, in_or_app; right; right; auto].
        + exists rs. split; auto. split; auto. eapply Permutation_trans; [|exact Pr]. rewrite !map_app in *. cbn [map snd] in *. eapply Permutation_trans; [apply perm_skip; exact Pq|].
          eapply Permutation_trans; [apply perm_skip, Permutation_sym, Permutation_middle|]. eapply Permutation_trans; [apply perm_swap|]. apply perm_skip, Permutation_middle.
      - exists ((k, j) :: qs). cbn [map fst snd]. split; [f_equal; auto|]. split; [apply perm_skip; auto|]. split; [intros p [<-|I]; auto|]. constructor; auto. apply Forall_forall. intros q I N. apply B, Exists_exists. eauto. }
    destruct ps as [|[k' j] ps]; [discriminate|]. cbn [map fst] in E. injection E as -> E. cbn [map snd]. apply (G (S (pos j (softs k)))); auto; [apply (V (k, j)); left; auto|intros p I; apply V; right; auto].
Qed.

(** ** From choices to assignments and back *)
Lemma lit_pl : forall b v, lit_true b (pl v) = b v. Proof. reflexivity. Qed.
Lemma eoC_vars : forall k c l, In c (eoC k) -> In l c -> In (fst l) (kvars k).
Proof.
  intros k c l I J. destruct (eo_vars _ _ _ _ _ I J) as [H|[H|[H _]]]; [| |congruence]; unfold kvars; apply in_or_app; rewrite map_map in H; [left; exact H|right; cbn in H; rewrite map_id in H; auto].
Qed.
Lemma eoC_agree : forall k a b, (forall v, In v (kvars k) -> a v = b v) -> sat a (eoC k) -> sat b (eoC k).
Proof.
  intros k a b H S c I. specialize (S c I). unfold true_in in *. apply existsb_exists in S as (l & J & T). apply existsb_exists. exists l. split; auto. unfold lit_true in *. rewrite <- H; auto. eapply eoC_vars; eauto.
Qed.
Lemma count_one : forall b (el : list (nat * nat)), NoDup (map fst el) -> count b (map (fun p => pl (snd p)) el) = 1 -> exists i, In i (map fst el) /\ forall j v, In (j, v) el -> b v = (j =? i).
Proof.
  intros b. assert (Z : forall el : list (nat * nat), count b (map (fun p => pl (snd p)) el) = 0 -> forall j v, In (j, v) el -> b v = false).
  { induction el as [|[i v] el IH]; intros C j u I; [destruct I|]. cbn [map] in C. rewrite count_cons, lit_pl in C. cbn [snd] in C. destruct (b v) eqn:Eb; [cbn in C; lia|]. destruct I as [I|I]; [congruence|]. eapply IH; eauto. }
  induction el as [|[i v] el IH]; intros N C; [discriminate|]. cbn [map fst] in *. inversion N; subst. rewrite count_cons, lit_pl in C. cbn [snd] in C. destruct (b v) eqn:Eb.
  - exists i. split; [left; auto|]. intros j u [I|I]; [injection I as <- <-; rewrite Nat.eqb_refl; auto|]. rewrite (Z el) with (j := j) by (auto; lia). symmetry. apply Nat.eqb_neq. intros ->. apply H1. apply (in_map fst) in I. auto.
  - destruct (IH H2) as (i0 & I0 & G); [cbn in C; lia|]. exists i0. split; [right; auto|]. intros j u [I|I]; [injection I as <- <-; rewrite Eb; symmetry; apply Nat.eqb_neq; intros ->; auto|auto].
Qed.
Definition chosen (b : assignment) (p : core * nat) : Prop := forall i v, In (i, v) (k_el (fst p)) -> b v = (i =? snd p).
Lemma choices : forall ks b, (forall k, In k ks -> shape k /\ sat b (eoC k)) -> exists ps, map fst ps = ks /\ valid_ch ps /\ forall p, In p ps -> chosen b p.
Proof.
  induction ks as [|k ks IH]; intros b H.
  - exists []. split; auto. split; intros ? [].
  - destruct (IH b (fun k I => H k (or_intror I))) as (ps & E & V & C). destruct (H k (or_introl eq_refl)) as [[L N] S].
    pose proof (eo_sound b (map (fun p => pl (snd p)) (k_el k)) (map pl (k_aux k)) None ltac:(rewrite !map_length; exact L) S) as Q. cbv iota in Q. destruct (count_one _ _ N Q) as (i & Ii & G). exists ((k, i) :: ps). cbn [map fst]. split; [f_equal; auto|]. split; intros p [<-|I]; auto.
Qed.
Definition setCore (k : core) (i : nat) (b : assignment) : assignment := fun v =>
  if in_dec Nat.eq_dec v (map snd (k_el k)) then pos v (map snd (k_el k)) =? pos i (softs k) else if in_dec Nat.eq_dec v (k_aux k) then pos i (softs k) <=? pos v (k_aux k) else b v.
Lemma nth_pair : forall (el : list (nat * nat)) n, n < length el -> nth n el (0, 0) = (nth n (map fst el) 0, nth n (map snd el) 0).
Proof. intros el n L. rewrite (surjective_pairing (nth n el (0, 0))) at 1. f_equal; symmetry; [exact (map_nth fst el (0, 0) n)|exact (map_nth snd el (0, 0) n)]. Qed.
Lemma app_disj : forall {A} (l1 l2 : list A) x, NoDup (l1 ++ l2) -> In x l1 -> ~ In x l2.
Proof. intros A l1. induction l1 as [|a l IH]; intros l2 x N I J; [destruct I|]. cbn in N. inversion N; subst. destruct I as [->|I]; [apply H1, in_or_app; auto|eapply IH; eauto]. Qed.
Lemma app_nodup : forall {A} (l1 l2 : list A), NoDup (l1 ++ l2) -> NoDup l1 /\ NoDup l2.
Proof. intros A l1. induction l1 as [|a l IH]; intros l2 N; [split; [constructor|auto]|]. cbn in N. inversion N; subst. destruct (IH _ H2). split; auto. constructor; auto. intros K; apply H1, in_or_app; auto. Qed.
Lemma setCore_ok : forall k i b, shape k -> NoDup (kvars k) -> In i (softs k) -> chosen (setCore k i b) (k, i) /\ sat (setCore k i b) (eoC k) /\ forall v, ~ In v (kvars k) -> setCore k i b v = b v.
Proof.
  intros k i b [L N] Nv Ii. destruct (app_nodup _ _ Nv) as [N1 N2]. destruct (pos_in _ _ Ii) as [Li Ni]. unfold softs in Li. rewrite map_length in Li.
  assert (A : forall n, n < length (k_el k) -> setCore k i b (nth n (map snd (k_el k)) 0) = (n =? pos i (softs k))).
  { intros n Hn. unfold setCore. destruct (in_dec _ _ _) as [_|Q]; [|exfalso; apply Q, nth_In; rewrite map_length; auto]. rewrite pos_nth; auto. rewrite map_length; auto. }
  split; [|split].
  - intros j v I. cbn [fst snd] in *. apply In_nth with (d := (0, 0)) in I as (n & Hn & E). rewrite nth_pair in E by auto. injection E as E1 E2. rewrite <- E2, A by auto. destruct (Nat.eqb_spec j i) as [->|Q].
    + apply Nat.eqb_eq. rewrite <- E1. symmetry. apply pos_nth; auto. unfold softs. rewrite map_length; auto.
    + apply Nat.eqb_neq. intros ->. apply Q. rewrite <- E1. exact Ni.
  - unfold sat, eoC. apply (eo_complete _ (pos i (softs k)) _ _ None 0); auto; rewrite ?map_length; auto.
    + intros n Hn. rewrite nth_indep with (d' := pl (snd (0, 0))) by (rewrite map_length; auto). rewrite (map_nth (fun p => pl (snd p))), lit_pl, nth_pair by auto. cbn [snd]. rewrite A by auto. reflexivity.
    + intros n Hn. rewrite nth_indep with (d' := pl 0) by (rewrite map_length; auto). rewrite map_nth, lit_pl. unfold setCore. assert (Ia : In (nth n (k_aux k) 0) (k_aux k)) by (apply nth_In; auto). destruct (in_dec _ _ _) as [Q|_]; [destruct (app_disj _ _ _ Nv Q Ia)|]. destruct (in_dec _ _ _) as [_|Q]; [|contradiction]. rewrite pos_nth; auto.
  - intros v Q. unfold setCore. destruct (in_dec _ _ _) as [J|_]; [exfalso; apply Q, in_or_app; auto|]. destruct (in_dec _ _ _) as [J|_]; [exfalso; apply Q, in_or_app; auto|auto].
Qed.
Lemma build_from : forall qs b, NoDup (concat (map kvars (map fst qs))) -> (forall q, In q qs -> shape (fst q)) -> valid_ch qs ->
  exists b', (forall v, ~ In v (concat (map kvars (map fst qs))) -> b' v = b v) /\ forall q, In q qs -> chosen b' q /\ sat b' (eoC (fst q)).
Proof.
  induction qs as [|[k i] qs IH]; intros b N Sh V.
  - exists b. split; auto. intros q [].
  - cbn [map fst concat] in *. destruct (app_nodup _ _ N) as [N1 N2]. destruct (IH b N2 (fun q I => Sh q (or_intror I)) (fun q I => V q (or_intror I))) as (b1 & B1 & C1).
    destruct (setCore_ok k i b1 (Sh _ (or_introl eq_refl)) N1 (V _ (or_introl eq_refl))) as (A1 & A2 & A3). exists (setCore k i b1). split.
    + intros v Q. rewrite A3 by (intros K; apply Q, in_or_app; auto). apply B1. intros K; apply Q, in_or_app; auto.
    + intros q [<-|I]; [auto|]. assert (D : forall v, In v (kvars (fst q)) -> b1 v = setCore k i b1 v). { intros v J. symmetry. apply A3. intros K. eapply (app_disj _ _ v N K). apply in_concat. exists (kvars (fst q)). split; auto. apply in_map, in_map; auto. }
      destruct (C1 q I) as [X Y]. split; [|eapply eoC_agree; eauto]. intros j v J. rewrite <- D; [apply X; auto|]. unfold kvars. apply in_or_app. left. apply (in_map snd) in J. auto.
Qed.

Lemma fop_both : forall {A} (R1 R2 : A -> A -> Prop) l, ForallOrdPairs R1 l -> ForallOrdPairs R2 l -> ForallOrdPairs (fun a b => R1 a b /\ R2 a b) l.
Proof. intros A R1 R2 l F. induction F as [|a l Fa F IH]; intros G; constructor; inversion G; subst; auto. rewrite Forall_forall in *. auto. Qed.
Lemma fop_map : forall {A B} (f : A -> B) (R : B -> B -> Prop) l, ForallOrdPairs R (map f l) -> ForallOrdPairs (fun a b => R (f a) (f b)) l.
Proof. intros A B f R l. induction l as [|a l IH]; intros F; constructor; inversion F; subst; auto. rewrite Forall_forall in *. intros z I. apply H1, in_map; auto. Qed.
Lemma scost_eq : forall a b ss, (forall c, In c ss -> vio a c = vio b c) -> scost a ss = scost b ss.
Proof. intros a b ss H. induction ss as [|c r IH]; auto. rewrite !scost_cons, H, IH; auto. - intros; apply H; right; auto. - left; auto. Qed.

(** ** The invariant *)
Definition entry (Ks : list core) (i d : nat) (l : slit) : Prop := exists k v, In k Ks /\ k_no k = d /\ In (i, v) (k_el k) /\ l = pl v.
Definition forb (Ks : list core) (cl : list slit) : Prop := exists k k' i j v u, In k Ks /\ In k' Ks /\ k_no k < k_no k' /\ In (i, v) (k_el k) /\ In (j, u) (k_el k') /\
  In i (softs k') /\ In j (softs k) /\ pos i (softs k') < pos j (softs k') /\ cl = [neg (pl v); neg (pl u)].
Record sInv (nv0 : nat) (P : problem) (w : wst) (x : mx) (E S : list (list slit)) (Ks : list core) : Prop := {
  v_one : forall c, In c (soft x) -> sc_weight c = 1; v_len : length (wb_map w) = length (soft x);
  v_rel : forall i c, nth_error (soft x) i = Some c -> sc_relax c = map snd (nth i (wb_map w) []);
  v_map : forall i d l, In (d, l) (nth i (wb_map w) []) <-> entry Ks i d l; v_nd : forall i, NoDup (map fst (nth i (wb_map w) []));
  v_idx : wb_idx w = []; v_no : forall k, In k Ks -> k_no k <= wb_cores w; v_dec : ForallOrdPairs (fun k k' => k_no k' < k_no k) Ks;
  v_shape : forall k, In k Ks -> shape k; v_vars : NoDup (concat (map kvars Ks));
  v_range : forall k v, In k Ks -> In v (kvars k) -> nv0 <= v < nbVars x /\ ~ In v (map av (soft x));
  v_E : forall c, In c E <-> In c (p_hard P) \/ exists k, In k Ks /\ In c (eoC k); v_S : forall c, In c S -> forb Ks c }.
Lemma forb_vars : forall nv0 P w x E S Ks, sInv nv0 P w x E S Ks -> clear_of x S.
Proof.
  intros nv0 P w x E S Ks V c l I J. apply (v_S _ _ _ _ _ _ _ V) in I as (k & k' & i & j & v & u & I1 & I2 & _ & I3 & I4 & _ & _ & _ & ->).
  assert (R : fst l = v \/ fst l = u) by (destruct J as [<-|[<-|[]]]; auto). destruct R as [->| ->]; [destruct (v_range _ _ _ _ _ _ _ V k v I1)|destruct (v_range _ _ _ _ _ _ _ V k' u I2)]; try (unfold kvars; apply in_or_app; left; apply (in_map snd) in I3; apply (in_map snd) in I4; auto); split; auto; lia.
Qed.
Lemma use_sym : forall nv0 P w x E S Ks, wfP nv0 P -> sInv nv0 P w x E S Ks -> okS nv0 (nbVars x) (soft x) -> forall b, sat b E -> exists b', agree nv0 b b' /\ sat b' E /\ sat b' S /\ scost b' (soft x) = scost b (soft x).
Proof.
  intros nv0 P w x E S Ks HW V O b HE. destruct (choices Ks b) as (ps & Ep & Vp & Cp). { intros k I. split; [apply (v_shape _ _ _ _ _ _ _ V); auto|]. intros c J. apply HE, (v_E _ _ _ _ _ _ _ V). eauto. }
  destruct (exchange Ks ps Ep Vp) as (qs & Eq & Pq & Vq & Fq). destruct (build_from qs b) as (b' & B1 & B2); auto; [rewrite Eq; apply V|intros q I; apply (v_shape _ _ _ _ _ _ _ V); rewrite <- Eq; apply in_map; auto|].
  assert (A : agree nv0 b b'). { intros v Hv. symmetry. apply B1. rewrite Eq. intros K. apply in_concat in K as (vs & K & J). apply in_map_iff in K as (k & <- & K). destruct (v_range _ _ _ _ _ _ _ V k v K J). lia. }
  assert (Q : forall k, In k Ks -> exists q, In q qs /\ fst q = k) by (intros k I; rewrite <- Eq in I; apply in_map_iff in I as (q & <- & I); eauto).
  exists b'. split; auto. split; [|split].
  - intros c I. apply (v_E _ _ _ _ _ _ _ V) in I as [I|(k & I & J)].
    + rewrite <- (true_in_agree nv0 b b'); auto. * apply HE, (v_E _ _ _ _ _ _ _ V). auto. * apply HW; auto.
    + destruct (Q k I) as (q & Iq & <-). apply (B2 q Iq); auto.
  - intros c I. apply (v_S _ _ _ _ _ _ _ V) in I as (k & k' & i & j & v & u & I1 & I2 & Lk & I3 & I4 & I5 & I6 & I7 & ->). destruct (Q k I1) as (q & Iq & <-), (Q k' I2) as (q' & Iq' & <-).
    destruct (B2 q Iq) as [C1 _], (B2 q' Iq') as [C2 _]. specialize (C1 _ _ I3). specialize (C2 _ _ I4). unfold true_in. cbn [existsb]. rewrite !lit_neg, !lit_pl, C1, C2. destruct (Nat.eqb_spec i (snd q)) as [->|]; auto. destruct (Nat.eqb_spec j (snd q')) as [->|]; auto. exfalso.
    pose proof (v_dec _ _ _ _ _ _ _ V) as D. rewrite <- Eq in D. apply fop_map in D. pose proof (fop_both _ _ _ D Fq) as F. destruct (ForallOrdPairs_In F q' q Iq' Iq) as [->|[[_ Z]|[Z _]]]; [lia| |cbv beta in Z; lia]. apply Z. repeat split; auto.
  - apply scost_eq. intros c I. apply In_nth_error in I as (i & Ei). unfold vio. f_equal. unfold true_in. rewrite !existsb_app. f_equal.
    + symmetry. apply (true_in_agree nv0 b b'); auto. apply (s_lits _ _ _ O). eapply nth_error_In; eauto.
    + rewrite (v_rel _ _ _ _ _ _ _ V i c Ei).
      assert (G : forall a rs, map fst rs = Ks -> valid_ch rs -> (forall q, In q rs -> chosen a q) -> (existsb (lit_true a) (map snd (nth i (wb_map w) [])) = true <-> In i (map snd rs))).
      { intros a rs Er Vr Cr. rewrite existsb_exists. split.
        - intros (l & J & T). apply in_map_iff in J as ([d l'] & <- & J). apply (v_map _ _ _ _ _ _ _ V) in J as (k & v & Jk & _ & Jv & ->). cbn [snd] in T. rewrite lit_pl in T. rewrite <- Er in Jk. apply in_map_iff in Jk as (q & <- & Jk). rewrite (Cr q Jk i v Jv) in T. apply Nat.eqb_eq in T as ->. apply in_map; auto.
        - intros J. apply in_map_iff in J as (q & E1 & J). pose proof (Vr q J) as K. rewrite E1 in K. unfold softs in K. apply in_map_iff in K as ([i' v] & E2 & K). cbn in E2. subst i'. exists (pl v). split; [|rewrite lit_pl, (Cr q J i v K), E1, Nat.eqb_refl; auto].
          apply in_map_iff. exists (k_no (fst q), pl v). split; auto. apply (v_map _ _ _ _ _ _ _ V). exists (fst q), v. repeat split; auto. rewrite <- Er. apply in_map; auto. }
      pose proof (G b ps Ep Vp Cp) as G1. pose proof (G b' qs Eq Vq (fun q I => proj1 (B2 q I))) as G2. assert (Pi : In i (map snd ps) <-> In i (map snd qs)) by (split; apply Permutation_in; [auto|apply Permutation_sym; auto]).
      apply eq_true_iff_eq. rewrite G1, G2. symmetry. exact Pi.
Qed.

(** ** The clauses of symmetryBreaking *)
Lemma nth_upd : forall {A} (f : A -> A) l i c d, nth c (updAt i f l) d = if (c =? i) && (c <? length l) then f (nth c l d) else nth c l d.
Proof.
  intros A f l. induction l as [|a l IH]; intros i c d.
  - destruct i, c; cbn; rewrite ?andb_false_r; reflexivity.
  - destruct i as [|i], c as [|c]; cbn [nth updAt]; try reflexivity. rewrite IH. reflexivity.
Qed.
Lemma len_upd : forall {A} (f : A -> A) l i, length (updAt i f l) = length l.
Proof. intros A f l. induction l as [|a l IH]; intros [|i]; cbn; auto. Qed.
Lemma fop_nth : forall {A} (R : A -> A -> Prop) l d n j, ForallOrdPairs R l -> n < j < length l -> R (nth n l d) (nth j l d).
Proof.
  intros A R l d n j F. revert n j. induction F as [|a l Fa F IH]; intros n j L; [cbn in L; lia|]. destruct j as [|j]; [lia|]. cbn [length] in L. destruct n as [|n]; cbn [nth]; [|apply IH; lia]. rewrite Forall_forall in Fa. apply Fa, nth_In. lia.
Qed.
Lemma fop_app : forall {A} (R : A -> A -> Prop) l1 l2, ForallOrdPairs R l1 -> ForallOrdPairs R l2 -> (forall a b, In a l1 -> In b l2 -> R a b) -> ForallOrdPairs R (l1 ++ l2).
Proof.
  intros A R l1 l2 F G H. induction F as [|a l Fa F IH]; auto. cbn. constructor; [|apply IH; intros; apply H; auto; right; auto]. rewrite Forall_forall in *. intros z I. apply in_app_or in I as [I|I]; auto. apply H; auto. left; auto.
Qed.
Definition stepIn (y : sym) (cl : nat * slit) : sym :=
  let lst := match nth (fst cl) (sy_in y) [] with [] => sy_list y ++ [fst cl] | _ => sy_list y end in
  Sym (updAt (fst cl) (fun l => l ++ [snd cl]) (sy_in y)) (sy_cur y) lst (sy_dup y) (sy_out y).
Definition stepCur (cur : slit) (y : sym) (cl : nat * slit) : sym := Sym (sy_in y) (updAt (fst cl) (fun l => l ++ [cur]) (sy_cur y)) (sy_list y) (sy_dup y) (sy_out y).
Lemma symSoft_eq : forall m y p, symSoft m y p = let e := nth p m [] in let y2 := fold_left (stepCur (snd (last e (0, (0, false))))) (removelast e) (fold_left stepIn (removelast e) y) in fold_left symCore (sy_list y2) y2.
Proof. reflexivity. Qed.
Definition at_core (c : nat) (old : list (nat * slit)) : list slit := map snd (filter (fun cl => fst cl =? c) old).
Lemma foldIn : forall old y, let y' := fold_left stepIn old y in length (sy_in y') = length (sy_in y) /\ sy_cur y' = sy_cur y /\ sy_out y' = sy_out y /\
  forall c, nth c (sy_in y') [] = nth c (sy_in y) [] ++ if c <? length (sy_in y) then at_core c old else [].
Proof.
  induction old as [|cl old IH]; intros y; cbn [fold_left].
  - repeat split. intros c. destruct (c <? _); cbn; rewrite app_nil_r; auto.
  - destruct (IH (stepIn y cl)) as (A & B & C & D). cbn [sy_in sy_cur sy_out stepIn] in *. rewrite len_upd in *. repeat split; auto. intros c. rewrite D, nth_upd. unfold at_core. cbn [filter]. rewrite (Nat.eqb_sym c (fst cl)). destruct (fst cl =? c), (c <? length (sy_in y)); cbn [andb map]; auto. rewrite <- app_assoc. auto.
Qed.
Lemma foldCur : forall cur old y, let y' := fold_left (stepCur cur) old y in length (sy_cur y') = length (sy_cur y) /\ sy_in y' = sy_in y /\ sy_out y' = sy_out y /\
  forall c, nth c (sy_cur y') [] = nth c (sy_cur y) [] ++ if c <? length (sy_cur y) then map (fun _ => cur) (at_core c old) else [].
Proof.
  intros cur. induction old as [|cl old IH]; intros y; cbn [fold_left].
  - repeat split. intros c. destruct (c <? _); cbn; rewrite app_nil_r; auto.
  - destruct (IH (stepCur cur y cl)) as (A & B & C & D). cbn [sy_in sy_cur sy_out stepCur] in *. rewrite len_upd in *. repeat split; auto. intros c. rewrite D, nth_upd. unfold at_core. cbn [filter]. rewrite (Nat.eqb_sym c (fst cl)). destruct (fst cl =? c), (c <? length (sy_cur y)); cbn [andb map]; auto. rewrite <- app_assoc. auto.
Qed.
(** what is kept and what is added *)
Definition grows (Q : list slit -> Prop) (y y' : sym) : Prop := sy_in y' = sy_in y /\ sy_cur y' = sy_cur y /\ forall cl, In cl (sy_out y') -> In cl (sy_out y) \/ Q cl.
Lemma grows_fold : forall {A} Q (f : sym -> A -> sym) l y, (forall a y', In a l -> sy_in y' = sy_in y -> sy_cur y' = sy_cur y -> grows Q y' (f y' a)) -> grows Q y (fold_left f l y).
Proof.
  intros A Q f l. induction l as [|a l IH]; intros y H; cbn [fold_left]; [split; auto|]. destruct (H a y (or_introl eq_refl) eq_refl eq_refl) as (A1 & A2 & A3).
  destruct (IH (f y a)) as (B1 & B2 & B3); [intros a' y' I E1 E2; apply H; [right; auto|congruence|congruence]|]. split; [congruence|]. split; [congruence|]. intros cl I. apply B3 in I as [I|I]; auto.
Qed.
Lemma symCore_grows : forall y c, grows (fun cl => exists n j, n < length (nth c (sy_in y) []) /\ n < j < length (nth c (sy_cur y) []) /\ cl = [neg (nth n (nth c (sy_in y) []) (0, false)); neg (nth j (nth c (sy_cur y) []) (0, false))]) y (symCore y c).
Proof.
  intros y c. unfold symCore. apply grows_fold. intros n y1 In1 _ _. apply in_seq in In1. apply grows_fold. intros j y2 In2 _ _. apply in_seq in In2. unfold symAdd. destruct (existsb _ _); [split; auto|]. split; auto. split; auto. cbn [sy_out]. intros cl I. apply in_app_or in I as [I|[<-|[]]]; auto. right. exists n, j. repeat split; auto; lia.
Qed.
Lemma nth_mapd : forall {A} (g : A -> slit) ts n d, n < length ts -> nth n (map g ts) (0, false) = g (nth n ts d).
Proof. intros A g ts n d L. rewrite nth_indep with (d' := g d) by (rewrite map_length; auto). apply map_nth. Qed.
Section Break.
Variables (Ks : list core) (K' : core) (m : list (list (nat * slit))).
Hypothesis Hdec : ForallOrdPairs (fun k k' => k_no k' < k_no k) (K' :: Ks).
Definition goodP (p : nat) : Prop := exists u, nth p m [] <> [] /\ snd (last (nth p m []) (0, (0, false))) = pl u /\ In (p, u) (k_el K') /\ NoDup (map fst (removelast (nth p m []))) /\ forall c l, In (c, l) (removelast (nth p m [])) -> entry Ks p c l.
Definition col (c : nat) (y : sym) (ps : list nat) : Prop := exists ts : list (nat * (nat * nat)), nth c (sy_in y) [] = map (fun t => pl (fst (snd t))) ts /\ nth c (sy_cur y) [] = map (fun t => pl (snd (snd t))) ts /\
  ForallOrdPairs (fun t t' => pos (fst t) (softs K') < pos (fst t') (softs K')) ts /\ forall t, In t ts -> In (fst t) ps /\ entry Ks (fst t) c (pl (fst (snd t))) /\ In (fst t, snd (snd t)) (k_el K').
Definition symI (y : sym) (ps : list nat) : Prop := length (sy_in y) = length (sy_cur y) /\ (forall c, col c y ps) /\ forall cl, In cl (sy_out y) -> forb (K' :: Ks) cl.
Lemma no_uniq : forall k k2, In k Ks -> In k2 Ks -> k_no k = k_no k2 -> k = k2.
Proof. intros k k2 I J E. inversion Hdec; subst. destruct (ForallOrdPairs_In H2 k k2 I J) as [Z|[Z|Z]]; auto; lia. Qed.
Lemma at_core_one : forall old c, NoDup (map fst old) -> at_core c old = [] \/ exists l, In (c, l) old /\ at_core c old = [l].
Proof.
  induction old as [|[d l] old IH]; intros c N; [left; auto|]. cbn [map fst] in N. inversion N; subst. unfold at_core in *. cbn [filter fst]. destruct (Nat.eqb_spec d c) as [->|Q].
  - right. exists l. split; [left; auto|]. cbn [map snd]. f_equal. assert (Z : filter (fun cl : nat * slit => fst cl =? c) old = []). { clear - H1. induction old as [|[e l'] r IH]; auto. cbn [map fst filter] in *. destruct (Nat.eqb_spec e c) as [->|]; [exfalso; apply H1; left; auto|]. apply IH. intros K; apply H1; right; auto. } rewrite Z. auto.
  - destruct (IH c H2) as [E|(l' & I & E)]; [left; auto|right; exists l'; split; [right; auto|auto]].
Qed.
Lemma out_forb : forall y ps c n j, col c y ps -> n < length (nth c (sy_in y) []) -> n < j < length (nth c (sy_cur y) []) -> forb (K' :: Ks) [neg (nth n (nth c (sy_in y) []) (0, false)); neg (nth j (nth c (sy_cur y) []) (0, false))].
Proof.
  intros y ps c n j (ts & E1 & E2 & F & G) L1 L2. rewrite E1, E2 in *. rewrite map_length in *. set (d := (0, (0, 0)) : nat * (nat * nat)).
  rewrite (nth_mapd _ ts n d) by lia. rewrite (nth_mapd _ ts j d) by lia.
  destruct (G (nth n ts d) (nth_In _ _ L1)) as (_ & (k & v & Ik & Ek & Iv & Ev) & Iu). destruct (G (nth j ts d) (nth_In _ _ (proj2 L2))) as (_ & (k2 & v2 & Ik2 & Ek2 & Iv2 & Ev2) & Iu2). assert (k2 = k) as -> by (apply no_uniq; auto; congruence).
  pose proof (fop_nth _ _ d _ _ F L2) as Lt. cbv beta in Lt. exists k, K', (fst (nth n ts d)), (fst (nth j ts d)), v, (snd (snd (nth j ts d))). rewrite Ev. split; [right; auto|]. split; [left; auto|]. split; [inversion Hdec; subst; rewrite Forall_forall in H1; apply (H1 k Ik)|]. split; auto. split; auto.
  split; [apply (in_map fst) in Iu; auto|]. split; [apply (in_map fst) in Iv2; auto|]. split; auto.
Qed.
Lemma symSoft_ok : forall y ps p, symI y ps -> goodP p -> (forall q, In q ps -> pos q (softs K') < pos p (softs K')) -> symI (symSoft m y p) (ps ++ [p]).
Proof.
  intros y ps p (L & C & O) (u & Ne & El & Iu & N & Hold) Hlt. rewrite symSoft_eq. cbv zeta. rewrite El. set (e := nth p m []) in *. set (y1 := fold_left stepIn (removelast e) y). set (y2 := fold_left (stepCur (pl u)) (removelast e) y1).
  destruct (foldIn (removelast e) y) as (A1 & A2 & A3 & A4). destruct (foldCur (pl u) (removelast e) y1) as (B1 & B2 & B3 & B4). fold y1 in A1, A2, A3, A4. fold y2 in B1, B2, B3, B4.
  assert (C2 : forall c, col c y2 (ps ++ [p])).
  { intros c. destruct (C c) as (ts & E1 & E2 & F & G). destruct (Nat.ltb_spec c (length (sy_in y))) as [Lc|Lc].
    - assert (Lc1 : c <? length (sy_in y) = true) by (apply Nat.ltb_lt; auto). assert (Lc2 : c <? length (sy_cur y1) = true) by (apply Nat.ltb_lt; rewrite A2; lia). destruct (at_core_one (removelast e) c N) as [Z|(l & Il & Z)].
      + exists ts. rewrite B2, A4, B4, A2, Lc1. rewrite A2 in Lc2. rewrite Lc2, Z. cbn [map]. rewrite !app_nil_r. split; auto. split; auto. split; auto. intros t I. destruct (G t I) as (X & Y). split; [apply in_or_app; auto|auto].
      + pose proof (Hold _ _ Il) as (k & v & Ik & Ek & Iv & ->). exists (ts ++ [(p, (v, u))]). rewrite B2, A4, B4, A2, Lc1. rewrite A2 in Lc2. rewrite Lc2, Z, E1, E2, !map_app. cbn [map fst snd]. split; auto. split; auto. split.
        * apply fop_app; auto; [constructor; constructor|]. intros a b Ia [<-|[]]. cbn [fst]. apply Hlt, (G a Ia).
        * intros t I. apply in_app_or in I as [I|[<-|[]]]; [destruct (G t I) as (X & Y); split; [apply in_or_app; auto|auto]|]. cbn [fst snd]. split; [apply in_or_app; right; left; auto|]. split; auto; exists k, v; auto.
    - assert (Lc1 : c <? length (sy_in y) = false) by (apply Nat.ltb_ge; auto). assert (Lc2 : c <? length (sy_cur y) = false) by (apply Nat.ltb_ge; lia). exists ts. rewrite B2, A4, B4, A2, Lc1, Lc2. rewrite !app_nil_r. split; auto. split; auto. split; auto. intros t I. destruct (G t I) as (X & Y). split; [apply in_or_app; auto|auto]. }
  assert (Gr : grows (forb (K' :: Ks)) y2 (fold_left symCore (sy_list y2) y2)).
  { apply grows_fold. intros c y3 _ E1 E2. destruct (symCore_grows y3 c) as (G1 & G2 & G3). split; auto. split; auto. intros cl I. apply G3 in I as [I|(n & j & L1 & L2 & ->)]; auto. right. rewrite E1, E2 in *. apply (out_forb y2 (ps ++ [p])); auto. }
  destruct Gr as (G1 & G2 & G3). split; [rewrite G1, G2; rewrite B1, B2, A1, A2; auto|]. split.
  - intros c. unfold col. rewrite G1, G2. apply C2.
  - intros cl I. apply G3 in I as [I|I]; auto. apply O. rewrite B3, A3 in I. auto.
Qed.
Lemma symFold_ok : forall qs ps y, symI y ps -> (forall p, In p qs -> goodP p) -> ForallOrdPairs (fun i j => pos i (softs K') < pos j (softs K')) qs -> (forall a b, In a ps -> In b qs -> pos a (softs K') < pos b (softs K')) -> symI (fold_left (symSoft m) qs y) (ps ++ qs).
Proof.
  induction qs as [|q qs IH]; intros ps y I G F H; cbn [fold_left]; [rewrite app_nil_r; auto|]. inversion F as [|? ? F1 F2]; subst. rewrite Forall_forall in F1. replace (ps ++ q :: qs) with ((ps ++ [q]) ++ qs) by (rewrite <- app_assoc; auto). apply IH.
  - apply symSoft_ok; auto. + apply G; left; auto. + intros a Ia. apply H; auto. left; auto.
  - intros p Ip; apply G; right; auto.
  - auto.
  - intros a b Ia Ib. apply in_app_or in Ia as [Ia|[<-|[]]]; [apply H; auto; right; auto|apply F1; auto].
Qed.
Lemma symBreak_ok : forall w, wb_map w = m -> (forall p, In p (wb_idx w) -> goodP p) -> ForallOrdPairs (fun i j => pos i (softs K') < pos j (softs K')) (wb_idx w) -> forall cl, In cl (sy_out (symBreak w)) -> forb (K' :: Ks) cl.
Proof.
  intros w E G F. unfold symBreak. rewrite E. apply (symFold_ok (wb_idx w) []); auto; [|intros a b []]. split; [reflexivity|]. split; [|intros cl []]. intros c. exists []. cbn [sy_in sy_cur map]. assert (Z : forall k, nth c (repeat (@nil slit) k) [] = []) by (intros k; revert c; induction k as [|k IH]; intros [|c]; cbn; auto). rewrite Z. split; auto. split; auto. split; [constructor|intros t []].
Qed.
End Break.

(** ** One core of an unweighted problem *)
Lemma coreIndex_asm : forall l cs cs' j, map sc_asm cs = map sc_asm cs' -> coreIndex l cs j = coreIndex l cs' j.
Proof. intros l. induction cs as [|c cs IH]; intros [|c' cs'] j E; try discriminate; auto. cbn [map] in E. injection E as E1 E2. cbn [coreIndex]. rewrite (IH _ _ E2), E1. auto. Qed.
Definition addM (D : nat) (K : list (nat * nat)) (i : nat) : list (nat * slit) := map (fun p => (D, pl (snd p))) (filter (fun p => fst p =? i) K).
Lemma addM_app : forall D K1 K2 i, addM D (K1 ++ K2) i = addM D K1 i ++ addM D K2 i.
Proof. intros. unfold addM. rewrite filter_app, map_app. auto. Qed.
Lemma addM_out : forall D K i, ~ In i (map fst K) -> addM D K i = [].
Proof. intros D K i N. unfold addM. induction K as [|[j v] K IH]; auto. cbn [filter fst map] in *. destruct (Nat.eqb_spec j i) as [->|]; [exfalso; apply N; left; auto|]. apply IH. intros Q; apply N; right; auto. Qed.
Lemma addM_in : forall D K i, NoDup (map fst K) -> In i (map fst K) -> exists u, In (i, u) K /\ addM D K i = [(D, pl u)].
Proof.
  intros D K i. induction K as [|[j v] K IH]; intros N I; [destruct I|]. cbn [map fst] in *. inversion N; subst. destruct (Nat.eq_dec j i) as [->|Q].
  - exists v. split; [left; auto|]. pose proof (addM_out D K i H1) as Z. unfold addM in *. cbn [filter fst]. rewrite Nat.eqb_refl. cbn [map snd]. rewrite Z. auto.
  - destruct I as [I|I]; [congruence|]. destruct (IH H2 I) as (u & Iu & Z). exists u. split; [right; auto|]. unfold addM in *. cbn [filter fst]. destruct (Nat.eqb_spec j i); [congruence|auto].
Qed.
Record rel (D nb : nat) (ss : list softc) (m : list (list (nat * slit))) (x : mx) (w : wst) (K : list (nat * nat)) : Prop := {
  r_cores : wb_cores w = D; r_nv : nbVars x = nb + length K; r_seq : map snd K = seq nb (length K); r_len : length (wb_map w) = length m;
  r_map : forall i, nth i (wb_map w) [] = nth i m [] ++ addM D K i; r_slen : length (soft x) = length ss;
  r_soft : forall i c, nth_error ss i = Some c -> nth_error (soft x) i = Some (Soft (sc_lits c) (sc_relax c ++ map snd (addM D K i)) (sc_weight c) (sc_asm c));
  r_idx : wb_idx w = filter (fun i => 0 <? length (nth i m [])) (map fst K); r_nd : NoDup (map fst K); r_lt : forall i, In i (map fst K) -> i < length ss }.
Lemma rel_asm : forall D nb ss m x w K, rel D nb ss m x w K -> map sc_asm (soft x) = map sc_asm ss.
Proof.
  intros D nb ss m x w K R. pose proof (r_slen _ _ _ _ _ _ _ R) as L. pose proof (r_soft _ _ _ _ _ _ _ R) as S. clear R. revert S L. generalize (soft x) as s0. intros s0 S L. apply nth_ext with (d := None) (d' := None); [rewrite !map_length; auto|]. intros n Hn. rewrite map_length in Hn.
  destruct (nth_error ss n) as [c|] eqn:E; [|apply nth_error_None in E; lia]. pose proof (S _ _ E) as E2. rewrite (nth_error_nth (map sc_asm s0) n None (map_nth_error sc_asm n s0 E2)). rewrite (nth_error_nth (map sc_asm ss) n None (map_nth_error sc_asm n ss E)). reflexivity.
Qed.
Lemma nerr_upd : forall {A} (f : A -> A) l i c, nth_error (updAt i f l) c = if c =? i then option_map f (nth_error l c) else nth_error l c.
Proof. intros A f l. induction l as [|a l IH]; intros i c. - destruct i, c; cbn; auto; destruct (c =? i); auto. - destruct i as [|i], c as [|c]; cbn [nth_error updAt]; try reflexivity. rewrite IH. reflexivity. Qed.
Lemma relax_sym : forall D nb nv0 nv ss m, okS nv0 nv ss -> length m = length ss -> (forall c, In c ss -> sc_weight c = 1) -> forall conf x w K, rel D nb ss m x w K -> NoDup conf -> (forall l, In l conf -> exists i c, nth_error ss i = Some c /\ l = (av c, false) /\ ~ In i (map fst K)) ->
  wpM (relaxCore true conf 1 w) x (fun q y => exists K1, rel D nb ss m y (snd q) (K ++ K1) /\ fst q = map (fun p => pl (snd p)) K1 /\ length K1 = length conf).
Proof.
  intros D nb nv0 nv ss m O Lm H1. induction conf as [|l r IH]; intros x w K R N C; cbn [relaxCore].
  - apply wpM_ret. exists []. rewrite app_nil_r. auto.
  - inversion N as [|? ? N1 N2]; subst. destruct (C l (or_introl eq_refl)) as (i & c & Ei & -> & Ni). assert (Ic : In c ss) by (eapply nth_error_In; eauto).
    assert (Ci : coreIndex (av c, false) ss 0 = Some i).
    { destruct (nth_error_split _ _ Ei) as (l1 & l2 & Es & El). rewrite Es, <- El. apply (core_at l1 c l2 0); rewrite <- Es; [intros d I; apply (s_asm _ _ _ O d I)|apply O]. }
    apply wpM_bind, wpM_get. rewrite (coreIndex_asm _ _ _ _ (rel_asm _ _ _ _ _ _ _ R)), Ci. rewrite (r_soft _ _ _ _ _ _ _ R i c Ei). cbn [sc_weight]. rewrite (H1 c Ic). cbn [Nat.eqb]. apply wpM_bind. unfold newLiteral, wpM at 1. apply wpM_bind, wpM_do. apply wpM_bind.
    assert (Li : i < length ss) by (apply nth_error_Some; rewrite Ei; discriminate). assert (Za : addM D K i = []) by (apply addM_out; auto). set (x' := set_soft _ _). set (w' := symLog true i _ w).
    assert (R' : rel D nb ss m x' w' (K ++ [(i, nbVars x)])).
    { destruct R as [R1 R2 R3 R4 R5 R6 R7 R8 R9 R10]. assert (Er : wb_map w ++ repeat [] (S i - length (wb_map w)) = wb_map w) by (replace (S i - length (wb_map w)) with 0 by lia; cbn [repeat]; apply app_nil_r).
      assert (Em : forall i', nth i' (updAt i (fun e => e ++ [(wb_cores w, pl (nbVars x))]) (wb_map w)) [] = nth i' m [] ++ addM D (K ++ [(i, nbVars x)]) i').
      { intros i'. rewrite nth_upd, addM_app, app_assoc, <- R5. unfold addM at 1. cbn [filter fst]. rewrite (Nat.eqb_sym i i'). destruct (Nat.eqb_spec i' i) as [->|Q]; cbn [andb map snd]; [|rewrite app_nil_r; auto]. replace (i <? length (wb_map w)) with true by (symmetry; apply Nat.ltb_lt; lia). rewrite R1. auto. }
      constructor; unfold x', w', symLog; cbn [nbVars soft set_soft set_nbVars wb_cores wb_map wb_idx]; rewrite ?Er.
      - auto.
      - rewrite app_length. cbn. lia.
      - rewrite map_app, app_length, R3. cbn [length map snd]. rewrite seq_app. cbn [seq]. rewrite R2. auto.
      - rewrite len_upd. auto.
      - exact Em.
      - rewrite len_upd. auto.
      - intros i' c' E'. rewrite nerr_upd, addM_app. pose proof (R7 i' c' E') as Q. destruct (Nat.eqb_spec i' i) as [->|Z].
        + rewrite Q. cbn [option_map sc_lits sc_relax sc_weight sc_asm]. unfold addM at 3. cbn [filter fst]. rewrite Nat.eqb_refl. cbn [map snd]. rewrite map_app, app_assoc. reflexivity.
        + rewrite Q. unfold addM at 3. cbn [filter fst]. destruct (Nat.eqb_spec i i'); [congruence|]. cbn [map]. rewrite app_nil_r. reflexivity.
      - pose proof (Em i) as Ei'. unfold pl in Ei'. rewrite Ei', map_app, filter_app, app_length, <- R8. cbn [map fst filter]. rewrite addM_app, Za. unfold addM. cbn [filter fst]. rewrite Nat.eqb_refl. cbn [map app length]. replace (1 <? length (nth i m []) + 1) with (0 <? length (nth i m [])) by (rewrite Nat.add_1_r; reflexivity). destruct (0 <? _); [auto|rewrite app_nil_r; auto].
      - rewrite map_app. cbn [map fst]. eapply Permutation_NoDup; [apply Permutation_cons_append|]. constructor; auto.
      - intros j I. rewrite map_app in I. apply in_app_or in I as [I|[<-|[]]]; auto. }
    eapply wpM_mono; [apply (IH x' w' _ R' N2)|].
    + intros l I. destruct (C l (or_intror I)) as (j & d & Ej & -> & Nj). exists j, d. split; auto. split; auto. rewrite map_app. intros Q. apply in_app_or in Q as [Q|[Q|[]]]; auto. cbn in Q. subst j. apply N1. replace c with d by congruence. auto.
    + cbv beta. intros q y (K1 & Rq & Eq & Lq). apply wpM_ret. exists ((i, nbVars x) :: K1). cbn [fst snd map length]. rewrite <- app_assoc in Rq. split; [exact Rq|]. split; [rewrite Eq; reflexivity|auto].
Qed.

Lemma forb_mono : forall Ks k cl, forb Ks cl -> forb (k :: Ks) cl.
Proof. intros Ks k cl (k1 & k2 & i & j & v & u & I1 & I2 & Q). exists k1, k2, i, j, v, u. split; [right; auto|]. split; [right; auto|auto]. Qed.
Lemma removelast_snoc : forall {A} (l : list A) a, removelast (l ++ [a]) = l.
Proof. intros A l a. rewrite removelast_app by discriminate. cbn. apply app_nil_r. Qed.
Lemma seq_nodup2 : forall a n k l, (forall v, In v l -> v < a) -> NoDup l -> NoDup ((seq a n ++ seq (a + n) k) ++ l).
Proof. intros a n k l H N. rewrite <- seq_app. generalize (n + k). intros q. revert a H. induction q as [|q IH]; intros a H; cbn [seq app]; auto. constructor; [|apply IH; intros v I; specialize (H v I); lia]. intros I. apply in_app_or in I as [I|I]; [apply in_seq in I; lia|specialize (H _ I); lia]. Qed.
Lemma step_sym : forall nv0 P w x E S Ks conf wc, sInv nv0 P w x E S Ks -> okCore nv0 x conf wc -> wpM (relaxCore true conf wc (bump w)) x (fun q y => forall aux z, aux = map (fun i => (i, false)) (seq (nbVars y) (length (fst q) - 1)) -> z = set_nbVars (nbVars y + length aux) y ->
    exists Ks', sInv nv0 P (afterW true (snd q)) z (E ++ eoClauses None (fst q) aux) (S ++ sy_out (symOf true (snd q))) Ks').
Proof.
  intros nv0 P w x E S Ks conf wc V (L & O & W1 & N & C). destruct conf as [|l0 r].
  { cbn [relaxCore]. apply wpM_ret. cbn [fst snd length]. intros aux z -> ->. exists Ks. cbn [Nat.sub seq map eoClauses length]. rewrite app_nil_r. unfold symOf, symBreak. cbn [bump wb_idx wb_map wb_cores wb_dup]. rewrite (v_idx _ _ _ _ _ _ _ V). cbn [fold_left sy_out]. rewrite app_nil_r.
    destruct V as [V1 V2 V3 V4 V5 V6 V7 V8 V9 V10 V11 V12 V13]. constructor; auto; cbn [afterW bump wb_cores wb_map wb_idx soft set_nbVars nbVars]; auto. intros k v I J. rewrite Nat.add_0_r. apply (V11 k); auto. }
  assert (wc = 1) as ->. { destruct (C l0 (or_introl eq_refl)) as (c & Ic & _ & Wc). pose proof (v_one _ _ _ _ _ _ _ V c Ic). lia. }
  set (D := Datatypes.S (wb_cores w)). set (m := wb_map w). assert (R0 : rel D (nbVars x) (soft x) m x (bump w) []).
  { constructor; cbn [bump wb_cores wb_map wb_idx length map seq filter]; auto.
    - intros i. rewrite app_nil_r. auto.
    - intros i c Ei. rewrite Ei. unfold addM. cbn. rewrite app_nil_r. destruct c; auto.
    - apply (v_idx _ _ _ _ _ _ _ V).
    - constructor.
    - intros i []. }
  eapply wpM_mono; [apply (relax_sym D (nbVars x) nv0 (nbVars x) (soft x) m O (v_len _ _ _ _ _ _ _ V) (v_one _ _ _ _ _ _ _ V) (l0 :: r) x (bump w) [] R0 N)|].
  { intros l I. destruct (C l I) as (c & Ic & -> & _). apply In_nth_error in Ic as (i & Ei). exists i, c. auto. }
  cbv beta. intros q y (K & R & Eq & Lq). intros aux z -> ->. cbn [app] in R. set (w' := snd q) in *. rewrite Eq, !map_length. rewrite seq_length.
  assert (Ne : length K = Datatypes.S (length K - 1)) by (cbn in Lq; lia). set (K' := Core D K (seq (nbVars y) (length K - 1))). exists (K' :: Ks).
  pose proof (rel_asm _ _ _ _ _ _ _ R) as Ra. assert (Av : map av (soft y) = map av (soft x)). { change av with (fun c => fst (match sc_asm c with Some l => l | None => (0, false) end)). rewrite <- !(map_map sc_asm (fun o : option slit => fst (match o with Some l => l | None => (0, false) end))). congruence. }
  destruct R as [R1 R2 R3 R4 R5 R6 R7 R8 R9 R10]. destruct V as [V1 V2 V3 V4 V5 V6 V7 V8 V9 V10 V11 V12 V13].
  assert (Back : forall i c, nth_error (soft y) i = Some c -> exists c0, nth_error (soft x) i = Some c0 /\ c = Soft (sc_lits c0) (sc_relax c0 ++ map snd (addM D K i)) (sc_weight c0) (sc_asm c0)).
  { intros i c Ei. destruct (nth_error (soft x) i) as [c0|] eqn:E0; [|exfalso; apply nth_error_None in E0; assert (Z : nth_error (soft y) i <> None) by (rewrite Ei; discriminate); apply nth_error_Some in Z; lia]. exists c0. split; auto. specialize (R7 _ _ E0). congruence. }
  assert (Hdec : ForallOrdPairs (fun k k' => k_no k' < k_no k) (K' :: Ks)) by (constructor; auto; apply Forall_forall; intros k I; specialize (V7 k I); cbn; unfold D; lia).
  assert (Mp : forall i d l, In (d, l) (nth i (wb_map w') []) <-> entry (K' :: Ks) i d l).
  { intros i d l. rewrite R5, in_app_iff. unfold m. rewrite V4. split.
    - intros [(k & v & I1 & I2 & I3 & I4)|I]; [exists k, v; repeat split; auto; right; auto|]. unfold addM in I. apply in_map_iff in I as ([j v] & E1 & I). apply filter_In in I as [I Q]. cbn [fst snd] in *. apply Nat.eqb_eq in Q. subst j. injection E1 as <- <-. exists K', v. repeat split; auto. left; auto.
    - intros (k & v & [<-|I1] & I2 & I3 & I4); [|left; exists k, v; auto]. right. cbn [k_no k_el K'] in *. unfold addM. apply in_map_iff. exists (i, v). cbn [snd]. split; [congruence|]. apply filter_In. split; auto. apply Nat.eqb_refl. }
  constructor; cbn [afterW wb_cores wb_map wb_idx wb_dup soft nbVars set_nbVars].
  - intros c I. apply In_nth_error in I as (i & Ei). apply Back in Ei as (c0 & E0 & ->). cbn. apply V1. eapply nth_error_In; eauto.
  - unfold m in R4. congruence.
  - intros i c Ei. apply Back in Ei as (c0 & E0 & ->). cbn [sc_relax]. rewrite R5, map_app. f_equal. apply V3; auto.
  - exact Mp.
  - intros i. rewrite R5, map_app. destruct (in_dec Nat.eq_dec i (map fst K)) as [I|I]; [|rewrite addM_out by auto; rewrite app_nil_r; apply V5]. destruct (addM_in D K i R9 I) as (u & _ & ->). cbn [map fst]. eapply Permutation_NoDup; [apply Permutation_cons_append|]. constructor; [|apply V5].
    intros J. apply in_map_iff in J as ([d l] & E1 & J). cbn in E1. subst d. apply V4 in J as (k & v & Ik & Ek & _). specialize (V7 k Ik). unfold D in Ek. lia.
  - reflexivity.
  - intros k [<-|I]; [cbn [k_no K']; lia|]. specialize (V7 k I). rewrite R1. unfold D. lia.
  - exact Hdec.
  - intros k [<-|I]; auto. split; [cbn [k_el k_aux K']; rewrite seq_length; auto|auto].
  - cbn [map concat]. unfold kvars at 1. cbn [k_el k_aux K']. rewrite R3, R2. apply seq_nodup2; auto. intros v I. apply in_concat in I as (vs & I & J). apply in_map_iff in I as (k & <- & I). apply (V11 k v I J).
  - intros k v [<-|I] J.
    + unfold kvars in J. cbn [k_el k_aux K'] in J. rewrite R3 in J. assert (B : nbVars x <= v < nbVars y + (length K - 1)) by (apply in_app_or in J as [J|J]; apply in_seq in J; lia). split; [lia|]. rewrite Av. intros Q. apply in_map_iff in Q as (c & <- & Ic). destruct (s_asm _ _ _ O c Ic). lia.
    + destruct (V11 k v I J). split; [lia|]. rewrite Av. auto.
  - intros c. rewrite in_app_iff, V12. assert (Ek : eoClauses None (map (fun p => pl (snd p)) K) (map (fun i => (i, false)) (seq (nbVars y) (length K - 1))) = eoC K') by reflexivity. rewrite Ek. split.
    + intros [[I|(k & I & J)]|I]; [auto|right; exists k; split; [right|]; auto|right; exists K'; split; [left|]; auto].
    + intros [I|(k & [<-|I] & J)]; eauto.
  - intros c I. apply in_app_or in I as [I|I]; [apply forb_mono; auto|]. cbn [symOf] in I. apply (symBreak_ok Ks K' (wb_map w') Hdec w' eq_refl); auto.
    + intros p Ip. rewrite R8 in Ip. apply filter_In in Ip as [Ip Lp]. apply Nat.ltb_lt in Lp. destruct (addM_in D K p R9 Ip) as (u & Iu & Eu). exists u. rewrite R5, Eu, last_last, removelast_snoc. split; [destruct (nth p m []); discriminate|]. split; auto. split; auto. split; [apply V5|]. intros d l J. apply V4; auto.
    + rewrite R8. apply fop_filter. apply (pos_lt_sorted (softs K')). exact R9.
Qed.
Lemma wboSym_ok : forall os hd n ws nv0 P va si, (forall i, fair (os i)) -> wfP nv0 P -> (forall wc, In wc (p_soft P) -> fst wc = 1) ->
  forall k x, nbVars x = nv0 -> hard x = p_hard P -> soft x = clean (p_soft P) -> valid x = va -> stId x = si -> lbCost x = 0 -> curW x = 1 -> weighted x = false ->
  wpM (wboSearch os hd n true ws k) x (fin nv0 P va si).
Proof.
  intros os hd n ws nv0 P va si F HW HO k x X1 X2 X3 X4 X5 X6 X7 X8. apply (wboSearch_ok os hd n F nv0 P HW va si true (fun w x E S => exists Ks, sInv nv0 P w x E S Ks)) with (wgt := false); auto.
  - intros w y E S (Ks & V). eapply forb_vars; eauto.
  - intros w y E S (Ks & V) _ O _ b Sb. eapply use_sym; eauto.
  - intros w y E S conf wc (Ks & V) Ok _ _. eapply step_sym; eauto.
  - intros w y y' E S (Ks & V) E1 E2 _. exists Ks. destruct V. constructor; rewrite ?E2, ?E1; auto.
  - intros w y E S (Ks & V). assert (Q1 : sy_out (symOf true w) = []) by (unfold symOf, symBreak; rewrite (v_idx _ _ _ _ _ _ _ V); reflexivity). rewrite Q1, app_nil_r. exists Ks. destruct V. constructor; auto.
  - intros wc I. rewrite HO; auto.
  - intros y w0 Y1 Y2 Y3 ->. exists []. constructor; cbn [afterW wb_cores wb_map wb_idx map concat]; auto.
    + rewrite Y2. intros c I. apply asmd_in in I as (i & wc & E & ->). cbn. apply HO. eapply nth_error_In; eauto.
    + rewrite Y2, repeat_length, <- (map_length av), asmd_av, seq_length. auto.
    + rewrite Y2. intros i c E. apply nth_error_In, asmd_in in E as (j & wc & E & ->). cbn. assert (Z : forall q i, nth i (repeat (@nil (nat * slit)) q) [] = []) by (induction q as [|q IH]; intros [|i']; cbn; auto). rewrite Z. auto.
    + intros i d l. assert (Z : forall q i, nth i (repeat (@nil (nat * slit)) q) [] = []) by (induction q as [|q IH]; intros [|i']; cbn; auto). rewrite Z. split; [intros []|intros (k0 & v & [] & _)].
    + intros i. assert (Z : forall q i, nth i (repeat (@nil (nat * slit)) q) [] = []) by (induction q as [|q IH]; intros [|i']; cbn; auto). rewrite Z. constructor.
    + intros k0 [].
    + constructor.
    + intros k0 [].
    + constructor.
    + intros k0 v [].
    + intros c. split; auto. intros [I|(k0 & [] & _)]; auto.
    + intros c [].
  - rewrite X7. reflexivity.
Qed.
