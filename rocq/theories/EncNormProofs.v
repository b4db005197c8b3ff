(** * Correctness of normalization and of the encoding of any pseudo-Boolean constraint *)

From Coq Require Import String List Bool Arith ZArith Lia Permutation.
From Verif Require Import Spec EncSpec EncAmo EncLemmas EncAmoProofs EncCc EncTotProofs
  EncCn EncCnProofs EncApi EncApiProofs EncPbc EncPbcProofs EncAdderProofs EncMergeProofs EncBinProofs.
Import ListNotations.

(** ** A normalized constraint *)

(** What the chosen encoder needs: the adder looks at 31 bits only, the binary
    merge relies on the number of bits and, on a solver, on the watch dog. *)
Definition pbcFits (z : bool) (cf : pbcConfig) (rhs : Z) : Prop :=
  match c_pbc cf with
  | PBCSWC | PBCBest => True
  | PBCAdderNetworks => (rhs < 2 ^ 31)%Z
  | PBCBinaryMerge => goodLog cf /\ (z = true \/ c_watchdog cf = true)
  end.

Lemma encodeNormalized_ok : forall z cf ls cs rhs n, length ls = length cs -> scoped n ls -> (0 <= rhs)%Z ->
  (forall c, In c cs -> 1 <= c)%Z -> pbcFits z cf rhs ->
  encodesZ z (fun a => (weight a ls cs <= rhs)%Z) n (encodeNormalized cf ls cs rhs n).
Proof.
  intros z cf ls cs rhs n Hl Sl Hr Hc Fit; unfold encodeNormalized.
  destruct (Z.ltb_spec rhs 0); [lia|].
  destruct (Z.eqb_spec rhs 0) as [->|H0].
  { apply encodesZ_nonew.
    - apply cscoped_map; intros l Hin x [<-|[]]; now apply lscope_neg, Sl.
    - intros a; rewrite (weight_zero_iff a ls cs Hl Hc), sat_map; split; intros Q l Hin; specialize (Q l Hin).
      + now apply csat1, lval_neg_true in Q.
      + now apply csat1, lval_neg_true. }
  set (small := filter _ (combine ls cs)); set (c1 := map _ (filter _ (combine ls cs))).
  set (big := filter (fun p : elit * Z => negb (snd p <=? rhs)%Z) (combine ls cs)) in *.
  assert (Wt : forall a, weight a ls cs = (pweight a small + pweight a big)%Z)
    by (intros a; rewrite weight_pweight; apply pweight_filter).
  assert (Sin : forall q, In q small -> In q (combine ls cs) /\ (1 <= snd q <= rhs)%Z).
  { intros q H1; apply filter_In in H1 as [H1 H2]; split; [exact H1|]; apply Z.leb_le in H2.
    specialize (Hc _ (combine_snd_in ls cs q H1)); lia. }
  assert (Bin : forall q, In q big -> In q (combine ls cs) /\ (rhs < snd q)%Z).
  { intros q H1; apply filter_In in H1 as [H1 H2]; split; [exact H1|]; apply negb_true_iff, Z.leb_gt in H2; exact H2. }
  assert (C1 : forall a, sat a c1 <-> forall q, In q big -> lval a (fst q) = false).
  { intros a; unfold c1; rewrite sat_map; split; intros Q q Hin; specialize (Q q Hin).
    - now apply csat1, lval_neg_true in Q.
    - now apply csat1, lval_neg_true. }
  assert (S1 : cscoped n c1).
  { apply cscoped_map; intros q Hin x [<-|[]]; apply lscope_neg, Sl, (combine_fst_in ls cs q), Bin, Hin. }
  assert (Ns : forall a, (0 <= pweight a small)%Z).
  { intros a; apply pweight_nonneg; intros q Hin; destruct (Sin q Hin); lia. }
  assert (Split : forall a, (weight a ls cs <= rhs)%Z <-> sat a c1 /\ (pweight a small <= rhs)%Z).
  { intros a; rewrite C1, Wt; split.
    - intros Q.
      assert (Nb : (0 <= pweight a big)%Z) by (apply pweight_nonneg; intros q Hin; destruct (Bin q Hin); lia).
      split; [|lia]; intros [l c] Hin; cbn [fst]; destruct (lval a l) eqn:El; [|reflexivity]; exfalso.
      pose proof (pweight_in a big l c ltac:(intros q Hq; destruct (Bin q Hq); lia) Hin El).
      destruct (Bin _ Hin) as [_ Hb]; cbn in Hb; specialize (Ns a); lia.
    - intros [Q1 Q2]; rewrite (pweight_zero a big Q1); lia. }
  destruct (Nat.leb_spec (length small) 1) as [Hs|Hs].
  { cbn [app]; apply encodesZ_nonew; [exact S1|]; intros a; rewrite Split.
    split; [|tauto]; intros Q; split; [exact Q|].
    destruct small as [|[l c] [|q r]]; cbn [pweight length] in *; try lia.
    destruct (Sin (l, c) (or_introl eq_refl)) as [_ B]; cbn in B; destruct (lval a l); lia. }
  cbv zeta; set (sl := map fst small); set (sc := map snd small).
  assert (Ll : length sl = length sc) by (unfold sl, sc; now rewrite !map_length).
  assert (L2 : 2 <= length sl) by (unfold sl; rewrite map_length; lia).
  assert (Ssl : scoped n sl).
  { intros l Hin; unfold sl in Hin; apply in_map_iff in Hin as [q [<- Hin]]; apply Sl, (combine_fst_in ls cs q), Sin, Hin. }
  assert (Hsc : forall c, In c sc -> (1 <= c <= rhs)%Z).
  { intros c Hin; unfold sc in Hin; apply in_map_iff in Hin as [q [<- Hin]]; apply (Sin q Hin). }
  match goal with |- context [let '(c2, n') := ?t in _] => destruct t as [c2 n'] eqn:E end.
  assert (F : encodesZ z (fun a => (weight a sl sc <= rhs)%Z) n (c2, n')).
  { rewrite <- E; unfold pbcFits in Fit; destruct (c_pbc cf).
    - apply encodes_Z, swc_ok; (assumption || lia).
    - apply binaryMerge_constraint_ok; tauto.
    - apply encodes_Z, adder_ok; [exact Ll | exact Ssl | lia|]; intros c Hin; specialize (Hsc c Hin); lia.
    - apply encodes_Z, swc_ok; (assumption || lia). }
  assert (F1 : encodesZ z (fun a => sat a c1) n (c1, n)) by (apply encodesZ_nonew; [exact S1 | intros a; reflexivity]).
  cbn [app]; eapply encodesZ_ext; [|apply (encodesZ_and z (fun a => sat a c1) _ n c1 n c2 n' F1 F)].
  - intros a; cbn; rewrite Split, pweight_weight; fold sl sc; tauto.
  - intros a b Ag; now rewrite (agree_weight n a b sl sc Ag Ssl).
Qed.

(** ** Normalization *)

Lemma var_eqb_eq : forall x y, var_eqb x y = true -> x = y.
Proof.
  intros [x|s i| | | | |] [y|t j| | | | |] H; cbn in H; try discriminate; try reflexivity.
  - apply String.eqb_eq in H; now subst.
  - apply andb_true_iff in H as [H1 H2]; apply Nat.eqb_eq in H2; destruct s, t; try discriminate; now subst.
Qed.

Fixpoint mval (a : env) (m : list (var * (Z * Z))) : Z :=
  match m with [] => 0%Z | (x, (n, p)) :: r => ((if a x then p else n) + mval a r)%Z end.
Fixpoint mabs (m : list (var * (Z * Z))) : Z :=
  match m with [] => 0%Z | (x, (n, p)) :: r => (Z.abs n + Z.abs p + mabs r)%Z end.
Fixpoint pabs (ps : list (elit * Z)) : Z :=
  match ps with [] => 0%Z | (_, c) :: r => (Z.abs c + pabs r)%Z end.
Fixpoint sumabs (l : list Z) : Z := match l with [] => 0%Z | c :: r => (Z.abs c + sumabs r)%Z end.

Lemma addConst_val : forall a x n p m, mval a (addConst x n p m) = ((if a x then p else n) + mval a m)%Z.
Proof.
  intros a x n p m; induction m as [|[y [u v]] m IH]; cbn [addConst mval]; [reflexivity|].
  destruct (var_eqb x y) eqn:E; cbn [mval].
  - apply var_eqb_eq in E; subst y; destruct (a x); lia.
  - rewrite IH; lia.
Qed.

Lemma addConst_abs : forall x n p m, (mabs (addConst x n p m) <= Z.abs n + Z.abs p + mabs m)%Z.
Proof.
  intros x n p m; induction m as [|[y [u v]] m IH]; cbn [addConst mabs]; [lia|].
  destruct (var_eqb x y); cbn [mabs]; lia.
Qed.

Lemma addConst_in : forall (P : var -> Prop) x n p m, P x -> (forall e, In e m -> P (fst e)) ->
  forall e, In e (addConst x n p m) -> P (fst e).
Proof.
  intros P x n p m Hx; induction m as [|[y [u v]] m IH]; cbn [addConst]; intros H e He.
  - destruct He as [<-|[]]; exact Hx.
  - destruct (var_eqb x y).
    + destruct He as [<-|He]; [exact (H (y, (u, v)) (or_introl eq_refl)) | apply H; now right].
    + destruct He as [<-|He]; [exact (H (y, (u, v)) (or_introl eq_refl)) | apply IH; [|exact He]].
      intros f Hf; apply H; now right.
Qed.

Lemma var2consts_ok : forall ps,
  (forall a, mval a (var2consts ps) = pweight a ps) /\ (mabs (var2consts ps) <= pabs ps)%Z /\
  (forall P : var -> Prop, (forall q, In q ps -> P (fst (fst q))) -> forall e, In e (var2consts ps) -> P (fst e)).
Proof.
  intros ps; unfold var2consts.
  assert (G : forall ps m,
    let m' := fold_left (fun (m : list (var * (Z * Z))) (q : elit * Z) =>
      if snd (fst q) then addConst (fst (fst q)) 0 (snd q) m else addConst (fst (fst q)) (snd q) 0 m) ps m in
    (forall a, mval a m' = (mval a m + pweight a ps)%Z) /\ (mabs m' <= mabs m + pabs ps)%Z /\
    (forall P : var -> Prop, (forall q, In q ps -> P (fst (fst q))) -> (forall e, In e m -> P (fst e)) ->
       forall e, In e m' -> P (fst e))).
  { clear ps; induction ps as [|[[x b] c] ps IH]; intros m; cbn [fold_left pweight pabs].
    - cbn; split; [intros; lia|]; split; [lia|]; intros P _ H; exact H.
    - cbn [fst snd]; match goal with |- context [fold_left _ ps ?m1] => set (m2 := m1) end.
      destruct (IH m2) as [I1 [I2 I3]]; split; [|split].
      + intros a; rewrite I1; unfold m2, lval; destruct b; cbn [fst snd];
          rewrite addConst_val; destruct (a x); cbn [Bool.eqb negb xorb]; lia.
      + assert (mabs m2 <= Z.abs c + mabs m)%Z.
        { unfold m2; destruct b; [pose proof (addConst_abs x 0 c m) | pose proof (addConst_abs x c 0 m)]; lia. }
        lia.
      + intros P HP Hm; apply I3; [intros q Hq; apply HP; now right|].
        unfold m2; destruct b; apply addConst_in; try exact Hm; exact (HP ((x, _), c) (or_introl eq_refl)). }
  destruct (G ps []) as [G1 [G2 G3]]; split; [|split].
  - intros a; rewrite G1; reflexivity.
  - cbn [mabs] in G2; lia.
  - intros P HP; apply G3; [exact HP | intros e []].
Qed.

Fixpoint qweight (a : env) (l : list (Z * elit)) : Z :=
  match l with [] => 0%Z | (c, x) :: r => ((if lval a x then c else 0) + qweight a r)%Z end.

Lemma qweight_perm : forall a l m, Permutation l m -> qweight a l = qweight a m.
Proof. intros a l m H; induction H as [|[c x] l m H IH|[c x] [d y] l|]; cbn; lia. Qed.

Lemma qweight_weight : forall a l, qweight a l = weight a (map snd l) (map fst l).
Proof. intros a l; induction l as [|[c x] l IH]; cbn; [reflexivity | now rewrite IH]. Qed.

Lemma qweight_nz : forall a l, qweight a (filter (fun q => negb (fst q =? 0)%Z) l) = qweight a l.
Proof.
  intros a l; induction l as [|[c x] l IH]; cbn [filter qweight fst]; [reflexivity|].
  destruct (Z.eqb_spec c 0) as [->|]; cbn [negb qweight]; rewrite IH; [destruct (lval a x); lia | reflexivity].
Qed.

Lemma toPair_ok : forall a m, mval a m = (sumZ (map toShift m) + qweight a (map toPair m))%Z.
Proof.
  intros a m; induction m as [|[x [u v]] m IH]; cbn [mval map sumZ fold_right qweight toShift toPair]; [reflexivity|].
  fold (sumZ (map toShift m)); rewrite IH; destruct (Z.ltb_spec u v); unfold lval; cbn [fst snd];
    destruct (a x); cbn [negb]; lia.
Qed.

Lemma toPair_abs : forall m, (sumZ (map fst (map toPair m)) <= mabs m)%Z.
Proof.
  intros m; induction m as [|[x [u v]] m IH]; cbn [map sumZ fold_right mabs toPair]; [lia|].
  fold (sumZ (map fst (map toPair m))); destruct (Z.ltb_spec u v); cbn [fst]; lia.
Qed.

Lemma sumZ_perm : forall l m, Permutation l m -> sumZ l = sumZ m.
Proof. intros l m H; induction H; unfold sumZ in *; cbn; lia. Qed.

Lemma sumZ_nz : forall l, sumZ (map fst (filter (fun q : Z * elit => negb (fst q =? 0)%Z) l)) = sumZ (map fst l).
Proof.
  intros l; induction l as [|[c x] l IH]; cbn [filter map fst]; [reflexivity|].
  unfold sumZ in *; destruct (Z.eqb_spec c 0) as [->|]; cbn [negb map fst fold_right]; rewrite IH; lia.
Qed.

Lemma pweight_nz : forall a ps, pweight a (filter (fun q : elit * Z => negb (snd q =? 0)%Z) ps) = pweight a ps.
Proof.
  intros a ps; induction ps as [|[l c] ps IH]; cbn [filter pweight snd]; [reflexivity|].
  destruct (Z.eqb_spec c 0) as [->|]; cbn [negb pweight]; rewrite IH; [destruct (lval a l); lia | reflexivity].
Qed.

Lemma pabs_nz : forall ps, pabs (filter (fun q : elit * Z => negb (snd q =? 0)%Z) ps) = pabs ps.
Proof.
  intros ps; induction ps as [|[l c] ps IH]; cbn [filter pabs snd]; [reflexivity|].
  destruct (Z.eqb_spec c 0) as [->|]; cbn [negb pabs]; rewrite IH; [lia | reflexivity].
Qed.

Lemma pabs_sum : forall ls cs, length ls = length cs -> pabs (combine ls cs) = sumabs cs.
Proof.
  intros ls; induction ls as [|l ls IH]; intros [|c cs] H; try discriminate H; cbn; [reflexivity|].
  rewrite IH; [reflexivity | now injection H].
Qed.

(** *** Dividing by the greatest common divisor *)

Lemma fold_gcd_divides : forall cs c, (Z.divide (fold_left Z.gcd cs c) c) /\
  forall x, In x cs -> Z.divide (fold_left Z.gcd cs c) x.
Proof.
  induction cs as [|y cs IH]; intros c; cbn [fold_left]; [split; [apply Z.divide_refl | intros x []]|].
  destruct (IH (Z.gcd c y)) as [I1 I2]; split.
  - etransitivity; [exact I1 | apply Z.gcd_divide_l].
  - intros x [<-|Hx]; [|now apply I2]; etransitivity; [exact I1 | apply Z.gcd_divide_r].
Qed.

Lemma fold_gcd_mul : forall cs c d, (0 <= d)%Z ->
  fold_left Z.gcd (map (fun x => (d * x)%Z) cs) (d * c)%Z = (d * fold_left Z.gcd cs c)%Z.
Proof.
  induction cs as [|y cs IH]; intros c d Hd; cbn [map fold_left]; [reflexivity|].
  rewrite Z.gcd_mul_mono_l_nonneg by exact Hd; now apply IH.
Qed.

Lemma fold_gcd_nonneg : forall cs c, (0 <= c)%Z -> (0 <= fold_left Z.gcd cs c)%Z.
Proof. induction cs as [|y cs IH]; intros c H; cbn [fold_left]; [exact H | apply IH, Z.gcd_nonneg]. Qed.

Lemma weight_mul : forall a d ls cs, weight a ls (map (fun x => (d * x)%Z) cs) = (d * weight a ls cs)%Z.
Proof.
  intros a d ls; induction ls as [|l ls IH]; intros [|c cs]; cbn [map weight]; try lia.
  rewrite IH; destruct (lval a l); lia.
Qed.

Lemma div_map : forall d cs, (0 < d)%Z -> (forall x, In x cs -> Z.divide d x) ->
  cs = map (fun x => (d * x)%Z) (map (fun x => (x / d)%Z) cs).
Proof.
  intros d cs Hd H; rewrite map_map; rewrite <- map_id at 1; apply map_ext_in; intros x Hx.
  destruct (H x Hx) as [q ->]; rewrite Z.div_mul by lia; lia.
Qed.

(** What a result of normalization means. *)
Definition normalHolds (r : normal) (a : env) : Prop :=
  match r with NFalse => False | NTrue => True | NLE ls cs c => (weight a ls cs <= c)%Z end.

Definition normalForm (z : list elit) (bound : Z) (r : normal) : Prop :=
  match r with
  | NLE ls cs c => length ls = length cs /\ (0 <= c < bound)%Z /\ (forall x, In x cs -> 1 <= x)%Z /\
                   (sumZ cs <= bound)%Z /\ (forall l, In l ls -> In l z)
  | _ => True
  end.

Lemma sumZ_div : forall d cs, (0 < d)%Z -> (forall x, In x cs -> 1 <= x)%Z ->
  (sumZ (map (fun x => (x / d)%Z) cs) <= sumZ cs)%Z.
Proof.
  intros d cs Hd; induction cs as [|x cs IH]; intros H; cbn [map sumZ fold_right]; [lia|].
  fold (sumZ cs); fold (sumZ (map (fun x => (x / d)%Z) cs)).
  assert (x / d <= x)%Z by (apply Z.div_le_upper_bound; [lia|]; pose proof (H x (or_introl eq_refl)); nia).
  pose proof (IH (fun y Hy => H y (or_intror Hy))); lia.
Qed.

Lemma divideLoop_ok : forall ls cs c, length ls = length cs -> (forall x, In x cs -> 1 <= x)%Z ->
  exists r, divideLoop 3 ls cs c (sumZ cs) = Some r /\
    (forall a, normalHolds r a <-> (weight a ls cs <= c)%Z) /\ normalForm ls (sumZ cs) r.
Proof.
  intros ls cs c Hl Hc.
  assert (Hn : forall x, In x cs -> (0 <= x)%Z) by (intros x Hx; specialize (Hc x Hx); lia).
  cbn [divideLoop]; destruct (Z.ltb_spec c 0) as [H0|H0].
  { exists NFalse; split; [reflexivity|]; split; [|exact I].
    intros a; pose proof (weight_nonneg a ls cs Hn); cbn; split; [tauto | lia]. }
  destruct (Z.leb_spec (sumZ cs) c) as [H1|H1].
  { exists NTrue; split; [reflexivity|]; split; [|exact I].
    intros a; pose proof (weight_le_sum a ls cs Hn); cbn; split; [lia | tauto]. }
  remember (fold_left Z.gcd cs c) as d eqn:Ed.
  pose proof (fold_gcd_nonneg cs c H0) as Dn; rewrite <- Ed in Dn.
  destruct (negb (d =? 0)%Z && negb (d =? 1)%Z) eqn:Eb.
  2:{ exists (NLE ls cs c); split; [reflexivity|]; split; [intros a; cbn; tauto|].
      cbn [normalForm]; split; [exact Hl|]; split; [lia|]; split; [exact Hc|]; split; [lia | auto]. }
  apply andb_true_iff in Eb as [B1 B2]; apply negb_true_iff, Z.eqb_neq in B1, B2.
  destruct (fold_gcd_divides cs c) as [D1 D2]; rewrite <- Ed in D1, D2.
  pose proof (div_map d cs ltac:(lia) D2) as Em; set (cs' := map (fun x => (x / d)%Z) cs) in *.
  destruct D1 as [c' Ec]; assert (Ec' : (c / d = c')%Z) by (rewrite Ec; apply Z.div_mul; lia).
  rewrite Ec'.
  assert (Hc' : (0 <= c' <= c)%Z) by nia.
  destruct (Z.ltb_spec c' 0); [lia|]; destruct (Z.leb_spec (sumZ cs) c'); [lia|].
  assert (E1 : fold_left Z.gcd cs' c' = 1%Z).
  { rewrite Em, Ec, (Z.mul_comm c' d), fold_gcd_mul in Ed by lia; nia. }
  rewrite E1; cbn [Z.eqb negb andb].
  exists (NLE ls cs' c'); split; [reflexivity|]; split.
  - intros a; cbn [normalHolds]; rewrite Em, weight_mul, Ec, (Z.mul_comm c' d).
    split; intros Q; nia.
  - cbn [normalForm]; split; [unfold cs'; now rewrite map_length|]; split; [lia|]; split; [|split; [|auto]].
    + intros x Hx; unfold cs' in Hx; apply in_map_iff in Hx as [y [<- Hy]].
      destruct (D2 y Hy) as [q ->]; rewrite Z.div_mul by lia; specialize (Hc _ Hy); nia.
    + apply sumZ_div; [lia | exact Hc].
Qed.

(** *** The whole of it *)

Definition goodOrd (ord : list (Z * elit) -> list (Z * elit)) : Prop := forall l, Permutation (ord l) l.

Definition nscoped (n : ctr) (bound : Z) (r : normal) : Prop :=
  match r with
  | NLE ls cs c => length ls = length cs /\ scoped n ls /\ (0 <= c < bound)%Z /\
                   (forall x, In x cs -> 1 <= x)%Z /\ (sumZ cs <= bound)%Z
  | _ => True
  end.

Lemma normalizeLE_ok : forall ord ls cs rhs, goodOrd ord -> length ls = length cs ->
  exists r, fst (normalizeLE ord ls cs rhs) = Some r /\
    (forall a, normalHolds r a <-> (weight a ls cs <= rhs)%Z) /\
    (forall n, scoped n ls -> nscoped n (sumabs cs) r).
Proof.
  intros ord ls cs rhs Ho Hl; unfold normalizeLE; cbn [fst].
  set (nz := filter _ (combine ls cs)); set (m := var2consts nz).
  set (csps := filter _ (ord (map toPair m))).
  destruct (var2consts_ok nz) as [V1 [V2 V3]]; fold m in V1, V2, V3.
  assert (Pos : forall x, In x (map fst csps) -> (1 <= x)%Z).
  { intros x Hx; apply in_map_iff in Hx as [[c l] [<- Hx]]; cbn [fst]; unfold csps in Hx.
    apply filter_In in Hx as [Hx H0]; cbn [fst] in H0; apply negb_true_iff, Z.eqb_neq in H0.
    apply (Permutation_in _ (Ho (map toPair m))), in_map_iff in Hx as [[y [u v]] [E _]].
    cbn [toPair] in E; destruct (Z.ltb_spec u v); injection E as <- <-; lia. }
  destruct (divideLoop_ok (map snd csps) (map fst csps) (rhs - sumZ (map toShift m))
    ltac:(now rewrite !map_length) Pos) as [r [R1 [R2 R3]]].
  exists r; split; [exact R1|]; split.
  - intros a; rewrite R2, <- qweight_weight; unfold csps; rewrite qweight_nz, (qweight_perm a _ _ (Ho _)).
    pose proof (toPair_ok a m) as T; rewrite V1 in T; unfold nz in T; rewrite pweight_nz in T.
    rewrite weight_pweight; lia.
  - intros n Sn.
    assert (Bd : (sumZ (map fst csps) <= sumabs cs)%Z).
    { unfold csps; rewrite sumZ_nz, (sumZ_perm _ _ (Permutation_map fst (Ho (map toPair m)))).
      pose proof (toPair_abs m); unfold nz in V2; rewrite pabs_nz, (pabs_sum ls cs Hl) in V2; lia. }
    destruct r as [| |l d c]; try exact I; cbn [normalForm nscoped] in *.
    destruct R3 as [Q1 [Q2 [Q3 [Q4 Q5]]]]; split; [exact Q1|]; split; [|split; [lia|split; [exact Q3 | lia]]].
    intros x Hx; apply Q5, in_map_iff in Hx as [[c' x'] [<- Hx]]; cbn [snd]; unfold csps in Hx.
    apply filter_In in Hx as [Hx _]; apply (Permutation_in _ (Ho (map toPair m))), in_map_iff in Hx as [[y [u v]] [E Hy]].
    assert (Sy : scope n y).
    { apply (V3 (scope n)) with (e := (y, (u, v))); [|exact Hy].
      intros q Hq; unfold nz in Hq; apply filter_In in Hq as [Hq _]; exact (Sn _ (combine_fst_in ls cs q Hq)). }
    cbn [toPair] in E; destruct (u <? v)%Z; injection E as <- <-; exact Sy.
Qed.

Lemma normalizeLE_slice : forall ord ls cs rhs, length ls = length cs -> (forall c, In c cs -> c <> 0%Z) ->
  snd (normalizeLE ord ls cs rhs) = ls.
Proof.
  intros ord ls cs rhs Hl Hc; unfold normalizeLE; cbn [snd].
  assert (E : filter (fun q : elit * Z => negb (snd q =? 0)%Z) (combine ls cs) = combine ls cs).
  { clear - Hc; revert cs Hc; induction ls as [|l ls IH]; intros [|c cs] Hc; cbn [combine filter]; try reflexivity.
    cbn [snd]; destruct (Z.eqb_spec c 0) as [E|E]; [destruct (Hc c (or_introl eq_refl) E)|]; cbn [negb].
    f_equal; apply IH; intros d Hd; apply Hc; now right. }
  rewrite E, combine_length, <- Hl, Nat.min_id, skipn_all, app_nil_r.
  clear - Hl; revert cs Hl; induction ls as [|l ls IH]; intros [|c cs] Hl; try discriminate Hl; cbn; [reflexivity|].
  f_equal; apply IH; now injection Hl.
Qed.

Lemma weight_opp : forall a ls cs, weight a ls (map Z.opp cs) = (- weight a ls cs)%Z.
Proof.
  intros a ls; induction ls as [|l ls IH]; intros [|c cs]; cbn [map weight]; try reflexivity.
  rewrite IH; destruct (lval a l); lia.
Qed.

Lemma sumabs_opp : forall cs, sumabs (map Z.opp cs) = sumabs cs.
Proof. induction cs as [|c cs IH]; cbn; [reflexivity | rewrite IH; lia]. Qed.

Definition pbZ (c : cmp) (rhs : Z) (ls : list elit) (cs : list Z) (a : env) : Prop :=
  cmp_holds c (weight a ls cs) rhs = true.

(** The results of [normalize] together mean what the constraint means. *)
Theorem normalize_ok : forall ord c rhs ls cs, goodOrd ord -> length ls = length cs ->
  (c = EQ -> forall x, In x cs -> x <> 0%Z) ->
  exists rs, normalize ord c rhs ls cs = map Some rs /\
    (forall a, (forall r, In r rs -> normalHolds r a) <-> pbZ c rhs ls cs a) /\
    (forall n r, scoped n ls -> In r rs -> nscoped n (sumabs cs) r).
Proof.
  intros ord c rhs ls cs Ho Hl Hz; unfold normalize, pbZ.
  assert (Ll : length ls = length (map Z.opp cs)) by now rewrite map_length.
  assert (One : forall cs' rhs', length ls = length cs' -> sumabs cs' = sumabs cs ->
    (forall a, (weight a ls cs' <= rhs')%Z <-> cmp_holds c (weight a ls cs) rhs = true) ->
    exists rs, [fst (normalizeLE ord ls cs' rhs')] = map Some rs /\
      (forall a, (forall r, In r rs -> normalHolds r a) <-> cmp_holds c (weight a ls cs) rhs = true) /\
      (forall n r, scoped n ls -> In r rs -> nscoped n (sumabs cs) r)).
  { intros cs' rhs' L1 L2 E; destruct (normalizeLE_ok ord ls cs' rhs' Ho L1) as [r [R1 [R2 R3]]].
    exists [r]; rewrite R1; split; [reflexivity|]; split.
    - intros a; rewrite <- E, <- R2; split; [intros H; apply H; now left | intros H x [<-|[]]; exact H].
    - intros n x Sn [<-|[]]; rewrite <- L2; now apply R3. }
  destruct c.
  - pose proof (normalizeLE_slice ord ls cs rhs Hl (Hz eq_refl)) as Es.
    destruct (normalizeLE_ok ord ls cs rhs Ho Hl) as [r [R1 [R2 R3]]].
    destruct (normalizeLE ord ls cs rhs) as [f1 ls'] eqn:E1; cbn [fst snd] in *; subst ls' f1.
    destruct (normalizeLE_ok ord ls (map Z.opp cs) (- rhs) Ho Ll) as [q [Q1 [Q2 Q3]]].
    destruct (normalizeLE ord ls (map Z.opp cs) (- rhs)) as [f2 ls''] eqn:E2; cbn [fst] in *; subst f2.
    exists [r; q]; split; [reflexivity|]; split.
    + intros a; cbn [cmp_holds]; rewrite Z.eqb_eq; split.
      * intros H; pose proof (proj1 (R2 a) (H r ltac:(now left))).
        pose proof (proj1 (Q2 a) (H q ltac:(right; now left))) as G; rewrite weight_opp in G; lia.
      * intros H x [<-|[<-|[]]]; [apply R2 | apply Q2; rewrite weight_opp]; lia.
    + intros n x Sn [<-|[<-|[]]]; [now apply R3 | rewrite <- sumabs_opp; now apply Q3].
  - apply One; [exact Hl | reflexivity | intros a; cbn [cmp_holds]; symmetry; apply Z.leb_le].
  - apply One; [exact Hl | reflexivity | intros a; cbn [cmp_holds]; rewrite Z.ltb_lt; lia].
  - apply One; [exact Ll | apply sumabs_opp | intros a; cbn [cmp_holds]; rewrite weight_opp, Z.leb_le; lia].
  - apply One; [exact Ll | apply sumabs_opp | intros a; cbn [cmp_holds]; rewrite weight_opp, Z.ltb_lt; lia].
Qed.

(** ** Any constraint *)

(** Conditions on the two configurations, for constraints whose coefficients
    add up to at most [bound] in absolute value. *)
Definition pbcGood (z : bool) (cf : pbcConfig) (fcf : ccConfig) (bound : Z) : Prop :=
  goodAmo (c_base fcf) /\
  (z = true \/ forall c rhs k, ccClean fcf c rhs k) /\
  (forall rhs, (rhs < bound)%Z -> pbcFits z cf rhs).

Lemma weight_ones : forall a ls cs, length ls = length cs -> forallb (Z.eqb 1) cs = true ->
  weight a ls cs = Z.of_nat (count a ls).
Proof.
  intros a ls; induction ls as [|l ls IH]; intros [|c cs] Hl H; try discriminate Hl; [reflexivity|].
  cbn [forallb] in H; apply andb_true_iff in H as [H1 H2]; apply Z.eqb_eq in H1; subst c.
  cbn [weight count]; rewrite (IH cs ltac:(now injection Hl) H2); destruct (lval a l); lia.
Qed.

Lemma encodeCCshape_ok : forall z cf fcf b c rhs ls cs n, pbcGood z cf fcf b -> length ls = length cs -> scoped n ls ->
  isCCshape c rhs ls cs = true -> encodesZ z (pbZ c rhs ls cs) n (encodeCC fcf c rhs ls n).
Proof.
  intros z cf fcf b c rhs ls cs n [G1 [G2 _]] Hl Sl H; unfold isCCshape in H.
  apply andb_true_iff in H as [H H3]; apply andb_true_iff in H as [H1 H2].
  eapply encodesZ_ext; [|apply (encodeCC_ok z fcf c rhs ls n G1)].
  - intros a; unfold pbZ, cmpZ; rewrite (weight_ones a ls cs Hl H2); reflexivity.
  - destruct c; apply Z.leb_le in H3; lia.
  - intros [-> ->]; discriminate H3.
  - exact Sl.
  - destruct G2 as [G2|G2]; [now left | right; apply G2].
Qed.

Lemma encodesZ_false1 : forall z (P : env -> Prop) n, (forall a, ~ P a) -> encodesZ z P n ([[]], n).
Proof.
  intros z P n H; apply encodesZ_nonew; [intros c [<-|[]] l []|].
  intros a; rewrite sat1; split; [intros [l [[] _]] | intros Q; destruct (H a Q)].
Qed.

Lemma encodeSingle_ok : forall z cf fcf b r n, pbcGood z cf fcf b -> nscoped n b r ->
  encodesZ z (normalHolds r) n (encodeSingle cf (Some r) n).
Proof.
  intros z cf fcf b [| |ls cs c] n [_ [_ G]] Hn; cbn [encodeSingle normalHolds nscoped] in *.
  - apply encodesZ_false1; tauto.
  - apply encodesZ_nil; tauto.
  - destruct Hn as [H1 [H2 [H3 [H4 _]]]]; apply encodeNormalized_ok; try assumption; [lia|]; apply G; lia.
Qed.

Lemma sumabs_pos : forall cs, (forall x, In x cs -> 1 <= x)%Z -> sumabs cs = sumZ cs.
Proof.
  intros cs; induction cs as [|c cs IH]; intros H; [reflexivity|]; cbn [sumabs sumZ fold_right].
  fold (sumZ cs); rewrite IH by (intros x Hx; apply H; now right); pose proof (H c (or_introl eq_refl)); lia.
Qed.

Lemma nscoped_le : forall n b b' r, (b <= b')%Z -> nscoped n b r -> nscoped n b' r.
Proof. intros n b b' [| |ls cs c] H Hn; cbn [nscoped] in *; try exact I; destruct Hn as [? [? [? [? ?]]]]; repeat split; try assumption; lia. Qed.

Lemma nscoped_cle : forall n m b r, cle n m -> nscoped n b r -> nscoped m b r.
Proof.
  intros n m b [| |ls cs c] H Hn; cbn [nscoped] in *; try exact I; destruct Hn as [? [? ?]].
  split; [assumption|]; split; [now apply scoped_le with n | assumption].
Qed.

Lemma encodeOperand_ok : forall z ord cf fcf b ls cs c n, goodOrd ord -> pbcGood z cf fcf b ->
  nscoped n b (NLE ls cs c) ->
  encodesZ z (normalHolds (NLE ls cs c)) n (encodeOperand ord cf fcf ls cs c n).
Proof.
  intros z ord cf fcf b ls cs c n Ho G Hn; unfold encodeOperand.
  pose proof Hn as [H1 [H2 [H3 [H4 H5]]]].
  destruct (isCCshape LE c ls cs) eqn:E.
  - eapply encodesZ_ext; [|exact (encodeCCshape_ok z cf fcf b LE c ls cs n G H1 H2 E)].
    intros a; unfold pbZ; cbn [cmp_holds normalHolds]; apply Z.leb_le.
  - destruct (normalizeLE_ok ord ls cs c Ho H1) as [r [R1 [R2 R3]]]; rewrite R1.
    eapply encodesZ_ext; [|apply (encodeSingle_ok z cf fcf b r n G)]; [exact R2|].
    specialize (R3 n H2); rewrite (sumabs_pos cs H4) in R3; now apply nscoped_le with (sumZ cs).
Qed.

Lemma list_eqb_eq : forall {A} (f : A -> A -> bool) l m, (forall x y, f x y = true -> x = y) ->
  list_eqb f l m = true -> l = m.
Proof.
  intros A f l m Hf; revert m; induction l as [|x l IH]; intros [|y m] H; try discriminate H; [reflexivity|].
  cbn in H; apply andb_true_iff in H as [H1 H2]; f_equal; [now apply Hf | now apply IH].
Qed.

Lemma lit_eqb_eq : forall x y, lit_eqb x y = true -> x = y.
Proof.
  intros [x b] [y c] H; unfold lit_eqb in H; cbn in H; apply andb_true_iff in H as [H1 H2].
  apply var_eqb_eq in H1; apply Bool.eqb_prop in H2; now subst.
Qed.

Lemma normalHolds_agree : forall n b r a a', agree n a a' -> nscoped n b r -> normalHolds r a -> normalHolds r a'.
Proof.
  intros n b [| |ls cs c] a a' Ag Hn; cbn [normalHolds nscoped] in *; try tauto.
  destruct Hn as [_ [Hs _]]; now rewrite (agree_weight n a a' ls cs Ag Hs).
Qed.

Theorem encodePBC_ok : forall z ord cf fcf c rhs ls cs n, goodOrd ord -> length ls = length cs -> scoped n ls ->
  (c = EQ -> forall x, In x cs -> x <> 0%Z) -> pbcGood z cf fcf (sumabs cs) ->
  encodesZ z (pbZ c rhs ls cs) n (encodePBC ord cf fcf c rhs ls cs n).
Proof.
  intros z ord cf fcf c rhs ls cs n Ho Hl Sl Hz G; unfold encodePBC.
  destruct (isCCshape c rhs ls cs) eqn:E; [exact (encodeCCshape_ok z cf fcf _ c rhs ls cs n G Hl Sl E)|].
  destruct (normalize_ok ord c rhs ls cs Ho Hl Hz) as [rs [R1 [R2 R3]]]; rewrite R1.
  assert (Len : length rs = 1 \/ length rs = 2).
  { assert (Q : length (normalize ord c rhs ls cs) = length rs) by (rewrite R1; apply map_length).
    unfold normalize in Q; destruct c; cbn [length] in Q; try lia.
    destruct (normalizeLE ord ls cs rhs) as [? ls']; destruct (normalizeLE ord ls' (map Z.opp cs) (- rhs)); cbn in Q; lia. }
  destruct rs as [|r [|q [|x rs]]]; cbn [length] in Len; try lia; cbn [map].
  { eapply encodesZ_ext; [|apply (encodeSingle_ok z cf fcf _ r n G)]; [|apply R3; [exact Sl | now left]].
    intros a; rewrite <- R2; split; [intros H x [<-|[]]; exact H | intros H; apply H; now left]. }
  assert (Nr : nscoped n (sumabs cs) r) by (apply R3; [exact Sl | now left]).
  assert (Nq : nscoped n (sumabs cs) q) by (apply R3; [exact Sl | right; now left]).
  assert (R4 : forall a, normalHolds r a /\ normalHolds q a <-> pbZ c rhs ls cs a).
  { intros a; rewrite <- R2; split; [intros [H1 H2] x [<-|[<-|[]]]; assumption | intros H; split; apply H; cbn; tauto]. }
  clear R1 R2 R3 E; destruct r as [| |l1 c1 b1]; [| |].
  - assert (F : forall a, ~ pbZ c rhs ls cs a) by (intros a H; apply R4 in H as [[] _]).
    destruct q as [| |l2 c2 b2]; cbn [encodeSingle]; apply encodesZ_false1; exact F.
  - eapply encodesZ_ext; [|apply (encodeSingle_ok z cf fcf _ q n G Nq)]; intros a; rewrite <- R4; cbn [normalHolds]; tauto.
  - destruct q as [| |l2 c2 b2].
    + apply encodesZ_false1; intros a H; apply R4 in H as [_ []].
    + eapply encodesZ_ext; [|apply (encodeSingle_ok z cf fcf _ (NLE l1 c1 b1) n G Nr)]; intros a; rewrite <- R4; cbn [normalHolds]; tauto.
    + destruct (list_eqb lit_eqb l1 l2 && list_eqb Z.eqb c1 c2 && (b1 =? b2)%Z) eqn:Eq.
      * apply andb_true_iff in Eq as [Eq E3]; apply andb_true_iff in Eq as [E1 E2].
        apply (list_eqb_eq lit_eqb l1 l2 lit_eqb_eq) in E1; apply Z.eqb_eq in E3.
        apply (list_eqb_eq Z.eqb c1 c2 (fun x y => proj1 (Z.eqb_eq x y))) in E2; subst l2 c2 b2.
        eapply encodesZ_ext; [|apply (encodeSingle_ok z cf fcf _ (NLE l1 c1 b1) n G Nr)]; intros a; rewrite <- R4; cbn [normalHolds]; tauto.
      * destruct (encodeOperand ord cf fcf l1 c1 b1 n) as [d1 n1] eqn:E1.
        destruct (encodeOperand ord cf fcf l2 c2 b2 n1) as [d2 n2] eqn:E2.
        pose proof (encodeOperand_ok z ord cf fcf _ l1 c1 b1 n Ho G Nr) as F1; rewrite E1 in F1.
        assert (L1 : cle n n1) by apply F1.
        pose proof (encodeOperand_ok z ord cf fcf _ l2 c2 b2 n1 Ho G (nscoped_cle n n1 _ _ L1 Nq)) as F2; rewrite E2 in F2.
        eapply encodesZ_ext; [|apply (encodesZ_and z _ _ n d1 n1 d2 n2 F1 F2)]; [exact R4|].
        intros a b Ag; exact (normalHolds_agree n _ (NLE l2 c2 b2) a b Ag Nq).
Qed.

(** ** Distinct variables *)

Lemma asort_eqb_refl : forall s, asort_eqb s s = true.
Proof. intros []; reflexivity. Qed.

Lemma var_eqb_refl : forall x, var_eqb x x = true.
Proof.
  intros [x|s i| | | | |]; cbn; try reflexivity; [apply String.eqb_refl|].
  rewrite asort_eqb_refl, Nat.eqb_refl; reflexivity.
Qed.

Lemma addConst_keys : forall x n p m, NoDup (map fst m) -> NoDup (map fst (addConst x n p m)) /\
  (forall y, In y (map fst (addConst x n p m)) -> y = x \/ In y (map fst m)).
Proof.
  intros x n p m; induction m as [|[y [u v]] m IH]; cbn [addConst map fst]; intros H.
  - split; [constructor; [intros [] | constructor] | intros y [<-|[]]; now left].
  - inversion H as [|y' m' Hy Hm]; subst; destruct (var_eqb x y) eqn:E; cbn [map fst].
    + split; [now constructor | intros w Hw; right; exact Hw].
    + destruct (IH Hm) as [I1 I2]; split.
      * constructor; [|exact I1]; intros Hin; destruct (I2 y Hin) as [->|Hi]; [|contradiction].
        rewrite var_eqb_refl in E; discriminate.
      * intros w [<-|Hw]; [right; now left | destruct (I2 w Hw); [now left | right; now right]].
Qed.

Lemma var2consts_keys : forall ps, NoDup (map fst (var2consts ps)).
Proof.
  intros ps; unfold var2consts.
  assert (G : forall ps m, NoDup (map fst m) -> NoDup (map fst (fold_left (fun (m : list (var * (Z * Z))) (q : elit * Z) =>
      if snd (fst q) then addConst (fst (fst q)) 0 (snd q) m else addConst (fst (fst q)) (snd q) 0 m) ps m))).
  { clear ps; induction ps as [|q ps IH]; intros m Hm; cbn [fold_left]; [exact Hm|].
    apply IH; destruct (snd (fst q)); now apply addConst_keys. }
  apply G; constructor.
Qed.

Lemma NoDup_map_filter : forall {A B} (g : A -> B) f l, NoDup (map g l) -> NoDup (map g (filter f l)).
Proof.
  intros A B g f l; induction l as [|x l IH]; cbn [map filter]; intros H; [constructor|].
  inversion H as [|y l' Hx Hl]; subst; destruct (f x); [|now apply IH]; cbn [map]; constructor; [|now apply IH].
  intros Hin; apply Hx; apply in_map_iff in Hin as [y [Ey Hy]]; apply filter_In in Hy as [Hy _].
  rewrite <- Ey; now apply in_map.
Qed.

Lemma divideLoop_lits : forall fuel ls cs c s l d b, divideLoop fuel ls cs c s = Some (NLE l d b) -> l = ls.
Proof.
  induction fuel as [|fuel IH]; intros ls cs c s l d b H; cbn [divideLoop] in H; [discriminate|].
  destruct (c <? 0)%Z; [discriminate|]; destruct (s <=? c)%Z; [discriminate|].
  match type of H with (if ?t then _ else _) = _ => destruct t end; [now apply IH in H | now injection H].
Qed.

Lemma normalizeLE_distinct : forall ord ls cs rhs l d b, goodOrd ord ->
  fst (normalizeLE ord ls cs rhs) = Some (NLE l d b) -> NoDup (map fst l).
Proof.
  intros ord ls cs rhs l d b Ho H; unfold normalizeLE in H; cbn [fst] in H; apply divideLoop_lits in H; subst l.
  set (m := var2consts _); rewrite map_map.
  apply NoDup_map_filter.
  apply (Permutation_NoDup (Permutation_sym (Permutation_map (fun x : Z * elit => fst (snd x)) (Ho (map toPair m))))).
  rewrite map_map.
  replace (map (fun x => fst (snd (toPair x))) m) with (map fst m); [apply var2consts_keys|].
  apply map_ext; intros [x [u v]]; cbn [toPair]; destruct (u <? v)%Z; reflexivity.
Qed.

Lemma normalize_distinct : forall ord c rhs ls cs l d b, goodOrd ord ->
  In (Some (NLE l d b)) (normalize ord c rhs ls cs) -> NoDup (map fst l).
Proof.
  intros ord c rhs ls cs l d b Ho H; unfold normalize in H.
  destruct c; try (destruct H as [H|[]]; exact (normalizeLE_distinct _ _ _ _ _ _ _ Ho H)).
  destruct (normalizeLE ord ls cs rhs) as [f1 ls'] eqn:E1.
  destruct (normalizeLE ord ls' (map Z.opp cs) (- rhs)) as [f2 ls''] eqn:E2.
  destruct H as [H|[H|[]]]; subst.
  - apply (normalizeLE_distinct ord ls cs rhs l d b Ho); now rewrite E1.
  - apply (normalizeLE_distinct ord ls' (map Z.opp cs) (- rhs) l d b Ho); now rewrite E2.
Qed.
