(** * MaxSAT: the totalizer encodes a cardinality constraint *)
From Coq Require Import List Bool Arith Lia Permutation.
From Verif Require Import SatSpec Sat SatProps MaxSpec MaxSat MaxBase.
Import ListNotations.

Lemma rootCanon_agree' : forall nv a b T, agree nv a b -> below nv (outs T) -> below nv (leaves T) -> rootCanon a T -> rootCanon b T.
Proof. intros nv a b T A U V H k Hk. rewrite <- (count_agree nv a b) by auto. rewrite <- H by auto. symmetry. apply (lit_agree nv); auto. apply U. apply nth_In; auto. Qed.

Lemma in_cellClauses : forall l r o lo hi c, In c (cellClauses l r o lo hi) <-> exists i j, i <= length l /\ j <= length r /\ lo < i + j <= hi /\ c = cellClause l r o i j.
Proof.
  intros l r o lo hi c. unfold cellClauses, cellPairs. rewrite in_map_iff. split.
  - intros ([i j] & E & I). apply filter_In in I as [I F]. apply in_prod_iff in I as [I1 I2]. apply in_seq in I1, I2. apply andb_true_iff in F as [F1 F2]. apply Nat.ltb_lt in F1. apply Nat.leb_le in F2. cbn [fst snd] in *. exists i, j. repeat split; auto; lia.
  - intros (i & j & Hi & Hj & [H1 H2] & ->). exists (i, j). split; auto. apply filter_In. split; [apply in_prod; apply in_seq; lia|]. apply andb_true_iff. split; [apply Nat.ltb_lt; auto|apply Nat.leb_le; auto].
Qed.
Lemma cellClauses_ok : forall l r o hi a, (forall c, In c (cellClauses l r o 0 hi) -> true_in a c = true) <-> cellOk hi a (l, r, o).
Proof.
  intros l r o hi a. cbn [cellOk]. split.
  - intros H i j Hi Hj Hs. apply H. apply in_cellClauses. exists i, j. auto.
  - intros H c I. apply in_cellClauses in I as (i & j & Hi & Hj & Hs & ->). auto.
Qed.
Lemma cellClauses_more : forall l r o lo hi a, cellOk lo a (l, r, o) -> (forall c, In c (cellClauses l r o lo hi) -> true_in a c = true) -> cellOk hi a (l, r, o).
Proof.
  intros l r o lo hi a C H i j Hi Hj Hs. destruct (Nat.le_gt_cases (i + j) lo); [apply C; auto; lia|]. apply H. apply in_cellClauses. exists i, j. repeat split; auto; lia.
Qed.
Lemma cellOk_le : forall h1 h2 a c, h1 <= h2 -> cellOk h2 a c -> cellOk h1 a c.
Proof. intros h1 h2 a [[l r] o] L H i j Hi Hj Hs. apply H; auto; lia. Qed.

Definition addCells (cs : list (list slit * list slit * list slit)) (t : tot) : tot :=
  match t_inc t with IncIterative => t_set_cells (t_cells t ++ map (fun c => (c, t_rhs t)) cs) t | IncNone => t end.
Definition onlyT (x y : mx) (t : tot) : Prop := y = set_slv (slv y) (set_tot_ t x).
Lemma onlyT_trans : forall x y z t t', onlyT x y t -> onlyT y z t' -> onlyT x z t'.
Proof. unfold onlyT. intros x y z t t' H1 H2. rewrite H2, H1. reflexivity. Qed.
Lemma onlyT_only : forall x y z t, onlyT x y t -> only y z -> onlyT x z t.
Proof. unfold onlyT, only. intros x y z t H1 H2. rewrite H2, H1. reflexivity. Qed.
Lemma only_onlyT : forall x y z t, only x y -> onlyT y z t -> onlyT x z t.
Proof. unfold onlyT, only. intros x y z t H1 H2. rewrite H2, H1. reflexivity. Qed.
Lemma onlyT_tot : forall x y t, onlyT x y t -> tot_ y = t.
Proof. unfold onlyT. intros x y t H. rewrite H. reflexivity. Qed.
Lemma only_T : forall x y, only x y -> onlyT x y (tot_ x).
Proof. unfold onlyT, only. intros x y H. rewrite H. destruct x. reflexivity. Qed.
Lemma only_tot : forall x y, only x y -> tot_ y = tot_ x.
Proof. unfold only. intros x y H. rewrite H. reflexivity. Qed.

Section Tot.
Variable n : nat.

Lemma adder_ok : forall l r o x nv P, On x nv P -> below nv l -> below nv r -> below nv o -> length o = length l + length r ->
  wpM (adder n l r o) x (fun _ y => On y nv (fun a => P a /\ cellOk (t_rhs (tot_ x) + 1) a (l, r, o)) /\ onlyT x y (addCells [(l, r, o)] (tot_ x))).
Proof.
  intros l r o x nv P H Bl Br Bo Lo. unfold adder. apply wpM_bind, wpM_getT, wpM_bind, wpM_getT, wpM_bind.
  set (x1 := set_tot_ (addCells [(l, r, o)] (tot_ x)) x).
  assert (E : wpM (match t_inc (tot_ x) with IncIterative => setT (fun t => t_set_cells (t_cells t ++ [((l, r, o), t_rhs (tot_ x))]) t) | IncNone => mret tt end) x (fun _ y => y = x1)).
  { unfold x1, addCells. destruct (t_inc (tot_ x)) eqn:Ei; [apply wpM_ret; destruct x; cbn in *; reflexivity|apply wpM_setT; reflexivity]. }
  eapply wpM_mono; [exact E|]. cbv beta. intros _ y ->. eapply wpM_mono; [apply meach_addC; [apply (on_slv x); [reflexivity|exact H]|]|].
  - intros c I. apply in_cellClauses in I as (i & j & Hi & Hj & Hs & ->). apply cellClause_under; auto.
  - cbv beta. intros _ y (H1 & O1). split; [|apply (onlyT_only x x1); auto; reflexivity]. eapply on_iff; [exact H1|]. intros a. cbv beta. pose proof (cellClauses_ok l r o (t_rhs (tot_ x) + 1) a). tauto.
Qed.

Lemma half_ok : forall k x nv P, On x nv P -> (k = 1 -> t_ins (tot_ x) <> []) ->
  wpM (half k) x (fun ls y => exists nv' ins' pl, On y nv' P /\ onlyT x y (t_set_ins ins' (tot_ x)) /\ t_ins (tot_ x) = ins' ++ pl /\ length ls = k /\
    ((k = 1 /\ pl = ls /\ nv' = nv) \/ (k <> 1 /\ pl = [] /\ nv' = nv + k /\ ls = map (fun i => (i, false)) (seq nv k)))).
Proof.
  intros k x nv P H Hi. unfold half. destruct (Nat.eqb_spec k 1) as [->|Hk].
  - apply wpM_bind, wpM_getT. destruct (rev (t_ins (tot_ x))) as [|l r] eqn:E.
    + exfalso. apply Hi; auto. rewrite <- (rev_involutive (t_ins (tot_ x))), E. reflexivity.
    + apply wpM_bind, wpM_setT, wpM_ret. exists nv, (rev r), [l]. split; [apply (on_slv x); auto|]. split; [reflexivity|]. split; [rewrite <- (rev_involutive (t_ins (tot_ x))), E; reflexivity|]. split; auto.
  - eapply wpM_mono; [apply mrep_vars; exact H|]. cbv beta. intros ls y (-> & H1 & O1). exists (nv + k), (t_ins (tot_ x)), []. split; auto. split; [|split; [rewrite app_nil_r; auto|split; [rewrite map_length, seq_length; auto|right; auto]]].
    pose proof (only_T _ _ O1) as Z. replace (t_set_ins (t_ins (tot_ x)) (tot_ x)) with (tot_ x) by (destruct (tot_ x); reflexivity). exact Z.
Qed.
Lemma below_fresh : forall nv k, below (nv + k) (map (fun i => (i, false)) (seq nv k)).
Proof. intros nv k l I. apply in_map_iff in I as (i & <- & Ii). apply in_seq in Ii. cbn. lia. Qed.
Lemma nth_fresh : forall nv k i, i < k -> nth i (map (fun i => (i, false)) (seq nv k)) (0, false) = (nv + i, false).
Proof. intros nv k i H. change (0, false) with ((fun i : nat => (i, false)) 0). rewrite map_nth, seq_nth; auto. Qed.
Lemma addCells_ins : forall cs i t, addCells cs (t_set_ins i t) = t_set_ins i (addCells cs t).
Proof. intros cs i t. unfold addCells. cbn. destruct (t_inc t); reflexivity. Qed.
Lemma addCells_app : forall c1 c2 t, addCells c2 (addCells c1 t) = addCells (c1 ++ c2) t.
Proof. intros c1 c2 t. unfold addCells. destruct (t_inc t) eqn:E; cbn; rewrite E; auto. cbn. unfold t_set_cells. cbn. rewrite map_app, app_assoc. reflexivity. Qed.
Lemma addCells_nil : forall t, addCells [] t = t.
Proof. intros []. unfold addCells, t_set_cells. cbn. destruct t_inc; cbn; auto. rewrite app_nil_r. auto. Qed.
Lemma addCells_f : forall c t, t_inc (addCells c t) = t_inc t /\ t_rhs (addCells c t) = t_rhs t /\ t_ins (addCells c t) = t_ins t /\ t_outs (addCells c t) = t_outs t /\ t_join (addCells c t) = t_join t /\ t_has (addCells c t) = t_has t.
Proof. intros c t. unfold addCells. destruct (t_inc t) eqn:E; cbn; auto 10. Qed.

(** the tree that is built for the outputs [out] *)
Record built (x y : mx) (nv : nat) (P : assignment -> Prop) (out : list slit) (T : tree) (nv' : nat) (cl ins' : list slit) : Prop := {
  bt_outs : outs T = out; bt_wf : wf T;
  bt_leaves : leaves T = if length out =? 1 then match T with Leaf l => [l] | _ => cl end else cl;
  bt_perm : Permutation (t_ins (tot_ x)) (ins' ++ cl); bt_nv : nv <= nv'; bt_under : under nv' T;
  bt_on : On y nv' (fun a => P a /\ forall c, In c (cells T) -> cellOk (t_rhs (tot_ x) + 1) a c);
  bt_only : onlyT x y (addCells (cells T) (t_set_ins ins' (tot_ x)));
  bt_ext : forall a, exists a', agree nv a a' /\ subCanon a' T }.

Definition cnfOk (d : nat) : Prop := forall out x nv P, On x nv P -> below nv out -> below nv (t_ins (tot_ x)) -> length out <= length (t_ins (tot_ x)) ->
  wpM (toCnf n d out) x (fun _ y => exists T nv' ins', built x y nv P out T nv' (leaves T) ins').

Lemma sub_ok : forall d, cnfOk d -> forall ls x nv P, On x nv P -> below nv ls -> below nv (t_ins (tot_ x)) -> (1 < length ls -> length ls <= length (t_ins (tot_ x))) ->
  wpM (if 1 <? length ls then toCnf n d ls else mret tt) x (fun _ y => exists T nv' cl ins', built x y nv P ls T nv' cl ins' /\ (length ls <= 1 -> cl = [] /\ leaves T = ls /\ forall a, canon a T) /\ (1 < length ls -> leaves T = cl)).
Proof.
  intros d IH ls x nv P H B Bi Hl. destruct (Nat.ltb_spec 1 (length ls)) as [L|L].
  - eapply wpM_mono; [apply (IH ls x nv P); auto; lia|]. cbv beta. intros _ y (T & nv' & ins' & Bt). exists T, nv', (leaves T), ins'. split; auto. split; [lia|auto].
  - apply wpM_ret. destruct ls as [|l [|l' r]]; [exists Nil|exists (Leaf l)|cbn in L; lia]; exists nv, [], (t_ins (tot_ x)); (split; [|split; [cbn; auto|cbn; lia]]).
    + constructor; cbn; auto; [rewrite app_nil_r; auto|eapply on_iff; [exact H|]; intros a; split; [intros; split; auto; intros ? []|tauto]| |intros a; exists a; split; auto; apply agree_refl].
      rewrite addCells_nil. destruct x, tot_; reflexivity.
    + constructor; cbn; auto; [rewrite app_nil_r; auto|apply B; left; auto|eapply on_iff; [exact H|]; intros a; split; [intros; split; auto; intros ? []|tauto]| |intros a; exists a; split; auto; apply agree_refl].
      rewrite addCells_nil. destruct x, tot_; reflexivity.
Qed.

Lemma toCnf_ok : forall d, cnfOk d.
Proof.
  induction d as [|d IH]; intros out x nv P H Bo Bi Hl; [apply wpM_stuck|]. cbn [toCnf]. set (k := Nat.div2 (length out)).
  assert (Hk : k <= length out) by (unfold k; apply Nat.div2_decr; lia). assert (Hk1 : k = 1 -> length out <> 1). { unfold k. intros E E'. rewrite E' in E. cbn in E. lia. }
  apply wpM_bind. eapply wpM_mono; [apply (half_ok k x nv P H); intros Ek Ez; rewrite Ez in Hl; cbn in Hl; lia|]. cbv beta. intros lf x1 (nv1 & i1 & pl & H1 & O1 & E1 & L1 & D1).
  pose proof (onlyT_tot _ _ _ O1) as T1. assert (Len1 : length (t_ins (tot_ x)) = length i1 + length pl) by (rewrite E1, app_length; auto).
  apply wpM_bind. eapply wpM_mono; [apply (half_ok (length out - k) x1 nv1 P H1)|].
  { intros Ek Ez. rewrite T1 in Ez. cbn in Ez. subst i1. destruct D1 as [(D & -> & _)|(D & -> & _)]; cbn in Len1; lia. }
  cbv beta. intros rt x2 (nv2 & i2 & pr & H2 & O2 & E2 & L2 & D2). pose proof (onlyT_tot _ _ _ O2) as T2. rewrite T1 in E2, T2, O2. change (t_set_ins i2 (t_set_ins i1 (tot_ x))) with (t_set_ins i2 (tot_ x)) in T2, O2. cbn [t_ins t_set_ins] in E2. assert (Len2 : length i1 = length i2 + length pr) by (rewrite E2, app_length; auto).
  assert (Nv1 : nv <= nv1) by (destruct D1 as [(_ & _ & ->)|(_ & _ & -> & _)]; lia). assert (Nv2 : nv1 <= nv2) by (destruct D2 as [(_ & _ & ->)|(_ & _ & -> & _)]; lia).
  assert (Bp : below nv i2 /\ below nv pr /\ below nv pl). { rewrite E1, E2 in Bi. apply below_app in Bi as [Bi ?]. apply below_app in Bi as [? ?]. auto. } destruct Bp as (Bi2 & Bpr & Bpl).
  assert (Blf : below nv1 lf). { destruct D1 as [(_ & <- & ->)|(_ & _ & -> & ->)]; auto. apply below_fresh. } assert (Brt : below nv2 rt). { destruct D2 as [(_ & <- & ->)|(_ & _ & -> & ->)]; [eapply below_le; [|exact Bpr]; lia|apply below_fresh]. }
  assert (Blf2 : below nv2 lf) by (eapply below_le; eauto). assert (Bo2 : below nv2 out) by (eapply below_le; [|exact Bo]; lia). assert (Lo : length out = length lf + length rt) by lia.
  apply wpM_bind. eapply wpM_mono; [apply (adder_ok lf rt out x2 nv2 P); auto|]. cbv beta. intros _ x3 (H3 & O3). rewrite T2 in H3, O3. pose proof (onlyT_tot _ _ _ O3) as T3. cbn [t_rhs t_set_ins] in H3. set (t3 := addCells [(lf, rt, out)] (t_set_ins i2 (tot_ x))) in *.
  assert (F3 : t_inc t3 = t_inc (tot_ x) /\ t_rhs t3 = t_rhs (tot_ x) /\ t_ins t3 = i2). { unfold t3. destruct (addCells_f [(lf, rt, out)] (t_set_ins i2 (tot_ x))) as (-> & -> & -> & _). auto. } destruct F3 as (F3a & F3b & F3c).
  apply wpM_bind. eapply wpM_mono; [apply (sub_ok d IH lf x3 nv2 _ H3); auto|].
  { rewrite T3, F3c. eapply below_le; [|exact Bi2]. lia. }
  { rewrite T3, F3c. intros L. assert (pl = []) as -> by (destruct D1 as [(? & _)|(_ & ? & _)]; [lia|auto]). cbn in Len1. destruct D2 as [(? & -> & _)|(_ & -> & _)]; cbn in Len2; lia. }
  cbv beta. intros _ x4 (Tl & nv3 & cl & i3 & Bl & Cl0 & Cl1). destruct Bl as [Ol Wl _ Pl Nl Ul Hl4 O4 El]. rewrite T3 in Pl, Hl4, O4. rewrite F3b in Hl4. rewrite F3c in Pl. pose proof (onlyT_tot _ _ _ O4) as T4. set (t4 := addCells (cells Tl) (t_set_ins i3 t3)) in *.
  assert (F4 : t_rhs t4 = t_rhs (tot_ x) /\ t_ins t4 = i3). { unfold t4. destruct (addCells_f (cells Tl) (t_set_ins i3 t3)) as (_ & -> & -> & _). auto. } destruct F4 as (F4b & F4c).
  assert (Len3 : length i2 = length i3 + length cl) by (apply Permutation_length in Pl; rewrite app_length in Pl; auto).
  assert (Bi3 : below nv i3 /\ below nv cl). { apply below_app. eapply below_perm; [exact Pl|auto]. } destruct Bi3 as (Bi3 & Bcl).
  eapply wpM_mono; [apply (sub_ok d IH rt x4 nv3 _ Hl4); auto|].
  { eapply below_le; eauto. } { rewrite T4, F4c. eapply below_le; [|exact Bi3]. lia. }
  { rewrite T4, F4c. intros L. assert (pr = []) as -> by (destruct D2 as [(? & _)|(_ & ? & _)]; [lia|auto]). cbn in Len2. pose proof (len_leaves Tl Wl) as LL. rewrite Ol in LL.
    destruct (Nat.le_gt_cases (length lf) 1) as [X|X]; [destruct (Cl0 X) as (-> & _); cbn in Len3|rewrite Cl1 in LL by auto]; destruct D1 as [(? & -> & _)|(? & -> & _)]; cbn in Len1; lia. }
  cbv beta. intros _ y (Tr & nv4 & cr & i4 & Br & Cr0 & Cr1). destruct Br as [Or Wr _ Pr Nr Ur H5 O5 Er]. rewrite T4 in Pr, H5, O5. rewrite F4b in H5. rewrite F4c in Pr.
  assert (Bcr : below nv cr). { apply (below_app nv i4). eapply below_perm; [exact Pr|auto]. }
  assert (LvL : leaves Tl = pl ++ cl). { destruct (Nat.le_gt_cases (length lf) 1) as [X|X]; [destruct (Cl0 X) as (-> & -> & _); rewrite app_nil_r; destruct D1 as [(? & -> & _)|(D & -> & _)]; auto; destruct lf as [|? [|]]; cbn in *; auto; lia|rewrite Cl1 by auto; destruct D1 as [(? & _)|(_ & -> & _)]; [lia|auto]]. }
  assert (LvR : leaves Tr = pr ++ cr). { destruct (Nat.le_gt_cases (length rt) 1) as [X|X]; [destruct (Cr0 X) as (-> & -> & _); rewrite app_nil_r; destruct D2 as [(? & -> & _)|(D & -> & _)]; auto; destruct rt as [|? [|]]; cbn in *; auto; lia|rewrite Cr1 by auto; destruct D2 as [(? & _)|(_ & -> & _)]; [lia|auto]]. }
  assert (Bll : below nv (leaves Tl)) by (rewrite LvL; apply below_app; auto). assert (Blr : below nv (leaves Tr)) by (rewrite LvR; apply below_app; auto).
  exists (Node Tl Tr out), nv4, i4. constructor.
  - reflexivity.
  - cbn. rewrite Ol, Or. auto.
  - destruct (length out =? 1); auto.
  - cbn [leaves]. rewrite LvL, LvR, E1, E2. rewrite Pl, Pr. rewrite <- !app_assoc. apply Permutation_app_head. rewrite !app_assoc. rewrite (Permutation_app_comm _ pl), (Permutation_app_comm _ pr). rewrite !app_assoc. rewrite <- !app_assoc. apply Permutation_app_head.
    rewrite (Permutation_app_comm cr cl). rewrite (app_assoc pr cl cr), (Permutation_app_comm pr cl), <- app_assoc. reflexivity.
  - lia.
  - cbn. split; [eapply below_le; [|exact Bo]; lia|]. split; auto. eapply under_le; eauto.
  - eapply on_iff; [exact H5|]. intros a. cbv beta. cbn [cells]. rewrite Ol, Or. split.
    + intros [[[X1 X2] X3] X4]. split; auto. intros c [<-|I]; auto. apply in_app_or in I as [I|I]; auto.
    + intros [X1 X2]. split; [split; [split; auto; apply X2; left; auto|]|]; intros; apply X2; right; apply in_or_app; auto.
  - cbn [cells]. rewrite Ol, Or. change ((lf, rt, out) :: cells Tl ++ cells Tr) with ([(lf, rt, out)] ++ (cells Tl ++ cells Tr)). eapply onlyT_trans; [exact O1|]. eapply onlyT_trans; [exact O2|]. eapply onlyT_trans; [exact O3|]. eapply onlyT_trans; [exact O4|].
    replace (addCells ([(lf, rt, out)] ++ cells Tl ++ cells Tr) (t_set_ins i4 (tot_ x))) with (addCells (cells Tr) (t_set_ins i4 t4)); auto.
    unfold t4, t3. rewrite !addCells_ins, !addCells_app. reflexivity.
  - intros a. set (a1 := fun v => if v <? nv then a v else if v <? nv1 then (v - nv) <? count a (leaves Tl) else (v - nv1) <? count a (leaves Tr)).
    assert (A1 : agree nv a a1). { intros v Hv. unfold a1. apply Nat.ltb_lt in Hv. rewrite Hv. reflexivity. }
    assert (R1 : rootCanon a1 Tl). { destruct D1 as [(D & _)|(D & _ & Dn & Dl)]; [apply canon_root, Cl0; lia|].
      intros j Hj. rewrite Ol in *. rewrite Dl, map_length, seq_length in Hj. rewrite Dl, nth_fresh by auto. unfold lit_true. cbn [snd fst]. rewrite <- (count_agree nv a a1) by auto. unfold a1. destruct (Nat.ltb_spec (nv + j) nv); [lia|]. destruct (Nat.ltb_spec (nv + j) nv1); [|lia]. replace (nv + j - nv) with j by lia. reflexivity. }
    assert (R2 : rootCanon a1 Tr). { destruct D2 as [(D & _)|(D & _ & Dn & Dl)]; [apply canon_root, Cr0; lia|].
      intros j Hj. rewrite Or in *. rewrite Dl, map_length, seq_length in Hj. rewrite Dl, nth_fresh by auto. unfold lit_true. cbn [snd fst]. rewrite <- (count_agree nv a a1) by auto. unfold a1. destruct (Nat.ltb_spec (nv1 + j) nv); [lia|]. destruct (Nat.ltb_spec (nv1 + j) nv1); [lia|]. replace (nv1 + j - nv1) with j by lia. reflexivity. }
    destruct (El a1) as (a2 & A2 & S2). destruct (Er a2) as (a3 & A3 & S3). assert (A12 : agree nv2 a1 a3) by (eapply agree_trans; [|exact A2|exact A3]; lia).
    exists a3. split; [eapply agree_trans; [|exact A1|exact A12]; lia|]. cbn [subCanon]. assert (Le : nv <= nv2) by lia. split; apply canon_split; auto.
    + apply (rootCanon_agree' nv2 a1); auto; [rewrite Ol; auto|apply (below_le nv); auto].
    + apply (subCanon_agree nv3 a2); auto.
    + apply (rootCanon_agree' nv2 a1); auto; [rewrite Or; auto|apply (below_le nv); auto].
Qed.

(** values for new variables *)
Lemma set_fresh : forall nv k N a, exists a', agree nv a a' /\ forall i, i < k -> lit_true a' (nth i (map (fun i => (i, false)) (seq nv k)) (0, false)) = (i <? N).
Proof.
  intros nv k N a. exists (fun v => if v <? nv then a v else (v - nv) <? N). split.
  - intros v Hv. apply Nat.ltb_lt in Hv. rewrite Hv. reflexivity.
  - intros i Hi. rewrite nth_fresh by auto. unfold lit_true. cbn [fst snd]. destruct (Nat.ltb_spec (nv + i) nv); [lia|]. replace (nv + i - nv) with i by lia. reflexivity.
Qed.
Lemma len_fresh : forall nv k, @length slit (map (fun i => (i, false)) (seq nv k)) = k.
Proof. intros. rewrite map_length, seq_length. auto. Qed.

Definition early (rhs len : nat) (t : tot) : bool := (rhs =? len) && (match t_inc t with IncNone => true | IncIterative => negb (t_join t) end).
Definition t0 (t : tot) : tot := t_set_has false (t_set_outs [] t).
Lemma build_ok : forall ls rhs x nv P, On x nv P -> below nv ls ->
  wpM (build n ls rhs) x (fun _ y =>
    (rhs = 0 /\ On y nv (fun a => P a /\ forall l, In l ls -> lit_true a l = false) /\ onlyT x y (t0 (tot_ x))) \/
    (rhs <> 0 /\ early rhs (length ls) (tot_ x) = true /\ y = set_tot_ (t0 (tot_ x)) x) \/
    (rhs <> 0 /\ early rhs (length ls) (tot_ x) = false /\ exists T nv', wf T /\ Permutation ls (leaves T) /\ nv <= nv' /\ under nv' T /\
      On y nv' (fun a => P a /\ forall c, In c (cells T) -> cellOk (rhs + 1) a c) /\
      onlyT x y (addCells (cells T) (Tot (t_cells (tot_ x)) (outs T) [] (t_inc (tot_ x)) rhs true true)) /\
      forall a, exists a', agree nv a a' /\ canon a' T)).
Proof.
  intros ls rhs x nv P H B. unfold build. apply wpM_bind, wpM_setT, wpM_bind, wpM_setT. set (x0 := set_tot_ _ (set_tot_ _ x)). assert (E0 : x0 = set_tot_ (t0 (tot_ x)) x) by reflexivity. assert (H0 : On x0 nv P) by (apply (on_slv x); auto).
  destruct (Nat.eqb_spec rhs 0) as [->|Hr].
  - eapply wpM_mono; [apply (meach_neg n (fun l => l) ls x0 nv P H0); rewrite map_id; auto|]. cbv beta. intros _ y (H1 & O1). left. auto.
  - apply wpM_bind, wpM_getT, wpM_bind, wpM_getT. match goal with |- wpM _ _ ?Q => change (wpM (if early rhs (length ls) (tot_ x) then mret tt else out <<- mrep (length ls) newSatVar ;; setT (t_set_outs out) ;;> setT (t_set_ins ls) ;;> setT (t_set_rhs rhs) ;;> toCnf n (S (length ls)) out ;;> setT (t_set_join true) ;;> setT (t_set_has true)) x0 Q) end.
    destruct (early rhs (length ls) (tot_ x)) eqn:Ee; [apply wpM_ret; right; left; auto|].
    fold x0. apply wpM_bind. eapply wpM_mono; [apply mrep_vars; exact H0|]. cbv beta. intros out x1 (Eo & H1 & O1). pose proof (len_fresh nv (length ls)) as Lo. rewrite <- Eo in Lo.
    assert (Bo : below (nv + length ls) out) by (rewrite Eo; apply below_fresh).
    apply wpM_bind, wpM_setT, wpM_bind, wpM_setT, wpM_bind, wpM_setT. set (x2 := set_tot_ _ (set_tot_ _ (set_tot_ _ x1))). assert (E2 : x2 = set_slv (slv x1) (set_tot_ (Tot (t_cells (tot_ x)) out ls (t_inc (tot_ x)) rhs (t_join (tot_ x)) false) x)). { unfold x2. rewrite O1, E0. reflexivity. }
    assert (H2 : On x2 (nv + length ls) P) by (apply (on_slv x1); auto). apply wpM_bind.
    eapply wpM_mono; [apply (toCnf_ok (S (length ls)) out x2 _ P H2 Bo); [rewrite E2; apply (below_le nv); [apply Nat.le_add_r|exact B]|rewrite E2, Lo; apply le_n]|]. cbv beta. intros _ x3 (T & nv' & ins' & [Bu Bw _ Bp Bn Bun Bon Bonly Be]).
    rewrite E2 in Bp, Bon, Bonly. cbn [tot_ set_slv set_tot_ t_ins t_rhs] in Bp, Bon. assert (ins' = []) as ->. { apply Permutation_length in Bp. rewrite app_length, <- len_leaves, Bu in Bp by auto. destruct ins'; cbn in *; auto; lia. }
    pose proof (onlyT_tot _ _ _ Bonly) as T3. apply wpM_bind, wpM_setT, wpM_setT. right. right. split; auto. split; auto. exists T, nv'. split; auto. split; [exact Bp|]. split; [lia|]. split; auto. split; [apply (on_slv x3); auto|].
    assert (U2 : below nv (leaves T)) by (eapply below_perm; [exact Bp|auto]). split.
    + unfold onlyT. cbn [tot_ set_tot_ set_slv slv]. rewrite T3. unfold onlyT in Bonly. rewrite Bonly, Bu. unfold addCells. cbn. destruct (t_inc (tot_ x)); reflexivity.
    + intros a. destruct (set_fresh nv (length ls) (count a (leaves T)) a) as (a1 & A1 & S1). destruct (Be a1) as (a2 & A2 & S2). exists a2. split; [apply (agree_trans nv (nv + length ls) a a1 a2); [lia|exact A1|exact A2]|]. apply canon_split; auto.
      apply (rootCanon_agree' (nv + length ls) a1); auto; [rewrite Bu; auto|apply (below_le nv); [lia|exact U2]|]. intros k Hk. rewrite Bu in *. rewrite Eo, S1 by lia. rewrite (count_agree nv a a1); auto.
Qed.

(** ** Updating *)
Definition cellWf (nv : nat) (c : list slit * list slit * list slit) : Prop := let '(l, r, o) := c in below nv l /\ below nv r /\ below nv o /\ length o = length l + length r.
Lemma cells_wf : forall nv T, under nv T -> wf T -> forall c, In c (cells T) -> cellWf nv c.
Proof.
  intros nv T. induction T as [|l|x IHx y IHy o]; cbn [under wf cells]; intros U W c I; try contradiction. destruct U as (U0 & U1 & U2), W as (W0 & W1 & W2). destruct I as [<-|I]; [cbn; auto using under_outs|apply in_app_or in I as [I|I]; auto].
Qed.
Lemma incCells_ok : forall cs rhs x nv P, On x nv P -> (forall c r, In (c, r) cs -> cellWf nv c /\ forall a, P a -> cellOk (r + 1) a c) ->
  wpM (incCells n cs rhs) x (fun _ y => On y nv (fun a => P a /\ forall c r, In (c, r) cs -> cellOk (rhs + 1) a c) /\ only x y).
Proof.
  induction cs as [|[[[l r] o] q] rest IH]; intros rhs x nv P H W; cbn [incCells].
  - apply wpM_ret. split; [|apply only_refl]. eapply on_iff; [exact H|]. intros a. split; [intros; split; auto; intros ? ? []|tauto].
  - destruct (W (l, r, o) q (or_introl eq_refl)) as ((W1 & W2 & W3 & W4) & W5). apply wpM_bind. eapply wpM_mono; [apply (meach_addC n (cellClauses l r o (q + 1) (rhs + 1)) x nv P H)|].
    { intros c I. apply in_cellClauses in I as (i & j & Hi & Hj & Hs & ->). apply cellClause_under; auto. }
    cbv beta. intros _ y (H1 & O1). eapply wpM_mono; [apply (IH rhs y nv _ H1)|]. { intros c q' I. destruct (W c q' (or_intror I)). split; auto. intros a [Pa _]. auto. }
    cbv beta. intros _ z (H2 & O2). split; [|eapply only_trans; eauto]. eapply on_iff; [exact H2|]. intros a. cbv beta. split.
    + intros [[X Y] Z]. split; auto. intros c q' [E|I]; [|eauto]. inversion E; subst. eapply cellClauses_more; [apply W5; auto|auto].
    + intros [X Y]. split; [split; auto|intros; eapply Y; right; eauto]. intros c I. apply in_cellClauses in I as (i & j & Hi & Hj & Hs & ->). apply (Y (l, r, o) q (or_introl eq_refl)); auto; lia.
Qed.

(** an incremental totalizer for the leaves of [T] on top of the constraint [P0] over the first [nv0] variables *)
Record ready (x : mx) (nv0 nv : nat) (P0 P : assignment -> Prop) (T : tree) : Prop := {
  rd_inc : t_inc (tot_ x) = IncIterative; rd_join : t_join (tot_ x) = true; rd_has : t_has (tot_ x) = true;
  rd_outs : t_outs (tot_ x) = outs T; rd_wf : wf T; rd_leaves : below nv0 (leaves T);
  rd_cells : forall c, In c (map fst (t_cells (tot_ x))) <-> In c (cells T);
  rd_le : nv0 <= nv; rd_under : under nv T; rd_on : On x nv P;
  rd_P0 : forall a, P a -> P0 a; rd_ok : forall a c r, P a -> In (c, r) (t_cells (tot_ x)) -> cellOk (r + 1) a c;
  rd_P : forall a, P0 a -> canon a T -> P a;
  rd_ext : forall a, exists a', agree nv0 a a' /\ canon a' T }.
Lemma update_ready : forall x nv0 nv P0 P T rhs, ready x nv0 nv P0 P T -> rhs <= length (outs T) ->
  wpM (updateWith n rhs) x (fun r y => r = Some (map neg (skipn rhs (outs T))) /\ (exists P', ready y nv0 nv P0 P' T /\ forall a, P' a -> forall c, In c (cells T) -> cellOk (rhs + 1) a c) /\ exists t, onlyT x y t).
Proof.
  intros x nv0 nv P0 P T rhs R L. destruct R as [R1 R2 R3 R4 R5 R6 R7 Hn U H R8 R9 R10 R11]. unfold updateWith. apply wpM_bind, wpM_getT. rewrite R1. apply wpM_bind. unfold incremental. apply wpM_bind, wpM_getT, wpM_bind.
  eapply wpM_mono; [apply (incCells_ok (t_cells (tot_ x)) rhs x nv _ H)|].
  { intros c r I. split; [|intros a Pa; eauto]. apply (cells_wf nv T); auto. apply R7. apply in_map_iff. exists (c, r). auto. }
  cbv beta. intros _ y (H1 & O1). pose proof (only_tot _ _ O1) as Ty. apply wpM_setT, wpM_bind, wpM_getT. cbn [tot_ set_tot_ t_set_cells t_outs]. rewrite Ty, R4. destruct (Nat.ltb_spec (length (outs T)) rhs); [lia|]. apply wpM_ret. split; auto. split.
  - exists (fun a => P a /\ forall c r, In (c, r) (t_cells (tot_ x)) -> cellOk (rhs + 1) a c). split; [constructor; cbn [tot_ set_tot_ t_set_cells t_inc t_join t_has t_outs t_cells]; try assumption|].
    + intros c. rewrite map_map. cbn [fst]. rewrite <- R7. reflexivity.
    + intros a [X _]. auto.
    + intros a c r [_ Z] I. apply in_map_iff in I as ([c' r'] & E & I). inversion E; subst. eauto.
    + intros a X Y. split; auto. intros c r I. apply (canon_cells a _ T); auto. apply R7. apply in_map_iff. exists (c, r). auto.
    + cbv beta. intros a [_ Z] c I. apply R7 in I. apply in_map_iff in I as ([c' r'] & <- & I). eauto.
  - exists (t_set_cells (map (fun c => (fst c, rhs)) (t_cells (tot_ x))) (tot_ x)). unfold onlyT. cbn [slv set_tot_]. rewrite O1. reflexivity.
Qed.
Lemma nth_skip : forall {A} (d : A) k i l, nth i (skipn k l) d = nth (k + i) l d.
Proof. induction k as [|k IH]; intros i [|x l]; cbn; auto. destruct i; auto. Qed.
(** the assumptions say that at most [rhs] leaves are true *)
Lemma assume_sound : forall a T rhs, wf T -> (forall c, In c (cells T) -> cellOk (rhs + 1) a c) -> (forall p, In p (map neg (skipn rhs (outs T))) -> lit_true a p = true) -> count a (leaves T) <= rhs.
Proof.
  intros a T rhs W C A. destruct (Nat.le_gt_cases (count a (leaves T)) rhs) as [|Hgt]; auto. exfalso. pose proof (tree_sound a rhs T W C rhs (le_n _) Hgt) as Z. pose proof (count_le a (leaves T)) as Lc. rewrite <- len_leaves in Lc by auto.
  specialize (A (neg (nth rhs (outs T) (0, false)))). rewrite lit_neg, Z in A. cbn in A. assert (false = true); [|discriminate]. apply A, in_map. rewrite <- (Nat.add_0_r rhs) at 1. rewrite <- nth_skip. apply nth_In. rewrite skipn_length. lia.
Qed.
Lemma assume_canon : forall a T rhs, wf T -> canon a T -> count a (leaves T) <= rhs -> forall p, In p (map neg (skipn rhs (outs T))) -> lit_true a p = true.
Proof.
  intros a T rhs W C L p I. apply in_map_iff in I as (l & <- & I). rewrite lit_neg. apply In_nth with (d := (0, false)) in I as (k & Hk & <-). rewrite skipn_length in Hk. rewrite nth_skip. rewrite (canon_root a T C) by lia. destruct (Nat.ltb_spec (rhs + k) (count a (leaves T))); auto; lia.
Qed.

Lemma local_cells : forall nv P T hi, local nv P -> under nv T -> wf T -> local nv (fun a => P a /\ forall c, In c (cells T) -> cellOk hi a c).
Proof. intros nv P T hi L U W a b A [X Y]. split; [eapply L; eauto|]. eapply cellOk_agree; eauto. Qed.
(** the first tree *)
Lemma build_ready : forall ls rhs x nv P, On x nv P -> below nv ls -> t_inc (tot_ x) = IncIterative -> t_cells (tot_ x) = [] -> 0 < rhs -> rhs <> length ls ->
  wpM (build n ls rhs) x (fun _ y => (exists T nv' P', ready y nv nv' P P' T /\ Permutation ls (leaves T)) /\ exists t, onlyT x y t).
Proof.
  intros ls rhs x nv P H B Hi Hc Hr Hl. eapply wpM_mono; [apply build_ok; eauto|]. cbv beta. intros _ y [(-> & _)|[(_ & Ee & _)|(_ & _ & T & nv' & W & Pm & Ln & U & H1 & O1 & E1)]]; [lia| |].
  - unfold early in Ee. destruct (Nat.eqb_spec rhs (length ls)); [congruence|discriminate].
  - split; [|eauto]. pose proof (onlyT_tot _ _ _ O1) as Ty. unfold addCells in Ty. cbn [t_inc] in Ty. rewrite Hi, Hc in Ty. cbn in Ty. exists T, nv', (fun a => P a /\ forall c, In c (cells T) -> cellOk (rhs + 1) a c). split; auto.
    constructor; rewrite ?Ty; cbn [t_set_cells t_inc t_join t_has t_outs t_cells]; auto.
    + eapply below_perm; eauto.
    + intros c. rewrite map_map. cbn [fst]. rewrite map_id. tauto.
    + intros a [X _]. auto.
    + intros a c r [_ Y] I. apply in_map_iff in I as (c' & E & I). inversion E; subst. auto.
    + intros a X Y. split; auto. apply canon_cells; auto.
Qed.
(** more leaves *)
Lemma join_ready : forall ls rhs x nv0 nv P0 P T, ready x nv0 nv P0 P T -> below nv0 ls -> ls <> [] -> 0 < rhs ->
  wpM (join n ls rhs) x (fun _ y => (exists T' nv' P', ready y nv0 nv' P0 P' T' /\ Permutation (leaves T ++ ls) (leaves T')) /\ exists t, onlyT x y t).
Proof.
  intros ls rhs x nv0 nv P0 P T R B Hne Hr. destruct R as [R1 R2 R3 R4 R5 R6 R7 Hn U H R8 R9 R10 R11]. unfold join. apply wpM_bind, wpM_getT, wpM_bind, wpM_getT, wpM_bind. rewrite R4. set (old := t_rhs (tot_ x)).
  assert (S1 : wpM (match ls with [] => mpanic | [l] => setT (t_set_outs [l]) | _ => build n ls (min rhs (length ls)) end) x (fun _ y => exists T2 nv' hi t, wf T2 /\ Permutation ls (leaves T2) /\ nv <= nv' /\ under nv' T2 /\
      On y nv' (fun a => P a /\ forall c, In c (cells T2) -> cellOk (hi + 1) a c) /\ onlyT x y t /\ t_inc t = IncIterative /\ t_join t = true /\ t_has t = true /\ t_outs t = outs T2 /\ t_cells t = t_cells (tot_ x) ++ map (fun c => (c, hi)) (cells T2) /\
      forall a, exists a', agree nv a a' /\ canon a' T2)).
  { destruct ls as [|l [|l' r]]; [congruence| |].
    - apply wpM_setT. exists (Leaf l), nv, 0, (t_set_outs [l] (tot_ x)). cbn [wf leaves under cells outs map]. split; auto. split; auto. split; auto. split; [apply below_cons in B; destruct B; lia|]. split; [|split; [unfold onlyT; reflexivity|]].
      + apply (on_slv x); auto. eapply on_iff; [exact H|]. intros a. split; [intros; split; auto; intros ? []|tauto].
      + cbn. rewrite app_nil_r. repeat (split; auto). intros a. exists a. split; auto. apply agree_refl.
    - set (ls := l :: l' :: r) in *. eapply wpM_mono; [apply (build_ok ls (min rhs (length ls)) x nv P H)|]. { eapply below_le; [|exact B]; auto. }
      cbv beta. intros _ y [(E0 & _)|[(_ & Ee & _)|(_ & _ & T2 & nv' & W & Pm & Ln & U2 & H1 & O1 & E1)]].
      + unfold ls in E0. cbn [length] in E0. lia.
      + unfold early in Ee. rewrite R1, R2 in Ee. rewrite andb_false_r in Ee. discriminate.
      + exists T2, nv', (min rhs (length ls)), (addCells (cells T2) (Tot (t_cells (tot_ x)) (outs T2) [] (t_inc (tot_ x)) (min rhs (length ls)) true true)). split; auto. split; auto. split; auto. split; auto. split; auto. split; auto. unfold addCells. cbn [t_inc]. rewrite R1. cbn. repeat (split; auto). }
  eapply wpM_mono; [exact S1|]. clear S1. cbv beta. intros _ y (T2 & nv1 & hi & t & W2 & Pm & Ln & U2 & H1 & O1 & T1 & T2' & T3 & T4 & T5 & E1).
  apply wpM_bind, wpM_getT, wpM_bind. rewrite (onlyT_tot _ _ _ O1), T4. eapply wpM_mono; [apply mrep_vars; exact H1|]. cbv beta. intros out z (Eo & H2 & O2). set (k := length (outs T) + length (outs T2)) in *.
  pose proof (len_fresh nv1 k) as Lo. rewrite <- Eo in Lo. assert (Bo : below (nv1 + k) out) by (rewrite Eo; apply below_fresh).
  apply wpM_bind, wpM_setT, wpM_bind, wpM_setT, wpM_bind. set (z1 := set_tot_ _ (set_tot_ _ z)). assert (Tz : tot_ z = t) by (rewrite (only_tot _ _ O2); apply (onlyT_tot _ _ _ O1)). assert (O3 : onlyT x z1 (t_set_rhs rhs (t_set_outs out t))). { unfold z1, onlyT. cbn [slv set_tot_ tot_]. rewrite Tz. rewrite O2, O1. reflexivity. }
  assert (U' : under nv1 T) by (eapply under_le; [exact Ln|exact U]).
  eapply wpM_mono; [apply (adder_ok (outs T) (outs T2) out z1 (nv1 + k) _ (on_slv z z1 _ _ eq_refl H2))|]; auto.
  { apply (below_le nv1); [lia|apply under_outs; auto]. } { apply (below_le nv1); [lia|apply under_outs; auto]. }
  cbv beta. intros _ w (H3 & O4). rewrite (onlyT_tot _ _ _ O3) in H3, O4. cbn [t_rhs t_set_rhs] in H3. apply wpM_setT. pose proof (onlyT_tot _ _ _ O4) as Tw. split; [|exists (t_set_rhs old (tot_ w)); unfold onlyT; cbn [slv set_tot_]; rewrite O4, O3; reflexivity].
  unfold addCells in Tw. cbn [t_inc t_set_rhs t_set_outs t_rhs t_cells map] in Tw. rewrite T1 in Tw. cbn in Tw. rewrite T5 in Tw.
  exists (Node T T2 out), (nv1 + k), (fun a => ((P a /\ forall c, In c (cells T2) -> cellOk (hi + 1) a c) /\ cellOk (rhs + 1) a (outs T, outs T2, out))).
  split; [|cbn [leaves]; apply Permutation_app_head; auto]. constructor; cbn [tot_ set_tot_]; rewrite ?Tw; cbn [t_set_rhs t_set_outs t_set_cells t_inc t_join t_has t_outs t_cells outs wf leaves cells]; auto.
  - apply below_app. split; auto. eapply below_perm; eauto.
  - intros c. rewrite !map_app. cbn [map fst]. rewrite map_map. cbn [fst]. rewrite map_id. rewrite !in_app_iff, R7. cbn [In]. rewrite in_app_iff. tauto.
  - lia.
  - cbn [under]. split; auto. split; [apply (under_le nv1); [lia|auto]|apply (under_le nv1); [lia|auto]].
  - intros a [[X _] _]. auto.
  - intros a c r [[X Y] Z] I. apply in_app_or in I as [I|[E|[]]]; [|inversion E; subst; auto]. apply in_app_or in I as [I|I]; [eauto|]. apply in_map_iff in I as (c' & E & I). inversion E; subst. auto.
  - cbn [canon]. intros a X (Y1 & Y2 & Y3). split; [split; auto; apply canon_cells; auto|]. apply (canon_cells a (rhs + 1) (Node T T2 out)); [cbn [wf]; auto|cbn [canon]; auto|left; auto].
  - intros a. destruct (R11 a) as (a1 & A1 & C1). destruct (E1 a1) as (a2 & A2 & C2). destruct (set_fresh nv1 k (count a2 (leaves T ++ leaves T2)) a2) as (a3 & A3 & S3). exists a3. 
    assert (A13 : agree nv a1 a3) by (apply (agree_trans nv nv1 a1 a2 a3); auto).
    split; [apply (agree_trans nv0 nv a a1 a3); auto|]. cbn [canon]. split; [|split; [apply (canon_agree nv a1); auto|apply (canon_agree nv1 a2); auto]].
    intros i Hi. cbn [outs leaves] in *. rewrite Eo, S3 by lia. rewrite (count_agree nv1 a2 a3); auto. apply below_app. split; apply under_leaves; auto.
Qed.

(** ** One cardinality constraint, once and for all *)
Lemma encode_ok : forall ls rhs x nv P, On x nv P -> below nv ls -> t_inc (tot_ x) = IncNone ->
  wpM (encodeCardinality n ls rhs) x (fun _ y => exists t T nv' P', onlyT x y t /\ t_inc t = IncNone /\ nv <= nv' /\ On y nv' P' /\ wf T /\ under nv' T /\
    (forall a, P' a -> P a /\ count a ls <= rhs) /\ (forall a, P a -> canon a T -> count a ls <= rhs -> P' a) /\ (forall a, exists a', agree nv a a' /\ canon a' T) /\
    (t_has t = true -> t_outs t = outs T /\ Permutation ls (leaves T) /\ forall a, P' a -> forall c, In c (cells T) -> cellOk (rhs + 1) a c) /\ (t_has t = false -> T = Nil)).
Proof.
  intros ls rhs x nv P H B Hi. unfold encodeCardinality. apply wpM_bind. eapply wpM_mono; [apply build_ok; eauto|]. cbv beta. intros _ y [(-> & H1 & O1)|[(Hr & Ee & ->)|(Hr & Ee & T & nv' & W & Pm & Ln & U & H1 & O1 & E1)]].
  - apply wpM_bind, wpM_getT. rewrite (onlyT_tot _ _ _ O1). cbn [t0 t_has t_set_has]. apply wpM_ret. exists (t0 (tot_ x)), Nil, nv, (fun a => P a /\ forall l, In l ls -> lit_true a l = false). split; auto. split; auto. split; auto. split; auto. split; [exact I|]. split; [exact I|]. split; [|split; [|split; [|split; [discriminate|auto]]]].
    + intros a [X Y]. split; auto. destruct (Nat.eq_dec (count a ls) 0) as [->|Z]; auto. apply count_pos in Z as (l & J & Z). rewrite Y in Z; auto. discriminate.
    + intros a X _ Y. split; auto. intros l J. destruct (lit_true a l) eqn:Z; auto. exfalso. assert (count a ls <> 0) by (apply count_pos; eauto). lia.
    + intros a. exists a. split; [apply agree_refl|exact I].
  - apply wpM_bind, wpM_getT. cbn [t0 t_has t_set_has tot_ set_tot_]. apply wpM_ret. exists (t0 (tot_ x)), Nil, nv, P. split; [unfold onlyT; destruct x; reflexivity|]. split; auto. split; auto. split; [apply (on_slv x); auto|]. split; [exact I|]. split; [exact I|]. split; [|split; [auto|split; [|split; [discriminate|auto]]]].
    + intros a X. split; auto. apply andb_prop in Ee as [Ee _]. apply Nat.eqb_eq in Ee. pose proof (count_le a ls). lia.
    + intros a. exists a. split; [apply agree_refl|exact I].
  - set (t := addCells (cells T) (Tot (t_cells (tot_ x)) (outs T) [] (t_inc (tot_ x)) rhs true true)) in *. assert (F : t_has t = true /\ t_inc t = IncNone /\ t_outs t = outs T) by (unfold t, addCells; cbn [t_inc]; rewrite Hi; auto). destruct F as (F1 & F2 & F3).
    apply wpM_bind, wpM_getT. rewrite (onlyT_tot _ _ _ O1), F1. apply wpM_bind. unfold updateWith. apply wpM_bind, wpM_getT. rewrite (onlyT_tot _ _ _ O1), F2.
    apply wpM_bind, wpM_getT. rewrite (onlyT_tot _ _ _ O1), F3.
    apply wpM_bind. eapply wpM_mono; [apply (meach_neg n (fun l => l) (skipn rhs (outs T)) y nv' _ H1)|]. { rewrite map_id. intros l J. apply (under_outs nv' T U). rewrite <- (firstn_skipn rhs (outs T)). apply in_or_app; auto. }
    cbv beta. intros _ z (H2 & O2). apply wpM_ret, wpM_ret. eexists t, T, nv', _. split; [eapply onlyT_only; eauto|]. split; auto. split; auto. split; [exact H2|]. split; auto. split; auto. cbv beta. split; [|split; [|split; [exact E1|split; [|congruence]]]].
    + intros a [[X Y] Z]. split; auto. rewrite (count_perm a _ _ Pm). apply (assume_sound a T rhs W Y). intros p J. apply in_map_iff in J as (l & <- & J). rewrite lit_neg, Z; auto.
    + intros a X C Y. split; [split; auto; apply canon_cells; auto|].
      intros l J. rewrite (count_perm a _ _ Pm) in Y. pose proof (assume_canon a T rhs W C Y (neg l) (in_map neg _ _ J)) as Z. rewrite lit_neg in Z. destruct (lit_true a l); auto; discriminate.
    + intros _. split; auto. split; auto. intros a [[_ Y] _]. exact Y.
Qed.
End Tot.
