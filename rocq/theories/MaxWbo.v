(** * MaxSAT: the algorithm WBO without symmetry breaking is right on all problems, also weighted ones *)
From Coq Require Import List Bool Arith Lia Permutation.
From Verif Require Import SatSpec Sat SatProps MaxSpec MaxSat MaxBase MaxTot MaxAlg.
Import ListNotations.

Lemma wpM_both : forall {A} (m : M A) x (Q R : A -> mx -> Prop), wpM m x Q -> wpM m x R -> wpM m x (fun a y => Q a y /\ R a y).
Proof. intros A m x Q R H1 H2. unfold wpM in *. destruct (m x); auto. Qed.
Lemma ls_cons' : forall a l, list_sum (a :: l) = a + list_sum l. Proof. reflexivity. Qed.
Lemma ls_app' : forall l1 l2, list_sum (l1 ++ l2) = list_sum l1 + list_sum l2.
Proof. induction l1 as [|a l IH]; intros l2; cbn [app]; auto. rewrite !ls_cons', IH. lia. Qed.
Lemma updAt_app : forall {A} (f : A -> A) l1 c l2, updAt (length l1) f (l1 ++ c :: l2) = l1 ++ f c :: l2.
Proof. intros A f l1. induction l1 as [|x l IH]; intros; cbn; auto. rewrite IH. auto. Qed.

(** what the search pays for a soft clause with its relaxation variables, and without them *)
Definition av (c : softc) : nat := fst (asm0 c).
Definition vio (a : assignment) (c : softc) : bool := negb (true_in a (sc_lits c ++ sc_relax c)).
Definition scost (a : assignment) (ss : list softc) : nat := list_sum (map (fun c => if vio a c then sc_weight c else 0) ss).
Definition ocost (a : assignment) (ss : list softc) : nat := list_sum (map (fun c => if true_in a (sc_lits c) then 0 else sc_weight c) ss).
Lemma scost_app : forall a l1 l2, scost a (l1 ++ l2) = scost a l1 + scost a l2.
Proof. intros. unfold scost. rewrite map_app, ls_app'. auto. Qed.
Lemma scost_cons : forall a c l, scost a (c :: l) = (if vio a c then sc_weight c else 0) + scost a l. Proof. reflexivity. Qed.
Lemma ocost_app : forall a l1 l2, ocost a (l1 ++ l2) = ocost a l1 + ocost a l2.
Proof. intros. unfold ocost. rewrite map_app, ls_app'. auto. Qed.
Lemma ocost_cons : forall a c l, ocost a (c :: l) = (if true_in a (sc_lits c) then 0 else sc_weight c) + ocost a l. Proof. reflexivity. Qed.
Lemma scost_in : forall a c ss, In c ss -> vio a c = true -> sc_weight c <= scost a ss.
Proof. intros a c ss I V. induction ss as [|d r IH]; [destruct I|]. rewrite scost_cons. destruct I as [->|I]; [rewrite V; lia|]. specialize (IH I). destruct (vio a d); lia. Qed.
Lemma scost_zero : forall a ss, (forall c, In c ss -> vio a c = false) -> scost a ss = 0.
Proof. intros a ss H. induction ss as [|d r IH]; auto. rewrite scost_cons, H by (left; auto). apply IH. intros; apply H; right; auto. Qed.

Section Wbo.
Variable nv0 : nat.
Record okS (nv : nat) (ss : list softc) : Prop := {
  s_lits : forall c, In c ss -> below nv0 (sc_lits c); s_rel : forall c, In c ss -> below nv (sc_relax c);
  s_asm : forall c, In c ss -> sc_asm c = Some (av c, false) /\ nv0 <= av c < nv; s_nd : NoDup (map av ss);
  s_fresh : forall c d l, In c ss -> In d ss -> In l (sc_relax d) -> fst l <> av c; s_pos : forall c, In c ss -> 1 <= sc_weight c }.
Lemma vio_agree : forall nv ss a b c, okS nv ss -> nv0 <= nv -> In c ss -> (forall v, v < nv -> ~ In v (map av ss) -> a v = b v) -> vio a c = vio b c.
Proof.
  intros nv ss a b c O L I A. unfold vio. f_equal. assert (G : forall ls, (forall l, In l ls -> fst l < nv /\ ~ In (fst l) (map av ss)) -> true_in a ls = true_in b ls).
  { induction ls as [|l r IH]; intros H; auto. unfold true_in in *. cbn [existsb]. rewrite IH by (intros; apply H; right; auto). f_equal. destruct (H l (or_introl eq_refl)) as [H1 H2]. unfold lit_true. rewrite (A _ H1 H2). auto. }
  apply G. intros l J. apply in_app_or in J as [J|J].
  - pose proof (s_lits _ _ O c I l J) as B. split; [lia|]. intros K. apply in_map_iff in K as (d & E & K). destruct (s_asm _ _ O d K) as [_ X]. lia.
  - split; [apply (s_rel _ _ O c I); auto|]. intros K. apply in_map_iff in K as (d & E & K). apply (s_fresh _ _ O d c l K I J). auto.
Qed.
(** every assignment has a variant that tells the violated soft clauses by the assumption variables *)
Definition tell (ss : list softc) (a : assignment) : assignment := fun v => if in_dec Nat.eq_dec v (map av ss) then existsb (fun c => (av c =? v) && vio a c) ss else a v.
Lemma tell_other : forall ss a v, ~ In v (map av ss) -> tell ss a v = a v.
Proof. intros ss a v H. unfold tell. destruct (in_dec _ _ _); tauto. Qed.
Lemma tell_av : forall nv ss a c, okS nv ss -> In c ss -> tell ss a (av c) = vio a c.
Proof.
  intros nv ss a c O I. unfold tell. destruct (in_dec _ _ _) as [_|N]; [|exfalso; apply N, in_map; auto]. pose proof (s_nd _ _ O) as N. clear O. induction ss as [|d r IH]; [destruct I|]. cbn [map] in N. inversion N as [|? ? N1 N2]; subst. cbn [existsb]. destruct I as [->|I].
  - rewrite Nat.eqb_refl. cbn [andb]. destruct (vio a c); auto. cbn [orb]. clear IH N N2. induction r as [|e r IH]; auto. cbn [existsb map] in *. destruct (Nat.eqb_spec (av e) (av c)) as [E|E]; [exfalso; apply N1; left; auto|]. cbn. apply IH. intros K; apply N1; right; auto.
  - destruct (Nat.eqb_spec (av d) (av c)) as [E|E]; [exfalso; apply N1; rewrite E; apply in_map; auto|]. cbn. apply IH; auto.
Qed.
Lemma core_at : forall l1 c l2 j, (forall d, In d (l1 ++ c :: l2) -> sc_asm d = Some (av d, false)) -> NoDup (map av (l1 ++ c :: l2)) -> coreIndex (av c, false) (l1 ++ c :: l2) j = Some (j + length l1).
Proof.
  assert (G : forall v l j, (forall d, In d l -> sc_asm d = Some (av d, false)) -> ~ In v (map av l) -> coreIndex (v, false) l j = None).
  { induction l as [|d l IH]; intros j A N; cbn [coreIndex]; auto. rewrite IH; [|intros; apply A; right; auto|intros K; apply N; right; auto]. rewrite (A d) by (left; auto). unfold slit_eqb. cbn [fst snd]. destruct (Nat.eqb_spec v (av d)) as [E|E]; auto. exfalso. apply N. left; auto. }
  intros l1. induction l1 as [|d l IH]; intros c l2 j A N; cbn [app coreIndex length] in *.
  - cbn [map] in N. inversion N; subst. rewrite G; auto; [|intros; apply A; right; auto]. rewrite (A c) by (left; auto). unfold slit_eqb. cbn [fst snd]. rewrite Nat.eqb_refl. cbn. f_equal. lia.
  - cbn [map] in N. inversion N; subst. rewrite IH; auto; [|intros; apply A; right; auto]. f_equal. lia.
Qed.

(** ** One soft clause of a core *)
Record moved (nv nv' : nat) (wc : nat) (c : softc) (ss ss' : list softc) : Prop := {
  m_ok : okS nv' ss'; m_lt : nv < nv'; m_av : forall v, In v (map av ss') -> In v (map av ss) \/ nv < v < nv';
  m_keep : forall d, In d ss -> av d <> av c -> In d ss'; m_back : forall d, In d ss' -> av d <> av c -> av d < nv -> In d ss;
  m_cost : forall b, scost b ss' + (if b nv && vio b c then wc else 0) = scost b ss; m_ocost : forall b, ocost b ss' = ocost b ss;
  m_lits : exists t, map sc_lits ss' = map sc_lits ss ++ t; m_ones : (forall d, In d ss -> sc_weight d = 1) -> wc = 1 -> forall d, In d ss' -> sc_weight d = 1 }.
Lemma vio_new : forall b c w p a, vio b (Soft (sc_lits c) (sc_relax c ++ [(p, false)]) w a) = vio b c && negb (b p).
Proof.
  intros b c w p a. unfold vio, true_in. cbn [sc_lits sc_relax]. rewrite app_assoc, existsb_app. cbn [existsb]. unfold lit_true at 2. cbn [fst snd xorb]. rewrite orb_false_r. destruct (existsb _ _), (b p); reflexivity.
Qed.
Lemma av_some : forall ls rl w v s, av (Soft ls rl w (Some (v, s))) = v. Proof. reflexivity. Qed.
Lemma nv_split : forall {A} (l1 l2 : list A) c d, In d (l1 ++ c :: l2) <-> d = c \/ In d (l1 ++ l2).
Proof. intros. rewrite !in_app_iff. cbn. intuition. Qed.
Lemma move_in : forall nv wc l1 c l2, nv0 <= nv -> okS nv (l1 ++ c :: l2) -> sc_weight c = wc ->
  moved nv (S nv) wc c (l1 ++ c :: l2) (l1 ++ Soft (sc_lits c) (sc_relax c ++ [(nv, false)]) (sc_weight c) (sc_asm c) :: l2).
Proof.
  intros nv wc l1 c l2 L O W. assert (Ic : In c (l1 ++ c :: l2)) by (apply nv_split; auto). set (c' := Soft _ _ _ _). assert (Ea : av c' = av c) by reflexivity.
  assert (Em : map av (l1 ++ c' :: l2) = map av (l1 ++ c :: l2)) by (rewrite !map_app; reflexivity).
  assert (D : forall d, In d (l1 ++ c' :: l2) -> d = c' \/ In d (l1 ++ c :: l2)) by (intros d I; apply nv_split in I as [->|I]; [auto|right; apply nv_split; auto]).
  constructor.
  - constructor.
    + intros d I. apply D in I as [->|I]; [apply (s_lits _ _ O c Ic)|apply (s_lits _ _ O); auto].
    + intros d I. apply D in I as [->|I]; [cbn; apply below_app; split; [apply (below_le nv); [lia|apply (s_rel _ _ O c Ic)]|intros l [<-|[]]; cbn; lia]|apply (below_le nv); [lia|apply (s_rel _ _ O); auto]].
    + intros d I. apply D in I as [->|I]; [rewrite Ea; destruct (s_asm _ _ O c Ic); split; [auto|lia]|destruct (s_asm _ _ O d I); split; [auto|lia]].
    + rewrite Em. apply O.
    + intros d e l I J K. assert (Av : exists d', In d' (l1 ++ c :: l2) /\ av d' = av d) by (apply D in I as [->|I]; eauto). destruct Av as (d' & Id & <-). apply D in J as [->|J]; [|apply (s_fresh _ _ O d' e); auto]. cbn [sc_relax c'] in K. apply in_app_or in K as [K|[<-|[]]]; [apply (s_fresh _ _ O d' c); auto|]. destruct (s_asm _ _ O d' Id). cbn. lia.
    + intros d I. apply D in I as [->|I]; [apply (s_pos _ _ O c Ic)|apply (s_pos _ _ O); auto].
  - lia.
  - rewrite Em. auto.
  - intros d I N. apply nv_split. right. apply nv_split in I as [->|I]; [congruence|auto].
  - intros d I N _. apply nv_split. right. apply nv_split in I as [->|I]; [congruence|auto].
  - intros b. rewrite !scost_app, !scost_cons. unfold c' at 1. rewrite vio_new. cbn [sc_weight c']. rewrite W. destruct (vio b c), (b nv); cbn; lia.
  - intros b. rewrite !ocost_app, !ocost_cons. reflexivity.
  - exists []. rewrite app_nil_r, !map_app. reflexivity.
  - intros H _ d I. apply D in I as [->|I]; [apply (H c Ic)|auto].
Qed.
Lemma move_split : forall nv wc l1 c l2, nv0 <= nv -> okS nv (l1 ++ c :: l2) -> wc < sc_weight c -> 1 <= wc ->
  moved nv (S (S nv)) wc c (l1 ++ c :: l2) ((l1 ++ Soft (sc_lits c) (sc_relax c) (sc_weight c - wc) (sc_asm c) :: l2) ++ [Soft (sc_lits c) (sc_relax c ++ [(nv, false)]) wc (Some (S nv, false))]).
Proof.
  intros nv wc l1 c l2 L O W W1. assert (Ic : In c (l1 ++ c :: l2)) by (apply nv_split; auto). set (c' := Soft _ _ (_ - _) _). set (c2 := Soft _ (_ ++ _) _ _). assert (Ea : av c' = av c) by reflexivity. assert (E2 : av c2 = S nv) by reflexivity.
  assert (Em : map av ((l1 ++ c' :: l2) ++ [c2]) = map av (l1 ++ c :: l2) ++ [S nv]) by (rewrite !map_app; reflexivity).
  assert (D : forall d, In d ((l1 ++ c' :: l2) ++ [c2]) -> d = c2 \/ d = c' \/ In d (l1 ++ c :: l2)) by (intros d I; apply in_app_or in I as [I|[<-|[]]]; [|auto]; apply nv_split in I as [->|I]; [auto|right; right; apply nv_split; auto]).
  constructor.
  - constructor.
    + intros d I. apply D in I as [->|[->|I]]; [apply (s_lits _ _ O c Ic)|apply (s_lits _ _ O c Ic)|apply (s_lits _ _ O); auto].
    + intros d I. apply D in I as [->|[->|I]]; [cbn; apply below_app; split; [apply (below_le nv); [lia|apply (s_rel _ _ O c Ic)]|intros l [<-|[]]; cbn; lia]|apply (below_le nv); [lia|apply (s_rel _ _ O c Ic)]|apply (below_le nv); [lia|apply (s_rel _ _ O); auto]].
    + intros d I. apply D in I as [->|[->|I]]; [rewrite E2; split; [auto|lia]|rewrite Ea; destruct (s_asm _ _ O c Ic); split; [auto|lia]|destruct (s_asm _ _ O d I); split; [auto|lia]].
    + rewrite Em. eapply Permutation_NoDup; [apply Permutation_cons_append|]. constructor; [|apply O]. intros K. apply in_map_iff in K as (d & E & K). destruct (s_asm _ _ O d K). lia.
    + intros d e l I J K. assert (K' : fst l = nv \/ exists e', In e' (l1 ++ c :: l2) /\ In l (sc_relax e')). { apply D in J as [->|[->|J]]; [cbn [sc_relax c2] in K; apply in_app_or in K as [K|[<-|[]]]; [right; exists c; auto|left; auto]|right; exists c; auto|right; exists e; auto]. }
      assert (Av : av d = S nv \/ exists d', In d' (l1 ++ c :: l2) /\ av d' = av d) by (apply D in I as [->|[->|I]]; [left; auto|right; exists c; auto|right; exists d; auto]).
      destruct Av as [->|(d' & Id & <-)], K' as [->|(e' & Ie & K')].
      * lia.
      * pose proof (s_rel _ _ O e' Ie l K'). lia.
      * destruct (s_asm _ _ O d' Id). lia.
      * apply (s_fresh _ _ O d' e' l); auto.
    + intros d I. apply D in I as [->|[->|I]]; [cbn; lia|cbn; lia|apply (s_pos _ _ O); auto].
  - lia.
  - rewrite Em. intros v I. apply in_app_or in I as [I|[<-|[]]]; [auto|right; lia].
  - intros d I N. apply in_or_app. left. apply nv_split. right. apply nv_split in I as [->|I]; [congruence|auto].
  - intros d I N X. apply D in I as [->|[->|I]]; [rewrite E2 in X; lia|congruence|auto].
  - intros b. rewrite !scost_app, !scost_cons. unfold c2 at 1. rewrite vio_new. cbn [sc_weight c' c2]. replace (vio b c') with (vio b c) by reflexivity. change (scost b []) with 0. destruct (vio b c), (b nv); cbn; lia.
  - intros b. rewrite !ocost_app, !ocost_cons. cbn [sc_lits sc_weight c' c2]. change (ocost b []) with 0. destruct (true_in b (sc_lits c)); lia.
  - exists [sc_lits c]. rewrite !map_app. reflexivity.
  - intros H E. specialize (H c Ic). lia.
Qed.

(** ** All soft clauses of a core *)
Definition aneg (c : softc) : slit := (av c, true).
Record movedAll (nv nv' : nat) (wc : nat) (pc : list (softc * nat)) (ss ss' : list softc) : Prop := {
  a_ok : okS nv' ss'; a_le : nv <= nv'; a_av : forall v, In v (map av ss') -> In v (map av ss) \/ (nv <= v /\ ~ In v (map snd pc));
  a_var : forall q, In q pc -> nv <= snd q < nv'; a_nd : NoDup (map snd pc);
  a_cost : forall b, scost b ss' + list_sum (map (fun q => if b (snd q) && vio b (fst q) then wc else 0) pc) = scost b ss; a_ocost : forall b, ocost b ss' = ocost b ss;
  a_lits : exists t, map sc_lits ss' = map sc_lits ss ++ t; a_ones : (forall d, In d ss -> sc_weight d = 1) -> wc = 1 -> forall d, In d ss' -> sc_weight d = 1 }.
Lemma av_in : forall nv ss c d, okS nv ss -> In c ss -> In d ss -> av c = av d -> c = d.
Proof.
  intros nv ss c d O I J E. pose proof (s_nd _ _ O) as N. clear O. induction ss as [|e r IH]; [destruct I|]. cbn [map] in N. inversion N; subst. destruct I as [->|I], J as [->|J]; auto; exfalso.
  - apply H1. rewrite E. apply in_map; auto.
  - apply H1. rewrite <- E. apply in_map; auto.
Qed.
Lemma movedAll_nil : forall nv wc ss, okS nv ss -> movedAll nv nv wc [] ss ss.
Proof. intros nv wc ss O. constructor; auto. - intros ? []. - apply NoDup_nil. - exists []. rewrite app_nil_r. auto. Qed.
Lemma movedAll_cons : forall nv n1 nv' wc c pc ss s1 ss', moved nv n1 wc c ss s1 -> movedAll n1 nv' wc pc s1 ss' -> movedAll nv nv' wc ((c, nv) :: pc) ss ss'.
Proof.
  intros nv n1 nv' wc c pc ss s1 ss' M A. pose proof (m_lt _ _ _ _ _ _ M). constructor.
  - apply A.
  - pose proof (a_le _ _ _ _ _ _ A). lia.
  - intros v I. apply (a_av _ _ _ _ _ _ A) in I as [I|[I1 I2]].
    + apply (m_av _ _ _ _ _ _ M) in I as [I|I]; [auto|]. right. split; [lia|]. intros [K|K]; [cbn in K; lia|]. apply in_map_iff in K as (q & E & K). apply (a_var _ _ _ _ _ _ A) in K. lia.
    + right. split; [lia|]. intros [K|K]; [cbn in K; lia|auto].
  - intros q [<-|I]; [cbn; pose proof (a_le _ _ _ _ _ _ A); lia|]. apply (a_var _ _ _ _ _ _ A) in I. lia.
  - cbn [map snd]. constructor; [|apply A]. intros K. apply in_map_iff in K as (q & E & K). apply (a_var _ _ _ _ _ _ A) in K. lia.
  - intros b. cbn [map]. rewrite ls_cons'. cbn [fst snd]. rewrite <- (m_cost _ _ _ _ _ _ M b), <- (a_cost _ _ _ _ _ _ A b). lia.
  - intros b. rewrite (a_ocost _ _ _ _ _ _ A), (m_ocost _ _ _ _ _ _ M). auto.
  - destruct (a_lits _ _ _ _ _ _ A) as (t & ->), (m_lits _ _ _ _ _ _ M) as (u & ->). exists (u ++ t). rewrite app_assoc. auto.
  - intros H1 H2. apply (a_ones _ _ _ _ _ _ A); auto. apply (m_ones _ _ _ _ _ _ M); auto.
Qed.
Lemma core_find : forall nv ss c, okS nv ss -> In c ss -> exists l1 l2, ss = l1 ++ c :: l2 /\ coreIndex (av c, false) ss 0 = Some (length l1).
Proof. intros nv ss c O I. apply in_split in I as (l1 & l2 & ->). exists l1, l2. split; auto. apply core_at; [intros d J; apply (s_asm _ _ O d J)|apply O]. Qed.
Lemma symLog_asm : forall symm p l w, wb_asm (symLog symm p l w) = wb_asm w.
Proof. intros [] p l w; reflexivity. Qed.
Lemma relaxCore_ok : forall symm conf wc x w, nv0 <= nbVars x -> okS (nbVars x) (soft x) -> 1 <= wc -> NoDup conf -> (forall l, In l conf -> exists c, In c (soft x) /\ l = (av c, false) /\ wc <= sc_weight c) ->
  wb_asm w = map aneg (soft x) ->
  wpM (relaxCore symm conf wc w) x (fun q y => y = set_soft (soft y) (set_nbVars (nbVars y) x) /\ wb_asm (snd q) = map aneg (soft y) /\
    exists pc, conf = map (fun q => (av (fst q), false)) pc /\ fst q = map (fun q => (snd q, false)) pc /\ (forall q, In q pc -> In (fst q) (soft x)) /\ movedAll (nbVars x) (nbVars y) wc pc (soft x) (soft y)).
Proof.
  intros symm. induction conf as [|l r IH]; intros wc x w L O W1 N C A; cbn [relaxCore].
  - apply wpM_ret. split; [destruct x; reflexivity|]. split; auto. exists []. split; auto. split; auto. split; [intros ? []|]. apply movedAll_nil; auto.
  - inversion N as [|? ? N1 N2]; subst. destruct (C l (or_introl eq_refl)) as (c & Ic & -> & Wc). destruct (core_find _ _ _ O Ic) as (l1 & l2 & Es & Ei). apply wpM_bind, wpM_get. rewrite Ei. replace (nth_error (soft x) (length l1)) with (Some c) by (rewrite Es, nth_error_app2, Nat.sub_diag by lia; auto).
    assert (Other : forall l, In l r -> exists d, In d (soft x) /\ l = (av d, false) /\ wc <= sc_weight d /\ av d <> av c). { intros l I. destruct (C l (or_intror I)) as (d & Id & -> & Wd). exists d. split; auto. split; auto. split; auto. intros E. apply N1. rewrite <- E. auto. }
    assert (Go : forall n1 s1 w1, moved (nbVars x) n1 wc c (soft x) s1 -> wb_asm w1 = map aneg s1 -> wpM (q <<- relaxCore symm r wc w1 ;; mret ((nbVars x, false) :: fst q, snd q)) (set_soft s1 (set_nbVars n1 x))
      (fun q y => y = set_soft (soft y) (set_nbVars (nbVars y) x) /\ wb_asm (snd q) = map aneg (soft y) /\
        exists pc, (av c, false) :: r = map (fun q => (av (fst q), false)) pc /\ fst q = map (fun q => (snd q, false)) pc /\ (forall q, In q pc -> In (fst q) (soft x)) /\ movedAll (nbVars x) (nbVars y) wc pc (soft x) (soft y))).
    { intros n1 s1 w1 M A1. apply wpM_bind. pose proof (m_lt _ _ _ _ _ _ M) as Lt. eapply wpM_mono; [apply IH; cbn [nbVars soft set_soft set_nbVars]; auto; [lia|apply M|]|].
      { intros l I. destruct (Other l I) as (d & Id & -> & Wd & Nd). exists d. split; auto. apply (m_keep _ _ _ _ _ _ M); auto. }
      cbv beta. cbn [nbVars soft set_soft set_nbVars]. intros q y (Ey & Aw & pc & E1 & E2 & E3 & E4). apply wpM_ret. cbn [fst snd]. split; [rewrite Ey; reflexivity|]. split; auto. exists ((c, nbVars x) :: pc). cbn [map fst snd]. split; [f_equal; auto|]. split; [f_equal; auto|]. split; [|eapply movedAll_cons; eauto].
      intros q' [<-|I]; auto. cbn [fst]. specialize (E3 _ I). apply (m_back _ _ _ _ _ _ M); auto.
      - intros E. apply N1. rewrite <- E, E1. apply in_map_iff. exists q'. auto.
      - assert (I' : In (av (fst q'), false) r) by (rewrite E1; apply in_map_iff; exists q'; auto). destruct (Other _ I') as (d & Id & Ed & _). injection Ed as ->. destruct (s_asm _ _ O d Id). lia. }
    destruct (Nat.eqb_spec (sc_weight c) wc) as [Ew|Nw].
    + apply wpM_bind. unfold newLiteral, wpM at 1. apply wpM_bind, wpM_do. rewrite Es at 1. rewrite updAt_app. match goal with |- context [set_soft ?s1 (set_nbVars ?n1 x)] => apply (Go n1 s1) end.
      * rewrite Es. apply move_in; auto. rewrite <- Es. auto.
      * rewrite symLog_asm, A, Es, !map_app. reflexivity.
    + apply wpM_bind. unfold newLiteral at 1, wpM at 1. apply wpM_bind. unfold newLiteral at 1, wpM at 1. apply wpM_bind, wpM_do. cbn [nbVars set_nbVars]. rewrite Es at 2. rewrite updAt_app.
      match goal with |- context [set_soft ?s1 (set_nbVars ?n1 (set_nbVars ?n2 x))] => change (set_soft s1 (set_nbVars n1 (set_nbVars n2 x))) with (set_soft s1 (set_nbVars n1 x)); apply (Go n1 s1) end.
      * rewrite Es. apply move_split; auto; [rewrite <- Es; auto|lia].
      * rewrite symLog_asm. cbn [wb_asm]. rewrite A, Es, !map_app. reflexivity.
Qed.

(** ** Exactly one *)
Lemma eo_sound : forall b ls aux pre, length ls = S (length aux) -> (forall c, In c (eoClauses pre ls aux) -> true_in b c = true) ->
  match pre with None => count b ls = 1 | Some p => count b ls = if lit_true b p then 0 else 1 end.
Proof.
  intros b ls. induction ls as [|l ls IH]; intros [|a aux] pre L H; cbn [length] in L; try lia; cbn [eoClauses] in H; rewrite count_cons.
  - assert (ls = []) as -> by (destruct ls; cbn in L; [auto|lia]). change (count b []) with 0. destruct pre as [p|].
    + pose proof (H _ (or_introl eq_refl)) as H1. pose proof (H _ (or_intror (or_introl eq_refl))) as H2. unfold true_in in *. cbn [existsb] in *. rewrite !lit_neg in H2. destruct (lit_true b l), (lit_true b p); cbn in *; congruence.
    + pose proof (H _ (or_introl eq_refl)) as H1. unfold true_in in *. cbn [existsb] in *. destruct (lit_true b l); cbn in *; congruence.
  - assert (G := IH aux (Some a) ltac:(lia) (fun c I => H c (in_or_app _ _ _ (or_intror I)))). cbv iota in G. rewrite G. destruct pre as [p|].
    + pose proof (H _ (or_introl eq_refl)) as H1. pose proof (H _ (or_intror (or_introl eq_refl))) as H2. pose proof (H _ (or_intror (or_intror (or_introl eq_refl)))) as H3. pose proof (H _ (or_intror (or_intror (or_intror (or_introl eq_refl))))) as H4. unfold true_in in *. cbn [existsb] in *. rewrite ?lit_neg in *. destruct (lit_true b l), (lit_true b p), (lit_true b a); cbn in *; congruence.
    + pose proof (H _ (or_introl eq_refl)) as H1. pose proof (H _ (or_intror (or_introl eq_refl))) as H2. unfold true_in in *. cbn [existsb] in *. rewrite ?lit_neg in *. destruct (lit_true b l), (lit_true b a); cbn in *; congruence.
Qed.
Lemma eo_complete : forall b k ls aux pre o, length ls = S (length aux) -> k < o + length ls ->
  (forall i, i < length ls -> lit_true b (nth i ls (0, false)) = (o + i =? k)) -> (forall i, i < length aux -> lit_true b (nth i aux (0, false)) = (k <=? o + i)) ->
  match pre with None => o = 0 | Some p => lit_true b p = (k <? o) end -> forall c, In c (eoClauses pre ls aux) -> true_in b c = true.
Proof.
  intros b k ls. induction ls as [|l ls IH]; intros [|a aux] pre o L K Hl Ha Hp c I; cbn [length] in L; try lia; cbn [eoClauses] in I; pose proof (Hl 0 ltac:(cbn; lia)) as Q; cbn [nth] in Q; rewrite Nat.add_0_r in Q.
  - cbn [length] in K. destruct pre as [p|].
    + destruct I as [<-|[<-|[]]]; unfold true_in; cbn [existsb]; rewrite ?lit_neg, Q, Hp; destruct (Nat.eqb_spec o k), (Nat.ltb_spec k o); cbn; auto; lia.
    + subst o. destruct I as [<-|[]]. unfold true_in; cbn [existsb]. rewrite Q. destruct (Nat.eqb_spec 0 k); cbn; auto; lia.
  - pose proof (Ha 0 ltac:(cbn; lia)) as R. cbn [nth] in R. rewrite Nat.add_0_r in R. apply in_app_or in I as [I|I].
    + destruct pre as [p|].
      * repeat destruct I as [<-|I]; try contradiction; unfold true_in; cbn [existsb]; rewrite ?lit_neg, ?Q, ?R, ?Hp; destruct (Nat.eqb_spec o k), (Nat.ltb_spec k o), (Nat.leb_spec k o); cbn; auto; lia.
      * subst o. repeat destruct I as [<-|I]; try contradiction; unfold true_in; cbn [existsb]; rewrite ?lit_neg, ?Q, ?R; destruct (Nat.eqb_spec 0 k), (Nat.leb_spec k 0); cbn; auto; lia.
    + apply (IH aux (Some a) (S o)); auto; cbn [length] in *; try lia.
      * intros i Hi. specialize (Hl (S i) ltac:(lia)). cbn [nth] in Hl. rewrite Hl. f_equal. lia.
      * intros i Hi. specialize (Ha (S i) ltac:(lia)). cbn [nth] in Ha. rewrite Ha. f_equal. lia.
Qed.
Lemma eo_below : forall nv ls aux pre, length ls = S (length aux) -> below nv ls -> below nv aux -> match pre with None => True | Some p => fst p < nv end -> forall c, In c (eoClauses pre ls aux) -> below nv c.
Proof.
  intros nv ls. induction ls as [|l ls IH]; intros [|a aux] pre L Bl Ba Bp c I; cbn [length] in L; try lia; cbn [eoClauses] in I; apply below_cons in Bl as [Bl1 Bl2].
  - destruct pre as [p|]; repeat destruct I as [<-|I]; try contradiction; intros m J; repeat destruct J as [<-|J]; try contradiction; rewrite ?fst_neg; auto.
  - apply below_cons in Ba as [Ba1 Ba2]. apply in_app_or in I as [I|I]; [|apply (IH aux (Some a)); auto; lia].
    destruct pre as [p|]; repeat destruct I as [<-|I]; try contradiction; intros m J; repeat destruct J as [<-|J]; try contradiction; rewrite ?fst_neg; auto.
Qed.
Lemma eo_vars : forall ls aux pre c l, In c (eoClauses pre ls aux) -> In l c -> In (fst l) (map fst ls) \/ In (fst l) (map fst aux) \/ pre <> None /\ forall p, pre = Some p -> fst l = fst p.
Proof.
  induction ls as [|x ls IH]; intros [|a aux] pre c l I J; cbn [eoClauses] in I; try contradiction.
  - destruct pre as [p|]; repeat destruct I as [<-|I]; try contradiction; repeat destruct J as [<-|J]; try contradiction; rewrite ?fst_neg; cbn [map In]; auto; right; right; split; try congruence; intros q E; injection E as ->; auto.
  - apply in_app_or in I as [I|I].
    + destruct pre as [p|]; repeat destruct I as [<-|I]; try contradiction; repeat destruct J as [<-|J]; try contradiction; rewrite ?fst_neg; cbn [map In]; auto; right; right; split; try congruence; intros q E; injection E as ->; auto.
    + destruct (IH _ _ _ _ I J) as [H|[H|[_ H]]]; cbn [map In]; auto. right. left. left. symmetry. apply H. auto.
Qed.
Lemma mrep_lits : forall k x, wpM (mrep k newLiteral) x (fun ls y => ls = map (fun i => (i, false)) (seq (nbVars x) k) /\ y = set_nbVars (nbVars x + k) x).
Proof.
  induction k as [|k IH]; intros x; cbn [mrep].
  - apply wpM_ret. rewrite Nat.add_0_r. split; [reflexivity|destruct x; reflexivity].
  - apply wpM_bind. unfold newLiteral at 1, wpM at 1. apply wpM_bind. eapply wpM_mono; [apply IH|]. cbv beta. cbn [nbVars set_nbVars]. intros ls y [-> ->]. apply wpM_ret. split; [reflexivity|]. replace (nbVars x + S k) with (S (nbVars x) + k) by lia. reflexivity.
Qed.
End Wbo.

Section Loop.
Variables (os : nat -> oracle) (hd : nat -> bool) (n : nat).
Hypothesis fair_os : forall i, fair (os i).
Variables (nv0 : nat) (P : problem).
Hypothesis HW : wfP nv0 P.
Variables (va : list nat) (si : nat) (symm : bool).
(** what is known about the symmetry breaking clauses [S]; [E] are the other hard clauses *)
Variable Inv : wst -> mx -> list (list slit) -> list (list slit) -> Prop.
Definition symOf (w : wst) : sym := if symm then symBreak w else Sym [] [] [] (wb_dup w) [].
Definition afterW (w : wst) : wst := Wst (wb_cores w) (wb_asm w) (wb_map w) (if symm then [] else wb_idx w) (sy_dup (symOf w)).
Definition bump (w : wst) : wst := Wst (S (wb_cores w)) (wb_asm w) (wb_map w) (wb_idx w) (wb_dup w).
Definition okCore (x : mx) (conf : list slit) (wc : nat) : Prop := nv0 <= nbVars x /\ okS nv0 (nbVars x) (soft x) /\ 1 <= wc /\ NoDup conf /\ forall l, In l conf -> exists c, In c (soft x) /\ l = (av c, false) /\ wc <= sc_weight c.
Definition sat (b : assignment) (cls : list (list slit)) : Prop := forall c, In c cls -> true_in b c = true.
Definition clear_of (x : mx) (cls : list (list slit)) : Prop := forall c l, In c cls -> In l c -> fst l < nbVars x /\ ~ In (fst l) (map av (soft x)).
Hypothesis H_vars : forall w x E S, Inv w x E S -> clear_of x S.
Hypothesis H_use : forall w x E S, Inv w x E S -> nv0 <= nbVars x -> okS nv0 (nbVars x) (soft x) -> clear_of x E -> forall b, sat b E -> exists b', agree nv0 b b' /\ sat b' E /\ sat b' S /\ scost b' (soft x) = scost b (soft x).
Hypothesis H_step : forall w x E S conf wc, Inv w x E S -> okCore x conf wc -> clear_of x E -> wb_asm w = map aneg (soft x) ->
  wpM (relaxCore symm conf wc (bump w)) x (fun q y => forall aux z, aux = map (fun i => (i, false)) (seq (nbVars y) (length (fst q) - 1)) -> z = set_nbVars (nbVars y + length aux) y ->
    Inv (afterW (snd q)) z (E ++ eoClauses None (fst q) aux) (S ++ sy_out (symOf (snd q)))).
Hypothesis H_same : forall w x y E S, Inv w x E S -> nbVars y = nbVars x -> soft y = soft x -> weighted y = weighted x -> Inv w y E S.

Definition softOk (mw : nat) (x : mx) (b : assignment) : Prop := forall c, In c (soft x) -> mw <= sc_weight c -> true_in b (sc_lits c ++ sc_relax c ++ [(av c, false)]) = true.
Record pre (x : mx) (w : wst) (E S : list (list slit)) : Prop := {
  p_init : nbInit x = nv0; p_va : valid x = va; p_si : stId x = si; p_le : nv0 <= nbVars x; p_ok : okS nv0 (nbVars x) (soft x); p_oc : forall b, ocost b (soft x) = cost P b;
  p_lits : exists t, map sc_lits (soft x) = map snd (p_soft P) ++ t; p_one : weighted x = false -> forall c, In c (soft x) -> sc_weight c = 1;
  p_E : forall c, In c (p_hard P) -> In c E; p_clear : clear_of x E; p_asm : wb_asm w = map aneg (soft x); p_best : best nv0 P x;
  p_low : forall a, feasible P a -> exists b, agree nv0 a b /\ sat b E /\ scost b (soft x) + lbCost x <= cost P a;
  p_up : forall b, sat b E -> cost P b <= lbCost x + scost b (soft x); p_inv : Inv w x E S }.
Definition hardIs (x : mx) (E S : list (list slit)) : Prop := (forall c, In c (hard x) <-> In c E \/ In c S) /\ exists t, hard x = p_hard P ++ t.
Definition loopInv (mw : nat) (x : mx) (w : wst) : Prop := exists E S S0, pre x w E S /\ hardIs x E S /\ (forall c, In c S0 -> In c S) /\ On x (nbVars x) (fun b => (sat b E /\ sat b S0) /\ softOk mw x b).
Definition fin (r : verdict) (y : mx) : Prop := right nv0 P r /\ (exists t, hard y = p_hard P ++ t) /\ (exists t, map sc_lits (soft y) = map snd (p_soft P) ++ t) /\ valid y = va /\ stId y = si.

Lemma tell_softOk : forall mw x b, okS nv0 (nbVars x) (soft x) -> nv0 <= nbVars x -> softOk mw x (tell (soft x) b).
Proof.
  intros mw x b O L c I _. unfold true_in. rewrite app_assoc, existsb_app. cbn [existsb]. unfold lit_true at 2. cbn [fst snd]. rewrite (tell_av nv0 _ _ _ _ O I), orb_false_r.
  assert (E : vio (tell (soft x) b) c = vio b c) by (apply (vio_agree nv0 (nbVars x) (soft x)); auto; intros v _ Hv; apply tell_other; auto). rewrite <- E. change (true_in (tell (soft x) b) (sc_lits c ++ sc_relax c) || negb (true_in (tell (soft x) b) (sc_lits c ++ sc_relax c)) = true). destruct (true_in _ _); auto.
Qed.
Lemma tell_sat : forall x b E, clear_of x E -> sat b E -> sat (tell (soft x) b) E.
Proof.
  intros x b E C H c I. specialize (H c I). specialize (C c). unfold true_in in *. apply existsb_exists in H as (l & J & T). apply existsb_exists. exists l. split; auto. unfold lit_true in *. rewrite tell_other; auto. apply (C l); auto.
Qed.
(** a core contains a violated soft clause of every solution *)
Lemma core_hit : forall mw x w E S S0 conf, pre x w E S -> (forall c, In c S0 -> In c S) -> (forall q, In q conf -> In (neg q) (wb_asm w)) ->
  (forall a, (sat a E /\ sat a S0) /\ softOk mw x a -> exists q, In q conf /\ lit_true a q = true) ->
  (forall l, In l conf -> exists c, In c (soft x) /\ l = (av c, false)) /\
  forall b, sat b E -> sat b S -> exists c, In c (soft x) /\ In (av c, false) conf /\ vio b c = true.
Proof.
  intros mw x w E S S0 conf D Hs Hc Hu. assert (G : forall l, In l conf -> exists c, In c (soft x) /\ l = (av c, false)).
  { intros [v s] I. apply Hc in I. rewrite (p_asm _ _ _ _ D) in I. apply in_map_iff in I as (c & E1 & I). exists c. split; auto. unfold aneg, neg in E1. cbn in E1. injection E1 as -> E2. destruct s; [discriminate|auto]. }
  split; auto. intros b HE HS. destruct (Hu (tell (soft x) b)) as (q & I & T).
  { split; [split|apply tell_softOk; apply D]; [apply tell_sat; auto; apply D|]. apply tell_sat; [|intros c J; apply HS; auto]. intros c l J. apply (H_vars _ _ _ _ (p_inv _ _ _ _ D)). auto. }
  destruct (G q I) as (c & Ic & ->). exists c. split; auto. split; auto. unfold lit_true in T. cbn [fst snd] in T. rewrite (tell_av nv0 _ _ _ _ (p_ok _ _ _ _ D) Ic) in T. auto.
Qed.

Lemma costCore_ok : forall x conf, okS nv0 (nbVars x) (soft x) -> (weighted x = false -> forall c, In c (soft x) -> sc_weight c = 1) -> conf <> [] -> (forall l, In l conf -> exists c, In c (soft x) /\ l = (av c, false)) ->
  exists wc, costCore conf x = Some wc /\ 1 <= wc /\ (forall l, In l conf -> exists c, In c (soft x) /\ l = (av c, false) /\ wc <= sc_weight c) /\ (weighted x = false -> wc = 1).
Proof.
  intros x conf O H1 Ne Hc. unfold costCore. set (g := fun l => sc_weight (nth (match coreIndex l (soft x) 0 with Some i => i | None => 0 end) (soft x) (Soft [] [] 0 None))).
  assert (G : forall l, In l conf -> exists c, In c (soft x) /\ l = (av c, false) /\ g l = sc_weight c). { intros l I. destruct (Hc l I) as (c & Ic & ->). exists c. split; auto. split; auto. destruct (core_find nv0 _ _ _ O Ic) as (l1 & l2 & Es & Ei). unfold g. rewrite Ei, Es, nth_middle. auto. }
  destruct (weighted x) eqn:Ew.
  - assert (F : forall ws m, (fold_left Nat.min ws m = m \/ In (fold_left Nat.min ws m) ws) /\ fold_left Nat.min ws m <= m /\ forall v, In v ws -> fold_left Nat.min ws m <= v).
    { induction ws as [|v ws IH]; intros m; cbn [fold_left]; [split; auto; split; auto; intros ? []|]. destruct (IH (Nat.min m v)) as (A & B & C). split; [|split; [lia|intros u [<-|I]; [lia|auto]]]. destruct A as [A|A]; [|right; right; auto]. rewrite A. destruct (Nat.min_spec m v) as [[_ Q]|[_ Q]]; rewrite Q; auto. right; left; auto. }
    change (exists wc, match map g conf with [] => None | w :: ws => Some (fold_left Nat.min ws w) end = Some wc /\ 1 <= wc /\ (forall l, In l conf -> exists c, In c (soft x) /\ l = (av c, false) /\ wc <= sc_weight c) /\ (true = false -> wc = 1)).
    destruct (map g conf) as [|v vs] eqn:Em; [destruct conf; [congruence|discriminate]|]. destruct (F vs v) as (A & B & C). exists (fold_left Nat.min vs v). split; auto. assert (Im : In (fold_left Nat.min vs v) (map g conf)) by (rewrite Em; destruct A as [->|A]; [left|right]; auto). split; [|split; [|congruence]].
    + apply in_map_iff in Im as (l & El & Il). destruct (G l Il) as (c & Ic & _ & Ec). rewrite <- El, Ec. apply (s_pos _ _ _ O c Ic).
    + intros l I. destruct (G l I) as (c & Ic & El & Ec). exists c. split; auto. split; auto. rewrite <- Ec. assert (J : In (g l) (v :: vs)) by (rewrite <- Em; apply in_map; auto). destruct J as [<-|J]; auto.
  - exists 1. split; auto. split; auto. split; auto. intros l I. destruct (Hc l I) as (c & Ic & ->). exists c. split; auto. split; auto. rewrite (H1 eq_refl c Ic). auto.
Qed.
Lemma rebuildHard_ok : forall x, (forall c, In c (hard x) -> below (nbVars x) c) -> wpM (rebuildHard n) x (fun _ y => only x y /\ On y (nbVars x) (fun b => sat b (hard x))).
Proof.
  intros x Hh. unfold rebuildHard. apply wpM_bind, wpM_do, wpM_bind, wpM_get. cbn [nbVars set_slv]. apply wpM_bind. set (x0 := set_slv newSolver x).
  assert (H0 : On x0 0 (fun _ => True)). { split; [|intros a b _ _; exact I]. exists []. split; [constructor|]. intros a. split; auto. intros _ c []. }
  eapply wpM_mono; [apply mrep_vars; exact H0|]. cbv beta. intros _ y (_ & H1 & O1). rewrite Nat.add_0_l in H1. apply wpM_bind, wpM_get. assert (E1 : hard y = hard x) by (rewrite O1; reflexivity). rewrite E1.
  eapply wpM_mono; [apply (meach_addC n (hard x) y _ _ H1); auto|]. cbv beta. intros _ z (H2 & O2). split; [unfold only in *; rewrite O2, O1; reflexivity|]. eapply on_iff; [exact H2|]. intros b. unfold sat. tauto.
Qed.
Lemma rebuildWbo_ok : forall mw x w, (forall c, In c (hard x) -> below (nbVars x) c) -> nv0 <= nbVars x -> okS nv0 (nbVars x) (soft x) ->
  wpM (rebuildWbo n symm mw w) x (fun w' y => w' = afterW w /\ y = set_slv (slv y) (set_hard (hard x ++ sy_out (symOf w)) x) /\ On y (nbVars x) (fun b => sat b (hard x) /\ softOk mw x b)).
Proof.
  intros mw x w Hh L O. unfold rebuildWbo. apply wpM_bind. eapply wpM_mono; [apply rebuildHard_ok; auto|]. cbv beta. intros _ y (Oy & Hy). fold (symOf w). apply wpM_bind, wpM_do, wpM_bind, wpM_get. cbn [soft set_hard]. replace (soft y) with (soft x) by (rewrite Oy; reflexivity). apply wpM_bind. rewrite <- (meach_map (fun c => sc_lits c ++ sc_relax c ++ lastLit (sc_asm c)) (addC n)).
  set (y1 := set_hard _ y). assert (Hy1 : On y1 (nbVars x) (fun b => sat b (hard x))) by (apply (on_slv y); auto). eapply wpM_mono; [apply (meach_addC n _ y1 _ _ Hy1)|].
  { intros c I. apply in_map_iff in I as (d & <- & I). apply filter_In in I as [I _]. destruct (s_asm _ _ _ O d I) as [-> [_ A]]. apply below_app. split; [apply (below_le nv0); auto; apply (s_lits _ _ _ O d I)|]. apply below_app. split; [apply (s_rel _ _ _ O d I)|]. intros l [<-|[]]. exact A. }
  cbv beta. intros _ z (H2 & O2). apply wpM_ret. split; [reflexivity|]. split; [unfold only in *; rewrite O2; unfold y1; rewrite Oy; reflexivity|]. eapply on_iff; [exact H2|]. intros b. cbv beta. unfold softOk. split; intros [A B]; (split; [exact A|]).
  - intros c I Hm. specialize (B (sc_lits c ++ sc_relax c ++ lastLit (sc_asm c))). destruct (s_asm _ _ _ O c I) as [Ea _]. rewrite Ea in B. apply B. apply in_map_iff. exists c. rewrite Ea. split; auto. apply filter_In. split; auto. apply Nat.leb_le. auto.
  - intros c I. apply in_map_iff in I as (d & <- & I). apply filter_In in I as [I Hm]. apply Nat.leb_le in Hm. destruct (s_asm _ _ _ O d I) as [Ea _]. rewrite Ea. apply B; auto.
Qed.
(** the choice of one violated soft clause of the core *)
Definition pick (b : assignment) (nv nv1 p k : nat) : assignment := fun v => if v <? nv then b v else if v <? nv1 then v =? p else k <=? v - nv1.
Lemma sum_pick : forall (f : softc * nat -> nat) pc1 q pc2, (forall r, In r (pc1 ++ pc2) -> f r = 0) -> list_sum (map f (pc1 ++ q :: pc2)) = f q.
Proof.
  intros f pc1 q pc2 H. rewrite map_app, ls_app'. cbn [map]. rewrite ls_cons'. assert (Z : forall l, (forall r, In r l -> f r = 0) -> list_sum (map f l) = 0) by (induction l as [|r l IH]; intros Hl; auto; cbn [map]; rewrite ls_cons', Hl by (left; auto); apply IH; intros; apply Hl; right; auto). rewrite !Z; [lia| |]; intros r I; apply H, in_or_app; auto.
Qed.
Lemma sum_count : forall b wc (pc : list (softc * nat)), list_sum (map (fun q => if b (snd q) && vio b (fst q) then wc else 0) pc) <= wc * count b (map (fun q : softc * nat => (snd q, false)) pc).
Proof. intros b wc pc. induction pc as [|q r IH]; [cbn; lia|]. cbn [map]. rewrite ls_cons', count_cons. unfold lit_true at 1. cbn [fst snd]. destruct (b (snd q)), (vio b (fst q)); cbn [andb]; nia. Qed.
Lemma pre_same : forall x y w E S, pre x w E S -> nbInit y = nbInit x -> valid y = valid x -> stId y = stId x -> nbVars y = nbVars x -> soft y = soft x -> weighted y = weighted x -> mdl y = mdl x -> ubCost y = ubCost x -> lbCost y = lbCost x -> pre y w E S.
Proof.
  intros x y w E S D E1 E2 E3 E4 E5 E6 E7 E8 E9. constructor; unfold clear_of, best in *; rewrite ?E1, ?E2, ?E3, ?E4, ?E5, ?E6, ?E7, ?E8, ?E9; try apply D. apply (H_same w x); auto. apply D.
Qed.
Lemma step_ok : forall mw x t w E S conf wc, pre x w E S -> hardIs x E S -> okCore x conf wc -> conf <> [] -> (weighted x = false -> wc = 1) ->
  (forall b, sat b E -> sat b S -> exists c, In c (soft x) /\ In (av c, false) conf /\ vio b c = true) ->
  wpM (q <<- relaxCore symm conf wc (bump w) ;; encodeEO (fst q) ;;> rebuildWbo n symm mw (snd q)) (set_time t (set_lbCost (lbCost x + wc) x)) (fun w' y => loopInv mw y w').
Proof.
  intros mw x t w E S conf wc D [Hh (th & Th)] (L & O & W1 & Nd & Hc) Ne W0 Hit. set (x1 := set_time _ _).
  assert (I1 : Inv w x1 E S) by (apply (H_same w x); [apply D|reflexivity|reflexivity|reflexivity]).
  apply wpM_bind. eapply wpM_mono; [eapply wpM_both; [apply (relaxCore_ok nv0 symm conf wc x1 (bump w)); auto; apply D|apply (H_step w x1 E S conf wc I1); [split; auto; split; auto|apply D|apply D]]|]. cbv beta.
  change (nbVars x1) with (nbVars x). change (soft x1) with (soft x). intros [ls w1] y ((Ey & Aw & pc & Ec & El & Ip & M) & St). cbn [fst snd] in *. subst ls.
  assert (Np : pc <> []) by (intros ->; apply Ne; exact Ec). unfold encodeEO. destruct (map (fun q : softc * nat => (snd q, false)) pc) as [|l0 r0] eqn:Ep; [destruct pc; [congruence|discriminate]|]. rewrite <- Ep in *. clear Ep.
  assert (Lp : @length slit (map (fun q : softc * nat => (snd q, false)) pc) = Datatypes.S (length pc - 1)) by (rewrite map_length; destruct pc; [congruence|cbn; lia]). apply wpM_bind, wpM_bind. eapply wpM_mono; [apply mrep_lits|]. cbv beta. intros aux z [Ea Ez]. apply wpM_do. cbn [hard].
  assert (La : length aux = length pc - 1) by (rewrite Ea, map_length, seq_length, Lp; lia). set (ps := map (fun q : softc * nat => (snd q, false)) pc) in *. set (nv := nbVars x) in *. set (nv1 := nbVars y) in *.
  set (E' := E ++ eoClauses None ps aux). set (z1 := set_hard _ z). assert (Nz : nbVars z1 = nv1 + length aux) by (unfold z1; rewrite Ez; cbn; rewrite Ea, map_length, seq_length; reflexivity). assert (Sz : soft z1 = soft y) by (unfold z1; rewrite Ez; reflexivity).
  assert (Hz : hard z1 = hard x ++ eoClauses None ps aux) by (unfold z1; rewrite Ez, Ey; reflexivity).
  pose proof (a_le _ _ _ _ _ _ _ M) as Le. fold nv nv1 in Le.
  assert (Bps : below nv1 ps). { intros l I. unfold ps in I. apply in_map_iff in I as (q & <- & I). apply (a_var _ _ _ _ _ _ _ M) in I. cbn. unfold nv1. lia. }
  assert (Baux : forall l, In l aux -> nv1 <= fst l < nv1 + length aux). { intros l I. rewrite Ea in I. apply in_map_iff in I as (i & <- & I). apply in_seq in I. cbn [fst]. rewrite La. rewrite Lp in I. unfold nv1. lia. }
  assert (Av : forall v, In v (map av (soft y)) -> In v (map av (soft x)) \/ (nv <= v < nv1 /\ ~ In v (map snd pc))). { intros v I. destruct (a_av _ _ _ _ _ _ _ M v I) as [J|[J1 J2]]; auto. right. split; auto. split; auto. apply in_map_iff in I as (d & <- & I). destruct (s_asm _ _ _ (a_ok _ _ _ _ _ _ _ M) d I) as [_ Q]. unfold nv1. lia. }
  assert (Ax : forall v, In v (map av (soft x)) -> v < nv). { intros v I. apply in_map_iff in I as (d & <- & I). destruct (s_asm _ _ _ O d I) as [_ Q]. unfold nv. lia. }
  assert (Cl : clear_of z1 E').
  { intros c l I J. rewrite Nz, Sz. unfold E' in I. apply in_app_or in I as [I|I].
    - destruct (p_clear _ _ _ _ D c l I J) as [A B]. fold nv in A. split; [lia|]. intros K. apply Av in K as [K|[K _]]; [auto|lia].
    - destruct (eo_vars _ _ _ _ _ I J) as [K|[K|[K _]]]; [| |congruence].
      + apply in_map_iff in K as (p & Ef & K). specialize (Bps p K). split; [lia|]. intros Q. apply Av in Q as [Q|[_ Q]]; [|apply Q; unfold ps in K; apply in_map_iff in K as (q & <- & K); cbn in Ef; rewrite <- Ef; apply in_map; auto].
        apply Ax in Q. unfold ps in K. apply in_map_iff in K as (q & <- & K). apply (a_var _ _ _ _ _ _ _ M) in K. cbn in Ef. unfold nv in Q. lia.
      + apply in_map_iff in K as (p & Ef & K). specialize (Baux p K). split; [lia|]. intros Q. apply Av in Q as [Q|[Q _]]; [apply Ax in Q|]; lia. }
  assert (Bh : forall c, In c (hard z1) -> below (nbVars z1) c).
  { intros c I l J. rewrite Hz in I. apply in_app_or in I as [I|I]; [|apply (Cl c l); auto; unfold E'; apply in_or_app; auto]. apply Hh in I as [I|I]; [apply (Cl c l); auto; unfold E'; apply in_or_app; auto|]. destruct (H_vars _ _ _ _ (p_inv _ _ _ _ D) c l I J) as [A _]. fold nv in A. rewrite Nz. lia. }
  assert (Oz : okS nv0 (nbVars z1) (soft z1)). { pose proof (a_ok _ _ _ _ _ _ _ M) as Oy. rewrite Sz, Nz. constructor; try apply Oy; intros c I; [apply (below_le nv1); [lia|apply (s_rel _ _ _ Oy c I)]|]. destruct (s_asm _ _ _ Oy c I) as [A B]. split; auto. unfold nv1. lia. }
  assert (Pz : pre z1 (afterW w1) E' (S ++ sy_out (symOf w1))).
  { assert (Fz : forall (A : Type) (f : mx -> A), (forall h v so s l t, f (set_hard h (set_nbVars v (set_soft so (set_nbVars s (set_time t (set_lbCost l x)))))) = f x) -> f z1 = f x) by (intros A f Hf; unfold z1; rewrite Ez, Ey; apply Hf).
    assert (Lz : lbCost z1 = lbCost x + wc) by (unfold z1; rewrite Ez, Ey; reflexivity).
    constructor.
    - rewrite (Fz _ nbInit) by reflexivity. apply D.
    - rewrite (Fz _ valid) by reflexivity. apply D.
    - rewrite (Fz _ stId) by reflexivity. apply D.
    - rewrite Nz. fold nv in L. lia.
    - exact Oz.
    - intros b. rewrite Sz, (a_ocost _ _ _ _ _ _ _ M). apply D.
    - rewrite Sz. destruct (a_lits _ _ _ _ _ _ _ M) as (t1 & ->), (p_lits _ _ _ _ D) as (t2 & ->). exists (t2 ++ t1). rewrite app_assoc. auto.
    - rewrite (Fz _ weighted) by reflexivity. rewrite Sz. intros Q. apply (a_ones _ _ _ _ _ _ _ M); [apply D; auto|auto].
    - intros c I. unfold E'. apply in_or_app. left. apply D. auto.
    - exact Cl.
    - cbn [afterW wb_asm]. rewrite Sz. exact Aw.
    - unfold best. rewrite (Fz _ mdl), (Fz _ ubCost) by reflexivity. apply D.
    - intros a Fa. destruct (p_low _ _ _ _ D a Fa) as (b0 & A0 & S0 & C0). destruct (H_use _ _ _ _ (p_inv _ _ _ _ D) L O (p_clear _ _ _ _ D) b0 S0) as (b & A1 & S1 & S2 & C1). destruct (Hit b S1 S2) as (c & Ic & Jc & Vc).
      rewrite Ec in Jc. apply in_map_iff in Jc as ([c' p] & Q & Jc). cbn [fst] in Q. injection Q as Q. assert (c' = c) as -> by (eapply (av_in nv0); [exact O|apply (Ip _ Jc)|exact Ic|exact Q]).
      apply in_split in Jc as (pc1 & pc2 & Epc). set (k := length pc1). exists (pick b nv nv1 p k). assert (Ab : agree nv b (pick b nv nv1 p k)) by (intros v Hv; unfold pick; apply Nat.ltb_lt in Hv; rewrite Hv; auto).
      assert (Vp : forall q, In q pc -> pick b nv nv1 p k (snd q) = (snd q =? p)). { intros q I. apply (a_var _ _ _ _ _ _ _ M) in I. fold nv nv1 in I. unfold pick. destruct (Nat.ltb_spec (snd q) nv); [lia|]. destruct (Nat.ltb_spec (snd q) nv1); [auto|lia]. }
      assert (Vv : forall q, In q pc -> vio (pick b nv nv1 p k) (fst q) = vio b (fst q)). { intros q I. symmetry. apply (vio_agree nv0 nv (soft x)); auto. }
      assert (Npc : forall q, In q (pc1 ++ pc2) -> snd q <> p). { pose proof (a_nd _ _ _ _ _ _ _ M) as N. rewrite Epc, map_app in N. cbn [map snd] in N. intros q I E0. apply NoDup_remove_2 in N. apply N. rewrite <- map_app, <- E0. apply in_map; auto. }
      split; [intros v Hv; rewrite (A0 v Hv), (A1 v Hv); apply Ab; fold nv in L; lia|]. split.
      + intros c0 I. unfold E' in I. apply in_app_or in I as [I|I].
        * rewrite <- (true_in_agree nv b); [apply S1; auto|exact Ab|]. intros l J. apply (p_clear _ _ _ _ D c0 l I J).
        * revert c0 I. apply (eo_complete _ k ps aux None 0); [exact (eq_trans Lp (f_equal Datatypes.S (eq_sym La)))|unfold ps; rewrite map_length, Epc, app_length; cbn; lia| | |reflexivity].
          -- intros i Hi. unfold ps in *. rewrite map_length in Hi. set (dq := (Soft [] [] 0 None, 0) : softc * nat). rewrite (nth_indep _ _ (snd dq, false)) by (rewrite map_length; auto). rewrite (map_nth (fun q : softc * nat => (snd q, false)) pc dq i). unfold lit_true. cbn [fst snd]. rewrite Vp by (apply nth_In; auto). cbn [plus].
             destruct (Nat.eqb_spec i k) as [->|Nk]; [rewrite Epc; unfold k; rewrite nth_middle; apply Nat.eqb_refl|]. apply Nat.eqb_neq. apply Npc. rewrite Epc. unfold k in Nk. destruct (Nat.lt_ge_cases i (length pc1)) as [Li|Gi]; [rewrite app_nth1 by auto; apply in_or_app; left; apply nth_In; auto|].
             rewrite app_nth2 by lia. destruct (i - length pc1) as [|j] eqn:Ej; [lia|]. cbn [nth]. apply in_or_app. right. apply nth_In. rewrite Epc, app_length in Hi. cbn in Hi. lia.
          -- intros i Hi. rewrite Ea in *. rewrite map_length, seq_length in Hi. transitivity (lit_true (pick b nv nv1 p k) (nv1 + i, false)).
             { f_equal. etransitivity; [exact (map_nth (fun j : nat => (j, false)) _ 0 i)|]. cbv beta. f_equal. apply seq_nth. auto. }
             unfold lit_true. cbn [fst snd plus]. unfold pick. destruct (Nat.ltb_spec (nv1 + i) nv); [lia|]. destruct (Nat.ltb_spec (nv1 + i) nv1); [lia|]. f_equal. lia.
      + rewrite Sz. pose proof (a_cost _ _ _ _ _ _ _ M (pick b nv nv1 p k)) as Q1. rewrite Epc, sum_pick in Q1.
        2:{ intros q I. rewrite Vp by (rewrite Epc; apply nv_split; auto). apply Npc in I. apply Nat.eqb_neq in I. rewrite I. auto. }
        cbn [fst snd] in Q1. assert (Jc : In (c, p) pc) by (rewrite Epc; apply nv_split; auto). pose proof (Vp _ Jc) as Q2. pose proof (Vv _ Jc) as Q3. cbn [fst snd] in Q2, Q3. rewrite Q2, Q3, Vc, Nat.eqb_refl in Q1. cbn [andb] in Q1.
        assert (Q4 : scost (pick b nv nv1 p k) (soft x) = scost b (soft x)). { unfold scost. f_equal. apply map_ext_in. intros d I. rewrite (vio_agree nv0 nv (soft x) (pick b nv nv1 p k) b d); auto. intros v Hv _. symmetry. apply Ab. auto. }
        rewrite Lz. lia.
    - intros b Sb. assert (SE : sat b E) by (intros c I; apply Sb; unfold E'; apply in_or_app; auto). pose proof (p_up _ _ _ _ D b SE) as U. pose proof (eo_sound b ps aux None (eq_trans Lp (f_equal Datatypes.S (eq_sym La))) (fun c I => Sb c (in_or_app _ _ _ (or_intror I)))) as C1. cbv iota in C1.
      pose proof (a_cost _ _ _ _ _ _ _ M b) as Q1. pose proof (sum_count b wc pc) as Q2. fold ps in Q2. rewrite C1 in Q2. rewrite Sz, Lz. lia.
    - apply (H_same _ (set_nbVars (nbVars y + length aux) y)); [apply St; auto; rewrite Ea at 1; reflexivity| | |]; unfold z1; rewrite Ez; try reflexivity. rewrite Ea, map_length, seq_length. reflexivity. }
  eapply wpM_mono; [apply (rebuildWbo_ok mw z1 w1); auto; apply Pz|]. cbv beta. intros w' u (-> & Eu & Hu).
  exists E', (S ++ sy_out (symOf w1)), S. split; [apply (pre_same z1); auto; rewrite Eu; reflexivity|]. split; [|split].
  - split; [|rewrite Eu; cbn [hard set_slv set_hard]; rewrite Hz, Th; eexists; rewrite <- !app_assoc; reflexivity]. intros c. rewrite Eu. cbn [hard set_slv set_hard]. rewrite Hz. unfold E'. rewrite !in_app_iff, Hh. tauto.
  - intros c I. apply in_or_app; auto.
  - replace (nbVars u) with (nbVars z1) by (rewrite Eu; reflexivity). eapply on_iff; [exact Hu|]. intros b. cbv beta. unfold softOk. replace (soft u) with (soft z1) by (rewrite Eu; reflexivity). unfold sat. rewrite Hz. split.
    + intros [X Y]. split; auto. split; intros c I; apply X; unfold E' in *; rewrite ?in_app_iff in *; rewrite ?Hh; tauto.
    + intros [[X X'] Y]. split; auto. intros c I. unfold E' in X. rewrite in_app_iff, Hh in I. destruct I as [[I|I]|I]; auto; apply X; apply in_or_app; auto.
Qed.

Lemma costModel_o : forall x, costModel None x = ocost (of_list (model (slv x))) (soft x).
Proof.
  intros x. unfold costModel, ocost. induction (soft x) as [|[ls rl w a] r IH]; auto. cbn [filter map]. rewrite unsat_in. cbn [sc_lits sc_weight]. destruct (true_in (of_list (model (slv x))) ls); cbn [negb map]; rewrite ?ls_cons'; cbn [sc_weight]; rewrite <- IH; auto.
Qed.
Definition shape (y : mx) : Prop := (exists t, hard y = p_hard P ++ t) /\ (exists t, map sc_lits (soft y) = map snd (p_soft P) ++ t) /\ valid y = va /\ stId y = si.
Lemma optimum_fin : forall y, shape y -> best nv0 P y -> (forall a, feasible P a -> ubCost y <= cost P a) -> wpM optimum y fin.
Proof. intros y Sh B L. unfold optimum. apply wpM_get. split; [apply best_right; auto|exact Sh]. Qed.
Lemma wpM_assoc3 : forall {A B C D} (m1 : M A) (m2 : A -> M B) (m3 : A -> M C) (K : C -> M D) x Q, wpM (a <<- m1 ;; m2 a ;;> m3 a) x (fun c y => wpM (K c) y Q) -> wpM (a <<- m1 ;; m2 a ;;> c <<- m3 a ;; K c) x Q.
Proof. intros A B C D m1 m2 m3 K x Q H. unfold wpM, mbind in *. destruct (m1 x) as [a y| |]; auto. destruct (m2 a y) as [b z| |]; auto. destruct (m3 a z) as [c u| |]; auto. Qed.
Lemma E_feasible : forall x w E S b, pre x w E S -> sat b E -> feasible P b.
Proof. intros x w E S b D H c I. apply H, D. auto. Qed.
(** a model of the assumptions satisfies every soft clause that the SAT solver has *)
Lemma zero_cost : forall mw x w E S b, pre x w E S -> (forall c, In c (soft x) -> mw <= sc_weight c) -> softOk mw x b -> (forall l, In l (wb_asm w) -> lit_true b l = true) -> scost b (soft x) = 0.
Proof.
  intros mw x w E S b D Hm R3 R4. apply scost_zero. intros c I. specialize (R3 c I (Hm c I)). rewrite app_assoc in R3. unfold true_in in R3. rewrite existsb_app in R3. cbn [existsb] in R3. assert (T : lit_true b (aneg c) = true) by (apply R4; rewrite (p_asm _ _ _ _ D); apply in_map; auto). unfold lit_true at 2 in R3. unfold lit_true, aneg in T. cbn [fst snd] in *. apply negb_true_iff in T. rewrite T, !orb_false_r in R3. unfold vio, true_in. apply negb_false_iff. exact R3.
Qed.
(** what a core says: its cost is one more part of the lower bound *)
Lemma core_ok : forall mw y w E S S0 conf, pre y w E S -> (forall c, In c S0 -> In c S) -> (forall q, In q conf -> In (neg q) (wb_asm w)) ->
  (forall a, (sat a E /\ sat a S0) /\ softOk mw y a -> exists q, In q conf /\ lit_true a q = true) -> NoDup conf ->
  exists wc, costCore conf y = Some wc /\ okCore y conf wc /\ conf <> [] /\ (weighted y = false -> wc = 1) /\ (forall b, sat b E -> sat b S -> exists c, In c (soft y) /\ In (av c, false) conf /\ vio b c = true) /\
    forall a, feasible P a -> lbCost y + wc <= cost P a.
Proof.
  intros mw y w E S S0 conf Dy Hs R1 R2 Nd. destruct (core_hit mw y w E S S0 conf Dy Hs) as [C1 C2]; auto.
  assert (Use : forall a, feasible P a -> exists b, sat b E /\ sat b S /\ scost b (soft y) + lbCost y <= cost P a). { intros a Fa. destruct (p_low _ _ _ _ Dy a Fa) as (b0 & A0 & S1 & C0). destruct (H_use _ _ _ _ (p_inv _ _ _ _ Dy) (p_le _ _ _ _ Dy) (p_ok _ _ _ _ Dy) (p_clear _ _ _ _ Dy) b0 S1) as (b & _ & T1 & T2 & C3). exists b. split; auto. split; auto. lia. }
  assert (Ne : conf <> []). { intros Q. destruct (p_best _ _ _ _ Dy) as (_ & Fb & _). destruct (Use _ Fb) as (b & T1 & T2 & _). destruct (C2 b T1 T2) as (c & _ & J & _). rewrite Q in J. destruct J. }
  destruct (costCore_ok y conf (p_ok _ _ _ _ Dy) (p_one _ _ _ _ Dy) Ne C1) as (wc & Ew & W1 & W2 & W3). exists wc. split; auto. split; [split; [apply Dy|split; [apply Dy|split; auto]]|]. split; auto. split; auto. split; auto.
  intros a Fa. destruct (Use a Fa) as (b & T1 & T2 & C). destruct (C2 b T1 T2) as (c & Ic & Jc & Vc). destruct (W2 _ Jc) as (c' & Ic' & Q & Wc). injection Q as Q. assert (c' = c) as -> by (eapply (av_in nv0); [apply Dy| | |]; eauto). pose proof (scost_in b c (soft y) Ic Vc). lia.
Qed.
Lemma wboLoop_ok : forall k x w, loopInv 0 x w -> wpM (wboLoop os hd n symm k w) x fin.
Proof.
  induction k as [|k IH]; intros x w (E & S & S0 & D & Hh & Hs & H); cbn [wboLoop]; [apply wpM_stuck|]. apply wpM_bind.
  assert (Ba : below (nbVars x) (wb_asm w)). { rewrite (p_asm _ _ _ _ D). intros l I. apply in_map_iff in I as (c & <- & I). destruct (s_asm _ _ _ (p_ok _ _ _ _ D) c I) as [_ Q]. cbn. lia. }
  eapply wpM_mono; [apply (call_ok os n (wb_asm w) x _ _ H Ba fair_os)|]. cbv beta. intros r y (Ey & Hy & R).
  assert (Dy : pre y w E S) by (apply (pre_same x); auto; rewrite Ey; reflexivity). assert (Hhy : hardIs y E S) by (unfold hardIs in *; replace (hard y) with (hard x) by (rewrite Ey; reflexivity); auto). assert (Sy : soft y = soft x) by (rewrite Ey; reflexivity). assert (Vy : nbVars y = nbVars x) by (rewrite Ey; reflexivity).
  assert (Shy : shape y) by (split; [apply Hhy|split; [apply Dy|split; apply Dy]]). clear Ey.
  destruct r as [[]|]; [| |apply wpM_ret; split; [exact I|exact Shy]].
  - destruct R as (R1 & [[R2 R2'] R3] & R4). apply wpM_bind, wpM_do, wpM_bind, wpM_get, wpM_bind, wpM_do. unfold saveModel. apply wpM_bind, wpM_do. rewrite costModel_o. cbn [soft slv set_nbSat nbInit set_ubCost]. rewrite (p_oc _ _ _ _ Dy). set (m := model (slv y)) in *.
    assert (Fm : feasible P (of_list m)) by (apply (E_feasible _ _ _ _ _ Dy); auto).
    assert (Z : scost (of_list m) (soft y) = 0) by (rewrite Sy; apply (zero_cost 0 x w E S); auto; intros; lia).
    pose proof (p_up _ _ _ _ Dy _ R2) as U. rewrite Z in U. rewrite (p_init _ _ _ _ Dy). apply optimum_fin; [exact Shy| |].
    + split; [cbn; rewrite firstn_length; fold m; rewrite R1; pose proof (p_le _ _ _ _ D); lia|]. cbn [mdl set_mdl ubCost set_ubCost]. split; [eapply feasible_agree; eauto; apply of_firstn|]. symmetry. apply (cost_agree nv0); auto. apply of_firstn.
    + cbn [ubCost set_mdl set_ubCost]. intros a Fa. destruct (p_low _ _ _ _ Dy a Fa) as (b & _ & _ & C). lia.
  - destruct R as (R1 & R2 & R3). apply wpM_bind, wpM_get, wpM_bind, wpM_get. set (conf := conflict (slv y)) in *.
    destruct (core_ok 0 y w E S S0 conf Dy Hs) as (wc & -> & Oc & Ne & W3 & C2 & Lb); auto. { intros a X. apply R2. unfold softOk in *. rewrite Sy in X. exact X. }
    apply wpM_bind, wpM_do, wpM_bind, wpM_get. cbn [lbCost ubCost set_lbCost].
    destruct (Nat.eqb_spec (lbCost y + wc) (ubCost y)) as [Q|_]; [apply optimum_fin; [exact Shy|apply Dy|cbn; rewrite <- Q; exact Lb]|].
    apply wpM_bind. unfold goOn, wpM at 1. destruct (hd _); cbn [negb]; [|apply wpM_ret; split; [exact I|exact Shy]]. cbn [time set_lbCost].
    apply wpM_assoc3. eapply wpM_mono; [apply (step_ok 0 y (Datatypes.S (time y)) w E S conf wc); auto|]. cbv beta. intros w' z L. apply IH. exact L.
Qed.
(** the weight search: another solver without a new core *)
Hypothesis H_again : forall w x E S, Inv w x E S -> Inv (afterW w) x E (S ++ sy_out (symOf w)).
Lemma again_ok : forall mw x w E S, pre x w E S -> hardIs x E S -> wpM (rebuildWbo n symm mw w) x (fun w' y => loopInv mw y w').
Proof.
  intros mw x w E S D [Hh (th & Th)]. eapply wpM_mono; [apply (rebuildWbo_ok mw x w); try apply D|].
  { intros c I l J. apply Hh in I as [I|I]; [apply (p_clear _ _ _ _ D c l I J)|apply (H_vars _ _ _ _ (p_inv _ _ _ _ D) c l I J)]. }
  cbv beta. intros w' u (-> & Eu & Hu). exists E, (S ++ sy_out (symOf w)), S.
  assert (D' : pre x (afterW w) E (S ++ sy_out (symOf w))). { constructor; try apply D. apply H_again, D. }
  split; [apply (pre_same x); auto; rewrite Eu; reflexivity|]. split; [|split].
  - split; [|rewrite Eu; cbn [hard set_slv set_hard]; rewrite Th; eexists; rewrite <- !app_assoc; reflexivity]. intros c. rewrite Eu. cbn [hard set_slv set_hard]. rewrite !in_app_iff, Hh. tauto.
  - intros c I. apply in_or_app; auto.
  - replace (nbVars u) with (nbVars x) by (rewrite Eu; reflexivity). eapply on_iff; [exact Hu|]. intros b. cbv beta. unfold softOk. replace (soft u) with (soft x) by (rewrite Eu; reflexivity). unfold sat. split.
    + intros [X Y]. split; auto. split; intros c I; apply X; apply Hh; auto.
    + intros [[X X'] Y]. split; auto. intros c I. apply Hh in I as [I|I]; auto.
Qed.
Lemma updateWeight_ok : forall ws x, wpM (updateWeight n ws) x (fun nw y => y = set_curW nw x).
Proof.
  intros ws x. unfold updateWeight. apply wpM_bind, wpM_get, wpM_bind, wpM_get, wpM_bind, wpM_get. destruct (match ws with WeightNone => _ | WeightNormal => _ | WeightDiversify => _ end); [|apply wpM_stuck]. apply wpM_bind, wpM_do, wpM_ret. reflexivity.
Qed.
Lemma all_big : forall mw (ss : list softc), length (filter (fun c => mw <=? sc_weight c) ss) = length ss -> forall c, In c ss -> mw <= sc_weight c.
Proof.
  intros mw. induction ss as [|d r IH]; intros H c I; [destruct I|]. cbn [filter] in H. destruct (mw <=? sc_weight d) eqn:El.
  - apply Nat.leb_le in El. destruct I as [<-|I]; auto.
  - exfalso. assert (L : forall l : list softc, length (filter (fun c => mw <=? sc_weight c) l) <= length l) by (induction l as [|e l IHl]; cbn; [lia|destruct (mw <=? sc_weight e); cbn; lia]). specialize (L r). cbn in H. lia.
Qed.
Lemma weightLoop_ok : forall ws k mw x w, loopInv mw x w -> wpM (weightLoop os hd n symm ws k mw w) x fin.
Proof.
  intros ws. induction k as [|k IH]; intros mw x w (E & S & S0 & D & Hh & Hs & H); cbn [weightLoop]; [apply wpM_stuck|]. apply wpM_bind.
  assert (Ba : below (nbVars x) (wb_asm w)). { rewrite (p_asm _ _ _ _ D). intros l I. apply in_map_iff in I as (c & <- & I). destruct (s_asm _ _ _ (p_ok _ _ _ _ D) c I) as [_ Q]. cbn. lia. }
  eapply wpM_mono; [apply (call_ok os n (wb_asm w) x _ _ H Ba fair_os)|]. cbv beta. intros r y (Ey & Hy & R).
  assert (Dy : pre y w E S) by (apply (pre_same x); auto; rewrite Ey; reflexivity). assert (Hhy : hardIs y E S) by (unfold hardIs in *; replace (hard y) with (hard x) by (rewrite Ey; reflexivity); auto). assert (Sy : soft y = soft x) by (rewrite Ey; reflexivity). assert (Vy : nbVars y = nbVars x) by (rewrite Ey; reflexivity).
  assert (Shy : shape y) by (split; [apply Hhy|split; [apply Dy|split; apply Dy]]). clear Ey.
  destruct r as [[]|]; [| |apply wpM_ret; split; [exact I|exact Shy]].
  - destruct R as (R1 & [[R2 R2'] R3] & R4). apply wpM_bind, wpM_do, wpM_bind, wpM_get. set (m := model (slv y)) in *. set (y1 := set_nbSat _ y). change (soft y1) with (soft y).
    assert (Fm : feasible P (of_list m)) by (apply (E_feasible _ _ _ _ _ Dy); auto).
    assert (Bm : forall u, ubCost u = cost P (of_list m) -> mdl u = firstn nv0 m -> best nv0 P u). { intros u E1 E2. split; [rewrite E2, firstn_length, R1; pose proof (p_le _ _ _ _ D); lia|]. rewrite E1, E2. split; [eapply feasible_agree; eauto; apply of_firstn|]. symmetry. apply (cost_agree nv0); auto. apply of_firstn. }
    assert (Lb : forall a, feasible P a -> lbCost y <= cost P a) by (intros a Fa; destruct (p_low _ _ _ _ Dy a Fa) as (b & _ & _ & C); lia).
    destruct (Nat.eqb_spec (length (filter (fun c => mw <=? sc_weight c) (soft y))) (length (soft y))) as [Q|_].
    + assert (Z : scost (of_list m) (soft y) = 0) by (rewrite Sy in *; apply (zero_cost mw x w E S); auto; apply all_big; auto).
      pose proof (p_up _ _ _ _ Dy _ R2) as U. rewrite Z in U. pose proof (Lb _ Fm) as U'. apply wpM_bind, wpM_get. change (lbCost y1) with (lbCost y). change (ubCost y1) with (ubCost y). destruct (Nat.ltb_spec (lbCost y) (ubCost y)) as [Lt|Ge]; apply wpM_bind.
      * apply wpM_bind, wpM_do. unfold saveModel. apply wpM_do. apply optimum_fin; [exact Shy| |exact Lb]. apply Bm; [cbn; lia|]. cbn. rewrite (p_init _ _ _ _ Dy). reflexivity.
      * apply wpM_ret. apply optimum_fin; [exact Shy|apply Dy|]. intros a Fa. specialize (Lb a Fa). cbn. lia.
    + apply wpM_bind. eapply wpM_mono; [apply updateWeight_ok|]. cbv beta. intros nw z ->. set (z := set_curW nw y1). apply wpM_bind, wpM_get. rewrite costModel_o. change (soft z) with (soft y). change (model (slv z)) with m. rewrite (p_oc _ _ _ _ Dy). apply wpM_bind, wpM_get. change (ubCost z) with (ubCost y). apply wpM_bind.
      assert (Cont : forall u, pre u w E S -> hardIs u E S -> shape u -> wpM (e <<- mget (fun x => lbCost x =? ubCost x);; (if e : bool then optimum else b <<- goOn hd;; (if negb b then mret Cancelled else w <<- rebuildWbo n symm nw w;; weightLoop os hd n symm ws k nw w))) u fin).
      { intros u Du Hu Su. apply wpM_bind, wpM_get. destruct (Nat.eqb_spec (lbCost u) (ubCost u)) as [Q|_].
        - apply optimum_fin; auto; [apply Du|]. rewrite <- Q. intros a Fa. destruct (p_low _ _ _ _ Du a Fa) as (b & _ & _ & C). lia.
        - apply wpM_bind. unfold goOn, wpM at 1. destruct (hd _); cbn [negb]; [|apply wpM_ret; split; [exact I|exact Su]]. apply wpM_bind. eapply wpM_mono; [apply (again_ok nw (set_time (Datatypes.S (time u)) u) w E S)|]; [apply (pre_same u); auto|exact Hu|]. cbv beta. intros w' t L. apply IH. exact L. }
      assert (Dz : pre z w E S) by (apply (pre_same y); auto).
      destruct (cost P (of_list m) <? ubCost y).
      * apply wpM_bind, wpM_do. unfold saveModel. apply wpM_do. apply Cont; [|exact Hhy|exact Shy]. set (u := set_mdl _ _). constructor; try apply Dz. { apply Bm; [reflexivity|]. cbn. rewrite (p_init _ _ _ _ Dy). reflexivity. } apply (H_same w y); auto. apply Dy.
      * apply wpM_ret. apply Cont; auto.
  - destruct R as (R1 & R2 & R3). apply wpM_bind, wpM_get, wpM_bind, wpM_get. set (conf := conflict (slv y)) in *.
    destruct (core_ok mw y w E S S0 conf Dy Hs) as (wc & -> & Oc & Ne & W3 & C2 & Lb); auto. { intros a X. apply R2. unfold softOk in *. rewrite Sy in X. exact X. }
    apply wpM_bind, wpM_do, wpM_bind.
    unfold goOn, wpM at 1. destruct (hd _); cbn [negb]; [|apply wpM_ret; split; [exact I|exact Shy]]. cbn [time set_lbCost].
    apply wpM_assoc3. eapply wpM_mono; [apply (step_ok mw y (Datatypes.S (time y)) w E S conf wc); auto|]. cbv beta. intros w' z L. apply IH. exact L.
Qed.

(** ** The whole search *)
Fixpoint asmd (k : nat) (ss : list (nat * list slit)) : list softc := match ss with [] => [] | wc :: r => Soft (snd wc) [] (fst wc) (Some (k, false)) :: asmd (S k) r end.
Lemma initAsm_ok : forall ss x, wpM (initAsm (clean ss)) x (fun p y => p = (asmd (nbVars x) ss, map aneg (asmd (nbVars x) ss)) /\ y = set_nbVars (nbVars x + length ss) x).
Proof.
  intros ss. induction ss as [|wc r IH]; intros x; cbn [initAsm clean map].
  - apply wpM_ret. split; auto. rewrite Nat.add_0_r. destruct x; reflexivity.
  - apply wpM_bind. unfold newLiteral, wpM at 1. apply wpM_bind. eapply wpM_mono; [apply IH|]. cbv beta. cbn [nbVars set_nbVars]. intros p y [-> ->]. apply wpM_ret. cbn [fst snd length map asmd sc_lits sc_relax sc_weight]. split; auto. replace (nbVars x + S (length r)) with (S (nbVars x) + length r) by lia. destruct x; reflexivity.
Qed.
Lemma asmd_in : forall ss k c, In c (asmd k ss) -> exists i wc, nth_error ss i = Some wc /\ c = Soft (snd wc) [] (fst wc) (Some (k + i, false)).
Proof. induction ss as [|wc r IH]; intros k c I; [destruct I|]. destruct I as [<-|I]; [exists 0, wc; rewrite Nat.add_0_r; auto|]. destruct (IH _ _ I) as (i & wc' & E & ->). exists (S i), wc'. split; auto. do 3 f_equal. lia. Qed.
Lemma asmd_av : forall ss k, map av (asmd k ss) = seq k (length ss).
Proof. induction ss as [|wc r IH]; intros k; cbn [asmd map length seq]; auto. rewrite IH. reflexivity. Qed.
Lemma asmd_ocost : forall ss k b, ocost b (asmd k ss) = costs ss b.
Proof. induction ss as [|wc r IH]; intros k b; auto. cbn [asmd]. rewrite ocost_cons, IH. cbn [sc_lits sc_weight]. destruct wc. reflexivity. Qed.
Lemma asmd_scost : forall ss k b, scost b (asmd k ss) = costs ss b.
Proof. induction ss as [|wc r IH]; intros k b; auto. cbn [asmd]. rewrite scost_cons, IH. unfold vio. cbn [sc_lits sc_relax sc_weight]. rewrite app_nil_r. destruct wc as [w c]. cbn [fst snd]. unfold costs. cbn [map]. rewrite ls_cons'. cbn [fst snd]. destruct (true_in b c); auto. Qed.
Hypothesis HP : forall wc, In wc (p_soft P) -> 1 <= fst wc.
Variable wgt : bool.
Hypothesis H_wgt : wgt = false -> forall wc, In wc (p_soft P) -> fst wc = 1.
Hypothesis H_init : forall x w0, nbVars x = nv0 + length (p_soft P) -> soft x = asmd nv0 (p_soft P) -> weighted x = wgt ->
  w0 = Wst 0 (map aneg (asmd nv0 (p_soft P))) (if symm then repeat [] (length (p_soft P)) else []) [] [] -> Inv (afterW w0) x (p_hard P) (sy_out (symOf w0)).
Lemma wboSearch_ok : forall ws k x, nbVars x = nv0 -> hard x = p_hard P -> soft x = clean (p_soft P) -> valid x = va -> stId x = si -> lbCost x = 0 -> wgt = negb (curW x =? 1) -> weighted x = wgt ->
  wpM (wboSearch os hd n symm ws k) x fin.
Proof.
  intros ws k x I1 I2 I3 I4 I5 I6 Ew Wx. unfold wboSearch. apply wpM_bind, wpM_do, wpM_bind, wpM_do. cbn [curW set_nbInit]. set (x1 := if curW x =? 1 then _ else _).
  assert (W1 : weighted x1 = wgt) by (unfold x1; destruct (curW x =? 1); cbn; auto). assert (F : forall (A : Type) (f : mx -> A), (forall w, f (set_weighted w (set_nbInit (nbVars x) x)) = f (set_nbInit (nbVars x) x)) -> f x1 = f (set_nbInit (nbVars x) x)) by (intros A f Hf; unfold x1; destruct (curW x =? 1); auto).
  assert (J1 : nbVars x1 = nv0) by (rewrite (F _ nbVars); auto). assert (J2 : hard x1 = p_hard P) by (rewrite (F _ hard); auto). assert (J3 : soft x1 = clean (p_soft P)) by (rewrite (F _ soft); auto). assert (J4 : valid x1 = va) by (rewrite (F _ valid); auto). assert (J5 : stId x1 = si) by (rewrite (F _ stId); auto). assert (J6 : lbCost x1 = 0) by (rewrite (F _ lbCost); auto). assert (J7 : nbInit x1 = nv0) by (rewrite (F _ nbInit); auto).
  clearbody x1. clear F x I1 I2 I3 I4 I5 I6 Ew Wx. rename x1 into x. apply wpM_bind. eapply wpM_mono; [apply rebuildHard_ok|]. { rewrite J1, J2. apply HW. } cbv beta. intros _ y (Oy & Hy). rewrite J1, J2 in Hy. apply wpM_bind. eapply wpM_mono; [apply (call_ok os n [] y _ _ Hy)|]; auto. { intros l []. } cbv beta. intros r z (Ez & Hz & R).
  assert (G : forall (A : Type) (f : mx -> A), (forall s t, f (set_slv s (set_time t x)) = f x) -> f z = f x). { intros A f Hf. rewrite Ez. rewrite Oy. apply (Hf (slv z) (S (time x))). }
  assert (Shz : shape z). { split; [exists []; rewrite app_nil_r, (G _ hard); auto|]. split; [exists []; rewrite app_nil_r, (G _ soft), J3 by auto; unfold clean; rewrite map_map; reflexivity|]. split; [rewrite (G _ valid); auto|rewrite (G _ stId); auto]. }
  destruct r as [[]|]; [| |apply wpM_ret; split; [exact I|exact Shz]].
  2:{ apply wpM_ret. split; [|exact Shz]. intros a Fa. destruct R as (R1 & R2 & _). destruct (R2 a Fa) as (q & Iq & _). apply (R1 q Iq). }
  destruct R as (R1 & R2 & _). apply wpM_bind, wpM_do, wpM_bind, wpM_get, wpM_bind, wpM_do. unfold saveModel. apply wpM_bind, wpM_do. rewrite costModel_o. cbn [soft slv set_nbSat nbInit set_ubCost]. set (m := model (slv z)) in *. apply wpM_bind, wpM_get. cbn [soft set_mdl set_ubCost set_nbSat].
  rewrite (G _ soft), (G _ nbInit), J3, J7 by auto. set (u := set_mdl _ _). apply wpM_bind. eapply wpM_mono; [apply initAsm_ok|]. cbv beta. intros p v [-> ->]. replace (nbVars u) with nv0 by (symmetry; change (nbVars z = nv0); rewrite (G _ nbVars); auto). cbn [fst snd]. apply wpM_bind, wpM_do. set (v := set_soft _ _). apply wpM_bind, wpM_get.
  assert (Lc : length (clean (p_soft P)) = length (p_soft P)) by (unfold clean; apply map_length). rewrite Lc. set (w0 := Wst _ _ _ _ _).
  assert (Nv : nbVars v = nv0 + length (p_soft P)) by reflexivity. assert (Sv : soft v = asmd nv0 (p_soft P)) by reflexivity.
  assert (Hv : hard v = p_hard P) by (change (hard z = p_hard P); rewrite (G _ hard); auto).
  assert (Ok : okS nv0 (nbVars v) (soft v)).
  { rewrite Nv, Sv. constructor.
    - intros c I. apply asmd_in in I as (i & wc & E & ->). cbn. apply HW. eapply nth_error_In; eauto.
    - intros c I. apply asmd_in in I as (i & wc & E & ->). cbn. intros l [].
    - intros c I. apply asmd_in in I as (i & wc & E & ->). split; [reflexivity|]. assert (i < length (p_soft P)) by (apply nth_error_Some; intros Q; discriminate (eq_trans (eq_sym E) Q)). cbn. lia.
    - rewrite asmd_av. apply seq_NoDup.
    - intros c d l _ I. apply asmd_in in I as (i & wc & E & ->). cbn. intros [].
    - intros c I. apply asmd_in in I as (i & wc & E & ->). cbn. apply HP. eapply nth_error_In; eauto. }
  assert (Fm : feasible P (of_list m)) by exact R2.
  assert (St : forall mw cw, wpM (rebuildWbo n symm mw w0) (set_curW cw v) (fun w' t => loopInv mw t w')).
  2:{ assert (Q1 : wpM (w <<- rebuildWbo n symm 0 w0;; wboLoop os hd n symm k w) v fin). { apply wpM_bind. specialize (St 0 (curW v)). replace (set_curW (curW v) v) with v in St by (destruct v; reflexivity). eapply wpM_mono; [exact St|]. cbv beta. intros w' t L. apply wboLoop_ok. exact L. }
      assert (Q2 : forall ws, wpM (mw <<- updateWeight n ws;; w <<- rebuildWbo n symm mw w0;; weightLoop os hd n symm ws k mw w) v fin). { intros ws'. apply wpM_bind. eapply wpM_mono; [apply updateWeight_ok|]. cbv beta. intros nw y0 ->. apply wpM_bind. eapply wpM_mono; [apply St|]. cbv beta. intros w' t L. apply weightLoop_ok. exact L. }
      destruct ws; [exact Q1| |]; destruct (weighted v); auto. }
  intros mw cw. eapply wpM_mono; [apply (rebuildWbo_ok mw (set_curW cw v) w0); auto; [intros c I; apply (below_le nv0); [cbn; lia|apply HW; change (hard v) with (hard z) in Hv; rewrite <- Hv; exact I]|change (nv0 <= nbVars v); lia]|]. cbv beta. intros w' t (-> & Et & Ht). exists (p_hard P), (sy_out (symOf w0)), [].
  assert (T : forall (A : Type) (f : mx -> A), (forall s h c, f (set_slv s (set_hard h (set_curW c v))) = f v) -> f t = f v) by (intros A f Hf; rewrite Et; apply Hf).
  assert (Cm : ocost (of_list m) (clean (p_soft P)) = cost P (of_list m)). { unfold cost. clear. induction (p_soft P) as [|[w c] r IH]; auto. cbn [clean map fst snd]. rewrite ocost_cons. unfold costs. cbn [map]. rewrite ls_cons'. cbn [fst snd sc_lits sc_weight]. f_equal. exact IH. }
  split; [apply (pre_same v); try (apply T; reflexivity); constructor|].
  - exact (eq_trans (G _ nbInit (fun _ _ => eq_refl)) J7).
  - exact (eq_trans (G _ valid (fun _ _ => eq_refl)) J4).
  - exact (eq_trans (G _ stId (fun _ _ => eq_refl)) J5).
  - lia.
  - exact Ok.
  - intros b. rewrite Sv. apply asmd_ocost.
  - rewrite Sv. exists []. rewrite app_nil_r. generalize nv0. clear. induction (p_soft P) as [|wc r IH]; intros k; cbn [asmd map]; auto. rewrite IH. reflexivity.
  - intros Q. replace (weighted v) with (weighted z) in Q by reflexivity. rewrite (G _ weighted), W1 in Q by auto. rewrite Sv. intros c I. apply asmd_in in I as (i & wc & E & ->). cbn. apply H_wgt; auto. eapply nth_error_In; eauto.
  - auto.
  - intros c l I J. destruct HW as [HW1 _]. specialize (HW1 c I l J). rewrite Nv, Sv, asmd_av. split; [lia|]. intros Q. apply in_seq in Q. lia.
  - reflexivity.
  - split; [cbn; rewrite firstn_length; lia|]. cbn [mdl ubCost v u set_soft set_nbVars set_mdl set_ubCost]. split; [eapply feasible_agree; eauto; apply of_firstn|]. rewrite Cm. symmetry. apply (cost_agree nv0); auto. apply of_firstn.
  - intros a Fa. exists a. split; [apply agree_refl|]. split; [exact Fa|]. rewrite Sv, asmd_scost. replace (lbCost v) with 0; [unfold cost; lia|]. symmetry. exact (eq_trans (G _ lbCost (fun _ _ => eq_refl)) J6).
  - intros b _. rewrite Sv, asmd_scost. unfold cost. lia.
  - apply H_init; auto. exact (eq_trans (G _ weighted (fun _ _ => eq_refl)) W1).
  - split; [|split].
    + split; [|rewrite Et; cbn [hard set_slv set_hard]; change (hard (set_curW cw v)) with (hard v); rewrite Hv; eauto]. intros c. rewrite Et. cbn [hard set_slv set_hard]. change (hard (set_curW cw v)) with (hard v). rewrite Hv, in_app_iff. tauto.
    + intros c [].
    + rewrite (T _ nbVars) by reflexivity. eapply on_iff; [exact Ht|]. intros b. cbv beta. unfold softOk. change (hard (set_curW cw v)) with (hard v). rewrite (T _ soft), Hv by reflexivity. unfold sat. split; [intros [X Y]; split; auto; split; auto; intros c []|tauto].
Qed.
End Loop.

(** without symmetry breaking *)
Lemma wboPlain_ok : forall os hd n ws nv0 P va si, (forall i, fair (os i)) -> wfP nv0 P -> (forall wc, In wc (p_soft P) -> 1 <= fst wc) -> forall wgt, (wgt = false -> forall wc, In wc (p_soft P) -> fst wc = 1) ->
  forall k x, nbVars x = nv0 -> hard x = p_hard P -> soft x = clean (p_soft P) -> valid x = va -> stId x = si -> lbCost x = 0 -> wgt = negb (curW x =? 1) -> weighted x = wgt ->
  wpM (wboSearch os hd n false ws k) x (fin nv0 P va si).
Proof.
  intros os hd n ws nv0 P va si F HW HP wgt Hg k. apply (wboSearch_ok os hd n F nv0 P HW va si false (fun _ _ _ S => S = [])); auto.
  - intros w x E S -> c l [].
  - intros w x E S -> _ _ _ b Sb. exists b. split; [apply agree_refl|]. split; auto. split; auto. intros c [].
  - intros w x E S conf wc -> (L & O & W & N & C) _ A. eapply wpM_mono; [apply (relaxCore_ok nv0 false conf wc x (bump w)); auto|]. cbv beta. intros; reflexivity.
  - intros w x E S ->. reflexivity.
Qed.
