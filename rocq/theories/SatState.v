(** * Saving and loading states of the core solver *)
From Coq Require Import List Bool Arith Lia ZArith Permutation.
From Verif Require Import Sat SatInv SatProp SatAna SatMin SatSearch SatAttach SatLoop SatFind SatSolve SatAdd.
Import ListNotations.

(** ** Removing clauses *)
Definition wb (W : slit -> list (nat * option slit)) (B : slit -> list (nat * slit)) (s : sat) : sat := with_wat W (with_wbin B s).
Lemma wat_nv : forall nv nv' s, Wat (with_nvars nv s) -> (forall c, In c (att s) -> clauseOK nv' (db s c)) -> Wat (with_nvars nv' s).
Proof. intros nv nv' s [] H. constructor; auto. Qed.
Lemma each_snoc : forall {A} (l : list A) x (f : A -> S_ unit) s (Q : unit -> sat -> Prop), wp (f x) s (fun _ s1 => wp (each l f) s1 Q) -> wp (each (x :: l) f) s Q.
Proof. intros. cbn [each]. apply wp_bind. auto. Qed.
Lemma removes_ok : forall nv cl ln ex s, Wat (with_nvars nv (lists (cl ++ ex) ln s)) -> wp (each (rev ex) simpleRemove) s (fun _ s' => exists W B, s' = wb W B s /\ Wat (with_nvars nv (lists cl ln (wb W B s)))).
Proof.
  intros nv cl ln ex. induction ex as [|c r IH] using rev_ind; intros s H.
  - cbn [rev each]. apply wp_ret. exists (wat s), (wbin s). split; [destruct s; reflexivity|]. rewrite app_nil_r in H. destruct s; exact H.
  - rewrite rev_app_distr. cbn [rev app]. apply each_snoc. rewrite app_assoc in H.
    destruct (simpleRemove_ok c ((cl ++ r) ++ [c]) ln nv s H) as (W & B & E & _ & _ & Wn); [apply in_or_app; left; apply in_or_app; right; left; auto|].
    pose proof (wt_nd _ H) as N. change (NoDup (((cl ++ r) ++ [c]) ++ ln)) in N. rewrite <- app_assoc in N. cbn [app] in N. apply NoDup_remove in N as [N1 N2].
    unfold wp at 1. rewrite E. change (with_wat W (with_wbin B s)) with (wb W B s). assert (H1 : Wat (with_nvars nv (lists (cl ++ r) ln (wb W B s)))).
    { apply Wn; auto.
      - intros x. rewrite !in_app_iff in *. cbn. split; [intros Y; split; [tauto|intros ->; tauto]|intros [Y1 Y2]; intuition congruence].
      - intros x Ix. apply (wt_cl _ H). unfold att. cbn. rewrite !in_app_iff in *. cbn. tauto. }
    eapply wp_mono; [apply (IH _ H1)|]. cbv beta. intros _ s' (W' & B' & -> & H'). exists W', B'. split; [reflexivity|exact H'].
Qed.
Lemma drops_ok : forall nv id cl cs kept s, Wat (with_nvars nv (lists cl (kept ++ cs) s)) ->
  wp (dropLearnts id cs kept) s (fun _ s' => exists W B, s' = with_learnts (kept ++ filter (fun c => (c_st (db s c) <=? id)%Z) cs) (wb W B s) /\ Wat (with_nvars nv (lists cl (kept ++ filter (fun c => (c_st (db s c) <=? id)%Z) cs) (wb W B s)))).
Proof.
  intros nv id cl. induction cs as [|c r IH]; intros kept s H; cbn [dropLearnts filter].
  - apply wp_modify. exists (wat s), (wbin s). split; [rewrite app_nil_r; destruct s; reflexivity|]. destruct s; exact H.
  - unfold wp. destruct (c_st (db s c) <=? id)%Z.
    + replace (kept ++ c :: r) with ((kept ++ [c]) ++ r) in H by (rewrite <- app_assoc; auto). pose proof (IH (kept ++ [c]) s H) as Y. rewrite <- app_assoc in Y. exact Y.
    + destruct (simpleRemove_ok c cl (kept ++ c :: r) nv s H) as (W & B & E & _ & _ & Wn); [apply in_or_app; right; apply in_elt|]. unfold bind. rewrite E. change (with_wat W (with_wbin B s)) with (wb W B s).
      pose proof (wt_nd _ H) as N. change (NoDup (cl ++ kept ++ c :: r)) in N. rewrite app_assoc in N. apply NoDup_remove in N as [N1 N2]. rewrite <- app_assoc in N1, N2.
      assert (H1 : Wat (with_nvars nv (lists cl (kept ++ r) (wb W B s)))).
      { apply Wn; auto.
        - intros x. rewrite !in_app_iff in *. cbn. split; [intros Y; split; [tauto|intros ->; tauto]|intros [Y1 Y2]; intuition congruence].
        - intros x Ix. apply (wt_cl _ H). unfold att. cbn. rewrite !in_app_iff in *. cbn. tauto. }
      pose proof (IH kept (wb W B s) H1) as Y. unfold wp in Y. destruct (dropLearnts id r kept (wb W B s)) as [u s'| |]; auto.
Qed.
(** ** Units *)
Lemma enq_dup : forall l s, tru s l -> lev s l = 0 -> tlim s = [] -> (forall m, val (enq l None s) m = val s m) /\ (forall m, lev (enq l None s) m = lev s m).
Proof.
  intros l s T L D. split; intros m.
  - rewrite val_enq. destruct (Nat.eqb_spec (fst m) (fst l)) as [E|]; auto. destruct (same_var m l E) as [-> | ->]; [rewrite slit_eqb_refl; auto|]. rewrite val_neg, T. cbn. f_equal. apply slit_eqb_neq, neg_neq.
  - rewrite lev_enq. destruct (Nat.eqb_spec (fst m) (fst l)) as [E|]; auto. unfold dl. rewrite D. unfold lev in *. rewrite E, L. auto.
Qed.
Lemma top_lev : forall M E s l, Asg M E s -> tlim s = [] -> tru s l -> lev s l = 0.
Proof. intros M E s l A T H. apply (as_val _ _ _ A), (as_lev _ _ _ A) in H. unfold dl in H. rewrite T in H. cbn in H. lia. Qed.
Lemma dup_asg : forall M l s, Asg M E0 s -> tlim s = [] -> tru s l -> Asg M E0 (enq l None s).
Proof.
  intros M l s A T H. pose proof (top_lev M E0 s l A T H) as L. destruct (enq_dup l s H L T) as [V Lv]. pose proof A as [A1 A2 A3 A4 A5 A6 A7 A8 A9 A10]. assert (Il : In l (trail s)) by (apply A1; auto).
  assert (Tr : forall m, In m (trail (enq l None s)) <-> In m (trail s)) by (intros m; cbn; rewrite in_app_iff; cbn; split; [intros [X|[<-|[]]]; auto|auto]).
  assert (D : dl (enq l None s) = 0) by (unfold dl; change (tlim (enq l None s)) with (tlim s); rewrite T; auto).
  assert (Z : forall m, In m (trail s) -> lev s m = 0) by (intros m I; apply (top_lev M E0 s m A T), A1; auto).
  constructor.
  - intros m. rewrite Tr. unfold tru. rewrite V. apply A1.
  - intros m I. apply Tr in I. apply A2; auto.
  - intros m I. apply Tr in I. rewrite Lv, Z; auto. lia.
  - change (tlim (enq l None s)) with (tlim s). rewrite T. intros [|k] m X; discriminate.
  - intros i j m Hi Hj P. rewrite Lv in P. apply nth_error_In, Tr in Hi. rewrite Z in P; auto. lia.
  - intros pre m post c Et R. change (trail (enq l None s)) with (trail s ++ [l]) in Et. cbn in R. unfold upd in R. destruct (Nat.eqb_spec (fst m) (fst l)) as [|Ne]; [discriminate|].
    assert (exists post', trail s = pre ++ m :: post') as (post' & Et'). { destruct post as [|y post] using rev_ind; [apply app_inj_tail in Et as [_ ->]; congruence|]. exists post. rewrite app_comm_cons, app_assoc in Et. apply app_inj_tail in Et as [-> _]. auto. }
    specialize (A6 pre m post' c Et' R). revert A6. apply reasonOK_mono; auto; try (intros; apply cperm_refl). intros q Iq At [Y|[[Y1 Y2]|[[] _]]]; auto. right; left. unfold fls. rewrite V, !Lv. auto.
  - intros i m X R P. apply nth_error_In, Tr in X. rewrite Lv, Z in P; auto. lia.
  - intros i m X P. rewrite D in P. lia.
  - intros m a I. apply Tr in I. rewrite Lv. auto.
  - change (qhead (enq l None s)) with (qhead s). change (trail (enq l None s)) with (trail s ++ [l]). rewrite app_length. destruct A10 as [Q _]. split; [lia|]. intros m I. rewrite D. apply In_skipn in I. rewrite Lv. apply Z. apply Tr. exact I.
Qed.
Lemma dup_proc : forall M l s, Asg M E0 s -> tlim s = [] -> tru s l -> Proc s NoE -> Proc (enq l None s) NoE.
Proof.
  intros M l s A T H Pr q c I Wc. destruct (enq_dup l s H (top_lev M E0 s l A T H) T) as [V Lv]. assert (Iq : In q (firstn (qhead s) (trail s))). { change (In q (firstn (qhead s) (trail s ++ [l]))) in I. rewrite firstn_app_le in I; auto. apply (as_q _ _ _ A). }
  destruct (Pr q c Iq Wc) as [[]|Y]. right. revert Y. apply wok_same; auto.
Qed.
Lemma dup_ex : forall l s, Ex s -> tru s l -> lev s l = 0 -> tlim s = [] -> Ex (enq l None s).
Proof.
  intros l s [E1 E2 E3 E4 E5 E6] H L T. destruct (enq_dup l s H L T) as [V Lv]. constructor; auto.
  - intros v Lv' N. cbn in N. unfold upd in N. destruct (v =? fst l); [discriminate|]. apply E3; auto.
  - intros u I. destruct (E5 u I) as [X Y]. split; [cbn; apply in_or_app; auto|]. rewrite Lv. auto.
Qed.
(** one more unit literal that is not false *)
Lemma si_enq1 : forall M l s, searchInv M s -> tlim s = [] -> ~ fls s l -> fst l < nvars s -> (forall a, M a -> alit a l = true) -> searchInv M (enq l None s).
Proof.
  intros M l s H T N L Hl. destruct (val s l) as [[]|] eqn:V; [|exfalso; apply N; auto|apply si_enq0; auto].
  pose proof H as ([A W En] & X & Pr). split; [constructor; [apply dup_asg; auto|apply enq_wat; auto|exact En]|]. split; [apply dup_ex; auto; eapply top_lev; eauto|eapply dup_proc; eauto].
Qed.
(** ** The literals of a complete top-level propagation contain those of every propagation with fewer clauses *)
Section Closed.
Variables (M : (nat -> bool) -> Prop) (t : sat).
Hypotheses (Ht : searchInv M t) (Tt : tlim t = []) (Qt : qhead t = length (trail t)).
Lemma closed_wok : forall c q, In c (att t) -> tru t q -> In q (wset (db t c)) -> wok t q c.
Proof.
  intros c q I Tq Wq. destruct Ht as ([A W En] & X & P). assert (Iq : In q (firstn (qhead t) (trail t))) by (rewrite Qt, firstn_all; apply (as_val _ _ _ A); auto).
  assert (Bd : big (db t c) \/ ~ big (db t c)). { unfold big. destruct (c_atm (db t c)); [left; left; auto|]. destruct (le_lt_dec (length (c_lits (db t c))) 2); [right|left; right; auto]. intros [?|?]; [discriminate|lia]. }
  destruct (P q c Iq) as [[]|]; auto. destruct Bd as [B|B]; [left; destruct (wt_fw _ W c q I B Wq) as (b & Y)|right; destruct (wt_fwb _ W c q I B Wq) as (b & Y)]; eapply In_map_fst; eauto.
Qed.
Lemma closed_reason : forall s pre l c, In c (att t) -> cperm (db t c) (db s c) -> reasonOK M E0 s pre l c -> ~ In (neg l) pre -> (forall q, In q pre -> tru t q) -> tru t l.
Proof.
  intros s pre l c Ic Cp (_ & _ & R) N Hp. pose proof Ht as ([A W En] & X & P). destruct (wt_cl _ W c Ic) as (C1 & C2 & C3 & C4). pose proof Cp as (Cp1 & Cp2 & Cp3 & _). pose proof (closed_wok c) as Wk. rewrite <- Cp2 in R.
  assert (Cin : forall x, In x (c_lits (db t c)) <-> In x (c_lits (db s c))) by (intros x; apply cperm_in; auto).
  destruct (bool_dec (c_atm (db t c)) true) as [At|At]; [|apply not_true_is_false in At]; rewrite At in R.
  - destruct R as (R1 & R2 & R3). destruct (C4 At) as [C5 C6]. assert (Mx : maxT (db s c) = maxT (db t c)) by (unfold maxT; rewrite <- Cp3, (Permutation_length Cp1); auto).
    rewrite Mx, <- (filter_plen _ _ _ Cp1) in R3. set (ls := c_lits (db t c)) in *. assert (F1 : length (filter (fun q => inL q pre) ls) <= length (filter (isT t) ls)). { apply filter_le. intros x _ Y. apply isT_tru, Hp, inL_in. auto. }
    assert (Dj : length (filter (isT t) ls) + length (filter (isF t) ls) <= length ls). { apply filter_disj. intros x _. rewrite isT_tru, isF_fls. apply tru_fls. }
    assert (exists q, In q (firstn (c_w (db t c)) ls) /\ tru t q) as (q & Iq & Tq).
    { destruct (existsb (isT t) (firstn (c_w (db t c)) ls)) eqn:Y; [apply existsb_exists in Y as (q & Iq & Tq); exists q; split; auto; apply isT_tru; auto|]. exfalso.
      rewrite <- (firstn_skipn (c_w (db t c)) ls) in F1 at 2. rewrite filter_app, app_length in F1. rewrite (filter_none (isT t) (firstn (c_w (db t c)) ls)) in F1.
      2:{ intros x Ix. destruct (isT t x) eqn:Z; auto. rewrite <- Y. symmetry. apply existsb_exists. exists x; auto. }
      assert (Hs : length (filter (isT t) (skipn (c_w (db t c)) ls)) <= length ls - c_w (db t c)). { rewrite <- skipn_length. clear. induction (skipn (c_w (db t c)) ls); cbn; auto. destruct (isT t a); cbn; lia. }
      cbn [length] in F1. unfold maxT in R3. fold ls in R3. lia. }
    assert (Wq : In q (wset (db t c))) by (unfold wset; rewrite At; auto). specialize (Wk q Ic Tq Wq). unfold wok in Wk. rewrite At in Wk. fold ls in Wk.
    assert (F2 : c_w (db t c) - 1 <= length (filter (isF t) ls)). { etransitivity; [exact Wk|]. apply filter_firstn_le. intros x Y. apply andb_true_iff in Y. tauto. }
    destruct (isF t (neg l)) eqn:Fn; [apply isF_fls, tru_neg in Fn; rewrite neg_neg in Fn; auto|]. exfalso.
    assert (length (filter (fun q => inL q pre) ls) + length (filter (isF t) ls) < length ls); [|unfold maxT in R3; fold ls in R3; lia].
    assert (Nl : inL (neg l) pre = false). { destruct (inL (neg l) pre) eqn:Y; auto. exfalso. apply N, inL_in; auto. }
    assert (Il : In (neg l) ls) by (apply Cin; auto). apply in_split in Il as (l1 & l2 & El). rewrite El, !filter_app, !app_length. cbn [filter]. rewrite Nl, Fn. cbn [length].
    assert (Dj2 : forall zs, length (filter (fun q => inL q pre) zs) + length (filter (isF t) zs) <= length zs). { intros zs. apply filter_disj. intros x _ Y Z. apply inL_in, Hp in Y. apply isF_fls in Z. eapply tru_fls; eauto. }
    pose proof (Dj2 l1). pose proof (Dj2 l2). lia.
  - destruct R as (R1 & R2 & _). assert (Ot : forall q, In q (c_lits (db t c)) -> q = l \/ fls t q). { intros q Iq. destruct (R2 q) as [|Y]; [apply Cin; auto|auto|]. right. apply tru_neg. auto. }
    assert (Fin : forall w, In w (firstn 2 (c_lits (db t c))) -> w <> l -> tru t l).
    { intros w Iw Nw. destruct (Ot w) as [|Fw]; [eapply In_firstn; eauto|congruence|]. assert (Tn : tru t (neg w)) by (apply tru_neg; auto). assert (Wq : In (neg w) (wset (db t c))) by (unfold wset; rewrite At; apply in_map; auto).
      specialize (Wk (neg w) Ic Tn Wq). unfold wok in Wk. rewrite At in Wk. destruct Wk as (x & Ix & Tx & _). apply (blk_in _ _ _ _ W) in Ix. destruct (Ot x Ix) as [->|Fx]; auto. exfalso. exact (tru_fls t x Tx Fx). }
    destruct (c_lits (db t c)) as [|w1 [|w2 r]]; [cbn in C2; lia|cbn in C2; lia|]. destruct (slit_dec w1 l) as [->|]; [|apply (Fin w1); auto; cbn; auto]. apply (Fin w2); [cbn; auto|]. intros ->. inversion C1 as [|? ? Y]. apply Y. left; auto.
Qed.
Lemma closed_trail : forall s, Asg M E0 s -> (forall c, c < nextc t -> cperm (db t c) (db s c)) -> (forall pre l post c, trail s = pre ++ l :: post -> rsn s (fst l) = Some c -> In c (att t)) ->
  (forall l, tru s l -> rsn s (fst l) = None -> tru t l) -> forall l, tru s l -> tru t l.
Proof.
  intros s A Cp Ra Rn. assert (H : forall n pre post, length pre = n -> trail s = pre ++ post -> forall q, In q pre -> tru t q).
  { induction n as [|n IH]; intros pre post Ln Et q Iq; [destruct pre; [destruct Iq|discriminate]|]. destruct pre as [|l pre _] using rev_ind; [discriminate|]. rewrite app_length in Ln. cbn in Ln. rewrite <- app_assoc in Et. cbn in Et.
    apply in_app_iff in Iq as [Iq|[<-|[]]]; [apply (IH pre (l :: post)); auto; lia|]. assert (Tl : tru s l) by (apply (as_val _ _ _ A); rewrite Et; apply in_elt). destruct (rsn s (fst l)) as [c|] eqn:R; [|apply Rn; auto].
    pose proof (Ra _ _ _ _ Et R) as Ic. pose proof Ht as ([_ W _] & _). apply (closed_reason s pre l c Ic).
    - apply Cp. apply (wt_lt _ W); auto.
    - apply (as_rsn _ _ _ A _ _ _ _ Et R).
    - intros Y. assert (tru s (neg l)) by (apply (as_val _ _ _ A); rewrite Et; apply in_or_app; auto). apply tru_neg in H. exact (tru_fls s l Tl H).
    - apply (IH pre (l :: post)); auto. lia. }
  intros l Tl. apply (as_val _ _ _ A) in Tl. apply (H (length (trail s)) (trail s) []); auto. rewrite app_nil_r; auto.
Qed.
End Closed.
Lemma units_pk : forall us s s', Pkeep s s' -> Pkeep (with_units us s) (with_units us s').
Proof. intros us s s' K. pose proof (pk_db _ _ K) as D. pose proof (pk_trail _ _ K) as T. pose proof (pk_val _ _ K) as V. pose proof (pk_lev _ _ K) as L. pk K. constructor; auto. cbn. congruence. Qed.
Lemma units_same : forall s us, units s = us -> with_units us s = s. Proof. intros s us <-. destruct s; auto. Qed.
Lemma si_units_back : forall M us vs s, searchInv M (with_units us s) -> (forall l, In l vs -> In l (trail s) /\ lev s l = 0) -> searchInv M (with_units vs s).
Proof. intros M us vs s H X. exact (si_units M vs _ H X). Qed.
(** ** Propagating the unit literals again *)
Definition keptIn (s : sat) := (units s, clauses s, learnts s, nextc s, nvars s, stateId s, validStates s, assumps s).
Section Again.
Variables (M : (nat -> bool) -> Prop) (t : sat).
Hypotheses (Ht : searchInv M t) (Tt : tlim t = []) (Qt : qhead t = length (trail t)).
Record RI (done : list slit) (s : sat) : Prop := {
  ri_si : searchInv M (with_units done s); ri_tlim : tlim s = []; ri_q : qhead s = length (trail s);
  ri_db : forall c, c < nextc t -> cperm (db t c) (db s c);
  ri_att : incl (att s) (att t);
  ri_rs : forall l c, In l (trail s) -> rsn s (fst l) = Some c -> In c (att t);
  ri_no : forall l, tru s l -> rsn s (fst l) = None -> tru t l }.
Lemma ri_closed : forall done s, RI done s -> forall l, tru s l -> tru t l.
Proof.
  intros done s [([A _ _] & _ & _) R2 R3 R4 R5 R6 R7]. apply (closed_trail M t Ht Qt s); auto.
  - destruct A. constructor; assumption.
  - intros pre l post c Et. apply R6. rewrite Et. apply in_elt.
Qed.
Lemma reUnits_ok : forall n us done s, RI done s -> ok s = true -> (forall u, In u us -> tru t u /\ fst u < nvars s /\ forall a, M a -> alit a u = true) ->
  wp (reUnits n us) s (fun _ s' => keptIn s' = keptIn s /\ (forall c, cperm (db s c) (db s' c)) /\ Base s' /\ if ok s' then RI (done ++ us) s' else forall a, ~ M a).
Proof.
  intros n. induction us as [|u r IH]; intros done s H O Hu; cbn [reUnits].
  - apply wp_ret. split; auto. split; [intros; apply cperm_refl|]. rewrite O, app_nil_r. split; auto. pose proof H as [(P & X & _) R2 _ _ _ _ _]. assert (B : Base (with_units done s)) by (apply (base_inv M); auto; unfold dl; cbn; rewrite R2; auto).
    destruct B as [B1 B2 B3 B4 B5 B6 B7]. constructor; auto. destruct B1; constructor; assumption.
  - unfold wp. rewrite O. apply wp_bind. unfold enqueue. apply wp_modify. pose proof (ri_closed _ _ H) as Cl. pose proof H as [Hs R2 R3 R4 R5 R6 R7]. destruct (Hu u (or_introl eq_refl)) as (U1 & U2 & U3).
    assert (Nf : ~ fls s u). { intros F. apply tru_neg in F. apply Cl in F. apply tru_neg in F. exact (tru_fls t u U1 F). }
    assert (S1 : searchInv M (with_units (done ++ [u]) (enq u None s))).
    { apply (si_units_back M done). - exact (si_enq1 M u (with_units done s) Hs R2 Nf U2 U3). - intros l Il. pose proof (si_enq1 M u (with_units done s) Hs R2 Nf U2 U3) as Se. apply in_app_iff in Il as [Il|[<-|[]]].
      + destruct Se as (_ & X & _). exact (ex_units _ X l Il). + split; [cbn; apply in_or_app; right; left; auto|]. pose proof Se as ([A _ _] & _ & _). apply (top_lev M E0 (enq u None (with_units done s)) u A R2). unfold tru. rewrite val_enq, Nat.eqb_refl, slit_eqb_refl. auto. }
    set (s1 := enq u None s) in *. pose proof S1 as (P1 & X1 & Pr1). assert (P1' : PI M s1) by (apply (pi_units M (units s1)) in P1; replace s1 with (with_units (units s1) (with_units (done ++ [u]) s1)) by (unfold s1; destruct s; auto); exact P1).
    apply wp_bind. eapply wp_mono; [apply (propagate_ok M n s1 P1' Pr1)|]. cbv beta. intros c s2 (P2 & K2 & H2). apply wp_bind. apply wp_modify.
    assert (X2 : Ex (with_units (done ++ [u]) s2)). { eapply ex_pk; [exact X1|apply units_pk; exact K2|]. intros l Il. apply (as_val _ _ _ (pi_asg _ _ P1)). exact Il. }
    pose proof (pk_same _ _ K2) as Ek. assert (T2 : tlim s2 = []) by (inversion Ek; congruence). assert (Bs : Base s2). { assert (B : Base (with_units (done ++ [u]) s2)) by (apply (base_inv M); auto; [apply pi_units; auto|unfold dl; cbn; rewrite T2; auto]). destruct B as [B1 B2 B3 B4 B5 B6 B7]. constructor; auto. destruct B1; constructor; assumption. }
    assert (Kp : keptIn s2 = keptIn s) by (unfold keptIn; inversion Ek; cbn in *; congruence). assert (Db : forall c, cperm (db s c) (db s2 c)) by (intros d; apply (pk_db _ _ K2)).
    destruct c as [c|].
    + assert (U : forall a, ~ M a). { eapply confl_unsat; [exact P2|apply H2|]. unfold dl. rewrite T2. auto. } destruct r; cbn [reUnits]; unfold wp; cbn [ok with_ok]; (split; [exact Kp|]; split; [exact Db|]; split; [apply base_ok; auto|exact U]).
    + destruct H2 as [Q2 Pr2]. assert (R' : RI (done ++ [u]) (with_ok true s2)).
      { assert (At : att s2 = att s) by (unfold att; inversion Ek; cbn in *; congruence). constructor; auto.
        - apply (si_ok M true (with_units (done ++ [u]) s2)). split; [apply pi_units; auto|]. split; auto.
        - intros d Ld. eapply cperm_trans; [apply R4; auto|apply Db].
        - change (incl (att s2) (att t)). rewrite At. auto.
        - intros l d Il Rs. change (In l (trail s2)) in Il. change (rsn s2 (fst l) = Some d) in Rs. destruct (pk_trail _ _ K2) as (ext & Et & Hx). rewrite Et in Il. apply in_app_iff in Il as [Il|Il].
          + assert (Tl : tru s1 l) by (apply (as_val _ _ _ (pi_asg _ _ P1')); auto). destruct (pk_lev _ _ K2 l Tl) as [_ Y]. rewrite Y in Rs. unfold s1, enq in Rs. cbn in Rs. unfold upd in Rs. destruct (Nat.eqb_spec (fst l) (fst u)) as [|Ne]; [discriminate|]. apply (R6 l); auto. unfold s1, enq in Il. cbn in Il. apply in_app_iff in Il as [Il|[<-|[]]]; auto. congruence.
          + destruct (Hx l Il) as (d' & Y & Z). apply R5. replace d with d' by congruence. exact Z.
        - intros l Tl Rs. change (tru s2 l) in Tl. change (rsn s2 (fst l) = None) in Rs. apply (as_val _ _ _ (pi_asg _ _ P2)) in Tl. destruct (pk_trail _ _ K2) as (ext & Et & Hx). rewrite Et in Tl. apply in_app_iff in Tl as [Il|Il].
          + assert (Tl : tru s1 l) by (apply (as_val _ _ _ (pi_asg _ _ P1')); auto). unfold s1, enq in Il. cbn in Il. apply in_app_iff in Il as [Il|[<-|[]]]; auto. apply Cl. apply (as_val _ _ _ (pi_asg _ _ (proj1 Hs))). exact Il.
          + destruct (Hx l Il) as (d' & Y & Z). congruence. }
      assert (Hu' : forall v, In v r -> tru t v /\ fst v < nvars (with_ok true s2) /\ (forall a, M a -> alit a v = true)). { intros v Iv. replace (nvars (with_ok true s2)) with (nvars s) by (unfold keptIn in Kp; inversion Kp; auto). apply Hu; right; auto. }
      eapply wp_mono; [apply (IH _ _ R' eq_refl Hu')|]. cbv beta. intros _ s' (K' & D' & B' & H'). split; [rewrite K'; exact Kp|]. split; [intros d; eapply cperm_trans; [apply Db|apply D']|]. split; auto. rewrite <- app_assoc in H'. exact H'.
Qed.
End Again.
(** ** Loading *)
Definition unsetv (s : sat) (v : nat) : sat := let s := with_rsn (upd (rsn s) v None) (with_val (upd (val_ s) v None) s) in insertVarOrder v s.
Lemma back_fold : forall vs s, exists h rs vl, fold_left unsetv vs s = with_heap h (with_rsn rs (with_val vl s)) /\
  (forall v, vl v = if inN v vs then None else val_ s v) /\ (forall v, In v vs -> dec s v = true -> In v h) /\ incl (heap s) h.
Proof.
  induction vs as [|x vs IH]; intros s; cbn [fold_left].
  - exists (heap s), (rsn s), (val_ s). split; [destruct s; auto|]. split; auto. split; [intros v []|apply incl_refl].
  - set (s1 := unsetv s x). destruct (IH s1) as (h & rs & vl & E & V & D & I).
    assert (exists h1, s1 = with_heap h1 (with_rsn (upd (rsn s) x None) (with_val (upd (val_ s) x None) s)) /\ incl (heap s) h1 /\ (dec s x = true -> In x h1)) as (h1 & E1 & I1 & D1).
    { unfold s1, unsetv, insertVarOrder. cbn [heap dec with_rsn with_val]. destruct (negb (inN x (heap s)) && dec s x) eqn:B.
      - exists (x :: heap s). split; auto. split; [apply incl_tl, incl_refl|left; auto].
      - exists (heap s). split; [destruct s; auto|]. split; [apply incl_refl|]. intros Dx. rewrite Dx, andb_true_r in B. apply negb_false_iff, inN_in in B. auto. }
    exists h, rs, vl. split; [rewrite E, E1; reflexivity|]. rewrite E1 in V, D, I. cbn [val_ heap dec with_rsn with_val with_heap] in V, D, I. split.
    { intros v. rewrite V. cbn [inN]. unfold upd. destruct (v =? x), (inN v vs); auto. }
    split; [intros v [<-|Iv] Dv; auto|]. intros v Iv. auto.
Qed.
Lemma completeBacktrack_ok : forall s, Base s -> exists h rs vl, completeBacktrack s = with_qhead 0 (with_tlim [] (with_trail [] (with_heap h (with_rsn rs (with_val vl s))))) /\ (forall v, vl v = None) /\ (forall v, v < nvars s -> In v h).
Proof.
  intros s B. change (completeBacktrack s) with (with_qhead 0 (with_tlim [] (with_trail [] (fold_left unsetv (seq 0 (nvars s)) s)))). destruct (back_fold (seq 0 (nvars s)) s) as (h & rs & vl & -> & V & D & I). exists h, rs, vl. split; auto. split.
  - intros v. rewrite V. destruct (inN v (seq 0 (nvars s))) eqn:E; auto. apply (ba_out _ B). destruct (Nat.le_gt_cases (nvars s) v); auto. exfalso. assert (inN v (seq 0 (nvars s)) = true) by (apply inN_in, in_seq; lia). congruence.
  - intros v L. apply D; [apply in_seq; lia|apply (ba_dec _ B); auto].
Qed.
(** the record returned by saving describes the solver [t] right after saving, which has the models [M] *)
Record Snap (x : saved) (M : (nat -> bool) -> Prop) (t : sat) : Prop := {
  sn_id : stateId t = (s_id x + 1)%Z; sn_ok : s_ok x = ok t; sn_nv : s_vars x = nvars t;
  sn_cl : s_clauses x = length (clauses t); sn_un : s_units x = length (units t); sn_inv : LInv M t }.
Lemma empty_asg : forall M s, trail s = [] -> tlim s = [] -> qhead s = 0 -> (forall v, val_ s v = None) -> Asg M E0 s.
Proof.
  intros M s T L Q V. constructor; rewrite ?T, ?L, ?Q.
  - intros l. split; [intros []|]. unfold tru, val. rewrite V. discriminate.
  - intros l [].
  - intros l [].
  - intros [|k] m; discriminate.
  - intros [|i] j l; discriminate.
  - intros [|p0 pre0] l post c; discriminate.
  - intros [|i] l; discriminate.
  - intros i l Hi Hl. unfold dl in Hl. rewrite L in Hl. cbn in Hl. lia.
  - intros l a [].
  - split; auto. intros l [].
Qed.
Lemma filter_heap : forall nv h v, In v (filter (fun v => v <? nv) h) <-> In v h /\ v < nv.
Proof. intros. rewrite filter_In, Nat.ltb_lt. tauto. Qed.
Lemma firstn_length_app : forall {A} (l m : list A), firstn (length l) (l ++ m) = l.
Proof. intros. rewrite firstn_app, Nat.sub_diag, firstn_all, firstn_O, app_nil_r. auto. Qed.
Lemma skipn_length_app : forall {A} (l m : list A), skipn (length l) (l ++ m) = m.
Proof. intros. rewrite skipn_app, Nat.sub_diag, skipn_all. auto. Qed.
Definition cleared (h : list nat) (rs : nat -> option nat) (vl : nat -> option bool) (vs : list Z) (nv : nat) (b : bool) (s : sat) : sat :=
  with_nvars nv (with_heap h (with_ok b (with_qhead 0 (with_tlim [] (with_trail [] (with_rsn rs (with_val vl (with_validStates vs s)))))))).
Lemma wat_val : forall x s, Wat s -> Wat (with_val x s). Proof. intros x s []. constructor; assumption. Qed.
Lemma wat_rsn : forall x s, Wat s -> Wat (with_rsn x s). Proof. intros x s []. constructor; assumption. Qed.
Lemma wat_trail : forall x s, Wat s -> Wat (with_trail x s). Proof. intros x s []. constructor; assumption. Qed.
Lemma wat_tlim : forall x s, Wat s -> Wat (with_tlim x s). Proof. intros x s []. constructor; assumption. Qed.
Lemma wat_qhead : forall x s, Wat s -> Wat (with_qhead x s). Proof. intros x s []. constructor; assumption. Qed.
Lemma wat_okf : forall x s, Wat s -> Wat (with_ok x s). Proof. intros x s []. constructor; assumption. Qed.
Lemma wat_vs : forall x s, Wat s -> Wat (with_validStates x s). Proof. intros x s []. constructor; assumption. Qed.
Lemma wat_same : forall s s', clauses s' = clauses s -> learnts s' = learnts s -> db s' = db s -> nextc s' = nextc s -> nvars s' = nvars s -> wat s' = wat s -> wbin s' = wbin s -> Wat s -> Wat s'.
Proof.
  intros s s' E1 E2 E3 E4 E5 E6 E7 [W1 W2 W3 W4 W5 W6 W7 W8 W9]. assert (E : att s' = att s) by (unfold att; congruence). constructor; rewrite ?E, ?E3, ?E4, ?E5, ?E6, ?E7; assumption.
Qed.
Definition keepW (s : sat) := (ok s, qhead s, units s, db s, nextc s, nvars s, (val_ s, rsn s, dec s, heap s, trail s, tlim s, seen s, assumps s, stateId s, validStates s)).
Lemma removes_k : forall nv cl ln ex s, Wat (with_nvars nv (lists (cl ++ ex) ln s)) -> wp (each (rev ex) simpleRemove) s (fun _ s' => keepW s' = keepW s /\ learnts s' = learnts s /\ Wat (with_nvars nv (lists cl ln s'))).
Proof. intros nv cl ln ex s H. eapply wp_mono; [apply (removes_ok _ _ _ _ _ H)|]. cbv beta. intros _ s' (W & B & -> & H'). split; [reflexivity|]. split; [reflexivity|exact H']. Qed.
Lemma drops_k : forall nv id cl cs s, Wat (with_nvars nv (lists cl cs s)) ->
  wp (dropLearnts id cs []) s (fun _ s' => keepW s' = keepW s /\ clauses s' = clauses s /\ learnts s' = filter (fun c => (c_st (db s c) <=? id)%Z) cs /\ Wat (with_nvars nv (lists cl (learnts s') s'))).
Proof. intros nv id cl cs s H. eapply wp_mono; [apply (drops_ok nv id cl cs [] s H)|]. cbv beta. intros _ s' (W & B & -> & H'). split; [reflexivity|]. split; [reflexivity|]. split; [reflexivity|exact H']. Qed.
Lemma loadState_ok : forall M n x t s i, Base s -> Ext t s -> Snap x M t -> lastIndex (s_id x) (validStates s) 0 = Some i ->
  wp (loadState n x) s (fun b s' => b = true /\ LInv M s' /\ Ext t s' /\ nvars s' = nvars t /\ stateId s' = stateId s /\ validStates s' = firstn (S i) (validStates s) /\ assumps s' = assumps s /\ (forall P : clause -> Prop, (forall d d', cperm d d' -> P d -> P d') -> (forall d, c_atm d = false -> P d) -> (forall c, P (db s c)) -> forall c, P (db s' c))).
Proof.
  intros M n x t s i B E Sn Li. unfold loadState, wp. rewrite Li. cbv beta.
  destruct E as [(ex & Xc) (ue & Xu) Xn Xnc Xd Xl Xi]. destruct Sn as [N1 N2 N3 N4 N5 N6]. pose proof N6 as [Bt Lt].
  apply wp_bind, wp_modify. apply wp_bind, wp_modify. set (vs := firstn (S i) (validStates s)). set (s0 := with_validStates vs s).
  assert (B0 : Base s0) by (destruct B as [B1 B2 B3 B4 B5 B6 B7]; constructor; auto; apply wat_vs; auto).
  destruct (completeBacktrack_ok s0 B0) as (h & rs & vl & -> & V & Hh). apply wp_bind, wp_modify. unfold wp. cbv beta zeta.
  match goal with |- context [heap ?y] => change (heap y) with h; change (nvars y) with (nvars s); change (clauses y) with (clauses s); change (learnts y) with (learnts s) end.
  rewrite N3, N4, Xc, app_length. replace (min (nvars t) (nvars s)) with (nvars t) by lia. replace (min (length (clauses t)) (length (clauses t) + length ex)) with (length (clauses t)) by lia. rewrite firstn_length_app, skipn_length_app.
  apply wp_bind, wp_modify. apply wp_bind, wp_modify.
  set (h1 := filter (fun v => v <? nvars t) h). set (s1 := cleared h1 rs vl vs (nvars t) (s_ok x) s).
  match goal with |- wp _ ?y _ => change y with s1 end.
  assert (W1 : Wat (with_nvars (nvars s) (lists (clauses t ++ ex) (learnts s) s1))). { apply (wat_same s (with_nvars (nvars s) (lists (clauses t ++ ex) (learnts s) s1)) (eq_sym Xc) eq_refl eq_refl eq_refl eq_refl eq_refl eq_refl). exact (ba_wat _ B). }
  apply wp_bind. eapply wp_mono; [apply (removes_k _ _ _ _ _ W1)|]. cbv beta. intros _ s2 (K2 & L2 & W2). unfold keepW in K2. injection K2 as A1 A2 A3 A4 A5 A6 A7 A8 A9 A10 A11 A12 A13 A14 A15 A16.
  change (ok s1) with (s_ok x) in A1. change (qhead s1) with 0 in A2. change (units s1) with (units s) in A3. change (db s1) with (db s) in A4. change (nextc s1) with (nextc s) in A5. change (nvars s1) with (nvars t) in A6. change (val_ s1) with vl in A7. change (rsn s1) with rs in A8. change (dec s1) with (dec s) in A9.
  change (heap s1) with h1 in A10. change (trail s1) with (@nil slit) in A11. change (tlim s1) with (@nil nat) in A12. change (seen s1) with (seen s) in A13. change (assumps s1) with (assumps s) in A14. change (stateId s1) with (stateId s) in A15. change (validStates s1) with vs in A16. clearbody s1. apply wp_bind, wp_modify.
  assert (W2' : Wat (with_nvars (nvars s) (lists (clauses t) (learnts s) (with_clauses (clauses t) s2)))) by exact (wat_same (with_nvars (nvars s) (lists (clauses t) (learnts s) s2)) (with_nvars (nvars s) (lists (clauses t) (learnts s) (with_clauses (clauses t) s2))) eq_refl eq_refl eq_refl eq_refl eq_refl eq_refl eq_refl W2).
  apply wp_bind. eapply wp_mono; [apply (drops_k _ (s_id x) _ _ _ W2')|]. cbv beta. intros _ s3 (K3 & C3 & L3 & W3). unfold keepW in K3. change (clauses s3 = clauses t) in C3. change (db (with_clauses (clauses t) s2)) with (db s2) in L3. injection K3 as Z1 Z2 Z3 Z4 Z5 Z6 Z7 Z8 Z9 Z10 Z11 Z12 Z13 Z14 Z15 Z16. rewrite A4 in L3.
  cbn in Z1, Z2, Z3, Z4, Z5, Z6, Z7, Z8, Z9, Z10, Z11, Z12, Z13, Z14, Z15, Z16. rewrite ?A1, ?A2, ?A3, ?A4, ?A5, ?A6, ?A7, ?A8, ?A9, ?A10, ?A11, ?A12, ?A13, ?A14, ?A15, ?A16 in *. apply wp_bind, wp_modify.
  assert (U : firstn (s_units x) (units s3) = units t). { rewrite Z3, N5, Xu. apply firstn_length_app. }
  rewrite U. set (s4 := with_units (units t) s3).
  assert (Hln : incl (learnts s3) (learnts t)). { rewrite L3. intros c Ic. apply filter_In in Ic as [Ic Ec]. apply Z.leb_le in Ec. destruct (Xl c Ic); auto. lia. }
  assert (Hat : incl (att s4) (att t)). { intros c Ic. change (In c (clauses s3 ++ learnts s3)) in Ic. rewrite C3 in Ic. unfold att. apply in_app_iff in Ic as [Ic|Ic]; apply in_or_app; auto. }
  assert (W4 : Wat s4). { apply wat_units. apply (wat_same (with_nvars (nvars t) s3) s3 eq_refl eq_refl eq_refl eq_refl Z6 eq_refl eq_refl). apply (wat_nv (nvars s)).
    - exact (wat_same (with_nvars (nvars s) (lists (clauses t) (learnts s3) s3)) (with_nvars (nvars s) s3) C3 eq_refl eq_refl eq_refl eq_refl eq_refl eq_refl W3).
    - intros c Ic. apply Hat in Ic. rewrite Z4. eapply clauseOK_cperm; [apply Xd; apply (wt_lt _ (ba_wat _ Bt)); auto|]. apply (wt_cl _ (ba_wat _ Bt)); auto. }
  assert (B4 : Base s4). { destruct B as [_ _ B3 B4' _ B6 _]. constructor; auto.
    - change (forall v, seen s3 v = false). rewrite Z13. auto.
    - intros v Lv. change (dec s3 v = true). change (v < nvars s3) in Lv. rewrite Z9. apply (B4' v). lia.
    - intros v Iv. change (In v (heap s3)) in Iv. change (v < nvars s3). rewrite Z10 in Iv. rewrite Z6. apply filter_heap in Iv. apply Iv.
    - intros c Ic. change (In c (learnts s3)) in Ic. change (c_st (db s3 c) <= stateId s3)%Z. rewrite Z4, Z15. apply B6. rewrite L3 in Ic. apply filter_In in Ic. apply Ic.
    - intros v _. change (val_ s3 v = None). rewrite Z7. apply V. }
  assert (X4 : Ext t s4). { constructor.
    - exists []. rewrite app_nil_r. exact C3.
    - exists []. rewrite app_nil_r. reflexivity.
    - change (nvars t <= nvars s3). lia.
    - change (nextc t <= nextc s3). lia.
    - change (db s4) with (db s3). rewrite Z4. auto.
    - intros c Ic. left. apply Hln. exact Ic.
    - change (stateId t <= stateId s3)%Z. rewrite Z15. auto. }
  assert (Ok4 : ok s4 = ok t) by (change (ok s3 = ok t); congruence).
  apply wp_bind. destruct (ok t) eqn:Ot.
  - destruct Lt as (S1 & Q1 & C1).
    assert (V3 : forall v, val_ s3 v = None) by (intros v; rewrite Z7; apply V).
    assert (R : RI M t [] s4). { constructor.
      - split; [|split].
        + constructor; [apply empty_asg; auto|apply wat_units; auto|]. intros c Ic. change (In c (att s4)) in Ic. apply Hat in Ic. intros a Ma. change (csat a (db s3 c)). rewrite Z4. eapply cperm_csat; [apply Xd; apply (wt_lt _ (ba_wat _ Bt)); auto|]. apply (pi_ent _ _ (proj1 S1)); auto.
        + destruct B4 as [G1 G2 G3 G4 G5 G6 G7]. constructor; auto; [|intros u []]. intros v Lv _. change (In v (heap s3)). change (v < nvars s3) in Lv. rewrite Z10. apply filter_heap. rewrite Z6 in Lv. split; auto. apply Hh. change (nvars s0) with (nvars s). lia.
        + intros q c Iq. change (In q (firstn (qhead s3) (trail s3))) in Iq. rewrite Z11, firstn_nil in Iq. destruct Iq.
      - exact Z12.
      - change (qhead s3 = length (trail s3)). rewrite Z2, Z11. auto.
      - change (db s4) with (db s3). rewrite Z4. auto.
      - exact Hat.
      - intros l c Il. change (In l (trail s3)) in Il. rewrite Z11 in Il. destruct Il.
      - intros l Tl. exfalso. unfold tru, val in Tl. change (val_ s4 (fst l)) with (val_ s3 (fst l)) in Tl. rewrite V3 in Tl. discriminate. }
    assert (Tl : tlim t = []) by apply (ba_tlim _ Bt).
    eapply wp_mono; [apply (reUnits_ok M t S1 Q1 n (units t) [] s4 R)|].
    + exact Ok4.
    + change (nvars s4) with (nvars s3). rewrite Z6. intros u Iu. destruct S1 as (P & X & _). destruct (ex_units _ X u Iu) as [Y Z]. split; [apply (as_val _ _ _ (pi_asg _ _ P)); auto|]. split; [apply (as_vars _ _ _ (pi_asg _ _ P)); auto|]. intros a Ma. apply (as_l0 _ _ _ (pi_asg _ _ P)); auto.
    + cbv beta. intros _ s5 (K5 & D5 & B5 & H5). apply wp_ret. unfold keptIn in K5. injection K5 as K51 K52 K53 K54 K55 K56 K57 K58.
      change (units s4) with (units t) in K51. change (clauses s4) with (clauses s3) in K52. change (nvars s4) with (nvars s3) in K55. change (stateId s4) with (stateId s3) in K56. change (validStates s4) with (validStates s3) in K57. change (assumps s4) with (assumps s3) in K58. rewrite C3 in K52. rewrite Z6 in K55. rewrite Z15 in K56. rewrite Z16 in K57. rewrite Z14 in K58. change (db s4) with (db s3) in D5. rewrite Z4 in D5.
      split; auto. split; [|split; [|split; [exact K55|split; [exact K56|split; [exact K57|split; [exact K58|]]]]]].
      * split; auto. destruct (ok s5); auto. cbn [app] in H5. destruct H5 as [H5 H6 H7 _ _ _ _]. rewrite (units_same s5 (units t) K51) in H5. split; auto. split; auto.
        intros a Hc Hu. apply C1; [|rewrite <- K51; auto]. intros c Ic. eapply cperm_csat; [|apply (Hc c); rewrite K52; exact Ic]. apply cperm_sym. eapply cperm_trans; [apply Xd|exact (D5 c)]. apply (wt_lt _ (ba_wat _ Bt)). unfold att. apply in_or_app; left; exact Ic.
      * destruct X4 as [Y1 Y2 Y3 Y4 Y5 Y6 Y7]. constructor.
        -- rewrite K52. exists []. symmetry; apply app_nil_r.
        -- rewrite K51. exists []. symmetry; apply app_nil_r.
        -- rewrite K55. auto.
        -- rewrite K54. auto.
        -- intros c Lc. eapply cperm_trans; [apply Xd; auto|apply D5].
        -- intros c Ic. rewrite K53 in Ic. left. apply Hln. exact Ic.
        -- rewrite K56. lia.
      * intros P HP _ Na c. eapply HP; [apply D5|]. apply Na.
  - assert (Er : reUnits n (units s4) s4 = Ret tt s4). { destruct (units s4); cbn [reUnits]; [reflexivity|]. rewrite Ok4. reflexivity. } unfold wp. rewrite Er. cbn [ret].
    split; auto. split; [|split; [exact X4|split; [exact Z6|split; [exact Z15|split; [exact Z16|split; [exact Z14|change (db s4) with (db s3); rewrite Z4; auto]]]]]]. split; auto. rewrite Ok4. exact Lt.
Qed.
