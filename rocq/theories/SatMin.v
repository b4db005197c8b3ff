(** * Minimising a learnt clause keeps it a consequence *)
From Coq Require Import List Bool Arith Lia ZArith Permutation.
From Verif Require Import Sat SatInv SatProp SatAna.
Import ListNotations.

(** the marked variables are those of the false literals [T] *)
Record DI (M : (nat -> bool) -> Prop) (s : sat) (T : list slit) : Prop := {
  di_ai : AI M s;
  di_fls : forall x, In x T -> fls s x /\ 0 < lev s x;
  di_seen : forall v, seen s v = true <-> exists x, In x T /\ fst x = v }.
(** [x] can only be true if an earlier literal of [T] is *)
Definition Just (M : (nat -> bool) -> Prop) (s : sat) (T : list slit) (x : slit) : Prop :=
  exists pre post ants, trail s = pre ++ neg x :: post /\ (forall a, M a -> alit a x = true -> exists y, In y ants /\ alit a y = true) /\
    forall y, In y ants -> In (neg y) pre /\ (lev s y = 0 \/ In y T).
Lemma just_mono : forall M s s' T T' x, Akeep s s' -> incl T T' -> Just M s T x -> Just M s' T' x.
Proof.
  intros M s s' T T' x K I (pre & post & ants & E & H1 & H2). exists pre, post, ants. rewrite (ak_trail _ _ K). split; auto. split; auto.
  intros y Y. destruct (H2 y Y) as [Z1 Z2]. split; auto. rewrite (ak_lev _ _ _ K). destruct Z2; auto.
Qed.
Lemma di_ak_tick : forall M s T x, DI M s T -> DI M (with_tick x s) T.
Proof. intros M s T x [A F S]. constructor; auto. apply ai_tick; auto. Qed.
(** if every literal of [T] is kept or justified, some kept literal is true whenever one of [T] is *)
Lemma just_all : forall M s T kept a, DI M s T -> (forall x, In x T -> In x kept \/ Just M s T x) -> M a -> (forall x, In x kept -> alit a x = false) -> forall x, In x T -> alit a x = false.
Proof.
  intros M s T kept a D H Ma Hk. pose proof D as [[[A W En] P] F S].
  assert (X : forall n x pre post, length pre < n -> trail s = pre ++ neg x :: post -> In x T -> alit a x = false).
  { induction n; intros x pre post L E Ix; [lia|]. destruct (alit a x) eqn:Ax; auto. exfalso. destruct (H x Ix) as [K|(pre' & post' & ants & E' & J1 & J2)]; [rewrite Hk in Ax; auto; discriminate|].
    assert (Lp : length pre' = length pre).
    { apply (as_nd _ _ _ A _ _ (neg x)); [rewrite E'; rewrite nth_error_app2, Nat.sub_diag by lia; auto|rewrite E; rewrite nth_error_app2, Nat.sub_diag by lia; auto|]. apply (F x Ix). }
    destruct (J1 a Ma Ax) as (y & Y1 & Y2). destruct (J2 y Y1) as (Y3 & [Y4|Y4]).
    - assert (Z : alit a (neg y) = true). { apply (as_l0 _ _ _ A); auto. rewrite E'. apply in_or_app; auto. } rewrite alit_neg, Y2 in Z. discriminate.
    - destruct (in_split _ _ Y3) as (u & w & Eu). rewrite (IHn y u (w ++ neg x :: post')) in Y2; [discriminate| | |auto].
      + rewrite Eu, app_length in Lp. cbn in Lp. lia.
      + rewrite E', Eu, <- app_assoc. auto. }
  intros x Ix. destruct (in_split (neg x) (trail s)) as (u & w & Eu); [apply (fls_in _ _ _ _ A), F; auto|]. eapply X; eauto.
Qed.
Lemma di_in : forall M s T q, DI M s T -> fls s q -> seen s (fst q) = true -> In q T.
Proof. intros M s T q [A F S] Fq Sq. apply S in Sq as (x & Ix & Ex). assert (x = q) by (eapply fst_fls; eauto; apply F; auto). subst; auto. Qed.

Definition clr (cl : list slit) (s : sat) : sat := fold_left (fun s l => with_seen (upd (seen s) (fst l) false) s) cl s.
Lemma clr_ok : forall cl s, exists f, clr cl s = with_seen f s /\ forall v, f v = true <-> seen s v = true /\ ~ exists x, In x cl /\ fst x = v.
Proof.
  induction cl as [|c cl IH]; intros s; cbn.
  - exists (seen s). split; [destruct s; auto|]. intros v. split; [intros X; split; auto; intros (x & [] & _)|tauto].
  - destruct (IH (with_seen (upd (seen s) (fst c) false) s)) as (f & E & F). exists f. split; [exact E|]. intros v. rewrite F. cbn. unfold upd. destruct (Nat.eqb_spec v (fst c)).
    + split; [intros [X _]; discriminate|]. intros [_ X]. exfalso. apply X. exists c. auto.
    + split; intros [X Y]; split; auto; intros (x & I & Z); apply Y; [destruct I as [<-|I]; [congruence|]|]; exists x; auto.
Qed.
Lemma di_clr : forall M s T cl, DI M s (T ++ cl) -> (forall x y, In x T -> In y cl -> fst x <> fst y) -> DI M (clr cl s) T /\ Akeep s (clr cl s).
Proof.
  intros M s T cl [A F S] H. destruct (clr_ok cl s) as (f & -> & E). split; [|apply ak_seen]. constructor.
  - apply ai_seen; auto.
  - intros x I. apply (F x). apply in_or_app; auto.
  - intros v. change (seen (with_seen f s)) with f. rewrite E, S. split.
    + intros [(x & I & X) N]. apply in_app_iff in I as [I|I]; [exists x; auto|]. exfalso. apply N. exists x; auto.
    + intros (x & I & X). split; [exists x; split; auto; apply in_or_app; auto|]. intros (y & Iy & Y). apply (H x y); auto. congruence.
Qed.

Definition redPre M (s : sat) (T0 stack cl : list slit) : Prop :=
  DI M s (T0 ++ cl) /\ (forall x y, In x T0 -> In y cl -> fst x <> fst y) /\ (forall x, In x stack -> fls s x /\ rsn s (fst x) <> None).
Lemma redLits_ok : forall M T0 abs qs stack cl s, redPre M s T0 stack cl -> (forall q, In q qs -> fls s q) ->
  wp (redLits abs qs stack cl) s (fun r s' => Akeep s s' /\ match r with
    | None => DI M s' T0
    | Some (st', cl') => redPre M s' T0 st' cl' /\ incl stack st' /\ incl cl cl' /\ (forall x, In x cl' -> In x cl \/ In x st') /\ forall q, In q qs -> lev s' q = 0 \/ In q (T0 ++ cl')
    end).
Proof.
  intros M T0 abs qs. induction qs as [|q qs IH]; intros stack cl s (D & Ds & St) Hq.
  { apply wp_ret. split; [apply ak_refl|]. split; [exact (conj D (conj Ds St))|]. split; [apply incl_refl|]. split; [apply incl_refl|]. split; auto. intros q []. }
  assert (Hq' : forall q, In q qs -> fls s q) by (intros; apply Hq; right; auto). assert (Fq : fls s q) by (apply Hq; left; auto). cbn [redLits]. unfold wp; cbv beta.
  destruct (seen s (fst q)) eqn:Sq; [|destruct (Nat.ltb_spec 0 (lev s q)) as [L|L]]; cbn [negb andb].
  - eapply wp_mono; [apply (IH stack cl s); auto; exact (conj D (conj Ds St))|]. intros [[st' cl']|] s' (K & H); split; auto. destruct H as (H1 & H2 & H3 & H4 & H5). split; auto. split; auto. split; auto. split; auto.
    intros q' [<-|I]; auto. right. assert (Y : In q (T0 ++ cl)) by (eapply di_in; eauto). apply in_app_iff in Y as [Y|Y]; apply in_or_app; auto.
  - destruct (match rsn s (fst q) with Some _ => inN (absLevel s q) abs | None => false end) eqn:B.
    + assert (Rq : rsn s (fst q) <> None) by (destruct (rsn s (fst q)); congruence).
      set (s1 := with_seen (upd (seen s) (fst q) true) s).
      assert (R1 : redPre M s1 T0 (q :: stack) (cl ++ [q])).
      { split; [|split].
        - destruct D as [A F S]. constructor; [apply ai_seen; auto| |].
          + intros x I. rewrite app_assoc in I. apply in_app_iff in I as [I|[<-|[]]]; [apply F; auto|auto].
          + intros v. cbn. unfold upd. destruct (Nat.eqb_spec v (fst q)) as [->|N].
            * split; auto. intros _. exists q. split; auto. rewrite app_assoc. apply in_or_app; right; left; auto.
            * rewrite S. rewrite app_assoc. split; intros (x & I & X); exists x; split; auto; [apply in_or_app; auto|]. apply in_app_iff in I as [I|[<-|[]]]; auto. congruence.
        - intros x y Ix Iy. apply in_app_iff in Iy as [Iy|[<-|[]]]; [apply Ds; auto|]. intros E. destruct D as [_ F S]. assert (Z : seen s (fst q) = true); [|congruence]. apply S. exists x. split; auto. apply in_or_app; auto.
        - intros x [<-|I]; auto. apply St; auto. }
      eapply wp_mono; [apply (IH (q :: stack) (cl ++ [q]) s1 R1); auto|]. intros [[st' cl']|] s' (K & H); (split; [eapply ak_trans; [apply ak_seen|exact K]|auto]).
      destruct H as (H1 & H2 & H3 & H4 & H5). split; auto. split; [intros x I; apply H2; right; auto|]. split; [intros x I; apply H3; apply in_or_app; auto|]. split.
      * intros x I. destruct (H4 x I) as [Z|Z]; auto. apply in_app_iff in Z as [Z|[<-|[]]]; auto. right. apply H2. left; auto.
      * intros q' [<-|I]; auto. right. apply in_or_app. right. apply H3. apply in_or_app; right; left; auto.
    + destruct (di_clr M s T0 cl D Ds) as [D' K']. split; auto.
  - eapply wp_mono; [apply (IH stack cl s); auto; exact (conj D (conj Ds St))|]. intros [[st' cl']|] s' (K & H); split; auto. destruct H as (H1 & H2 & H3 & H4 & H5). split; auto. split; auto. split; auto. split; auto.
    intros q' [<-|I]; auto. left. rewrite (ak_lev _ _ _ K). lia.
Qed.
Lemma redLoop_ok : forall M T0 q0 n abs stack cl s, redPre M s T0 stack cl -> (forall x, In x (q0 :: cl) -> In x stack \/ Just M s (T0 ++ cl) x) ->
  wp (redLoop n abs stack cl) s (fun r s' => Akeep s s' /\ match r with
    | None => DI M s' T0
    | Some cl' => DI M s' (T0 ++ cl') /\ forall x, In x (q0 :: cl') -> Just M s' (T0 ++ cl') x
    end).
Proof.
  intros M T0 q0 n. induction n as [|n IH]; intros abs [|p stack] cl s R H; try exact Logic.I; cbn [redLoop]; try (apply wp_ret; split; [apply ak_refl|]; destruct R as (D & _); split; auto; intros x I; destruct (H x I) as [[]|]; auto; fail).
  destruct R as (D & Ds & St). destruct (St p (or_introl eq_refl)) as [Fp Rp]. unfold wp; cbv beta. destruct (rsn s (fst p)) as [c|] eqn:Rc; [|congruence]. pose proof D as [[[A W En] P] F S].
  destruct (in_split (neg p) (trail s)) as (pre & post & Et); [apply (fls_in _ _ _ _ A); auto|].
  apply wp_bind. eapply wp_mono; [apply (antecedents_rsn M c (neg p) pre post s); auto; constructor; auto; constructor; auto|]. intros qs s1 (A1 & K1 & S1 & Q1 & E1).
  assert (F1 : forall l, fls s l -> fls s1 l) by (intros l X; rewrite <- tru_neg in *; apply (ak_tru _ _ _ K1); auto).
  assert (R1 : redPre M s1 T0 stack cl).
  { split; [|split]; auto.
    - constructor; auto; [|rewrite S1; auto]. intros x I. rewrite (ak_lev _ _ _ K1). split; [apply F1|]; apply F; auto.
    - intros x I. rewrite (ak_rsn _ _ K1). split; [apply F1|]; apply St; right; auto. }
  apply wp_bind. eapply wp_mono; [apply (redLits_ok M T0 abs qs stack cl s1 R1)|].
  { intros q Iq. apply F1. apply (fls_in _ _ _ _ A). rewrite Et. apply in_or_app; auto. }
  intros [[st' cl']|] s2 (K2 & X); [|apply wp_ret; split; [eapply ak_trans; eauto|auto]]. destruct X as (R2 & I2 & I3 & H4 & H5).
  eapply wp_mono; [apply (IH abs st' cl' s2 R2)|].
  - intros x Ix. assert (Y : In x (q0 :: cl) \/ In x st') by (destruct Ix as [<-|Ix]; [left; left; auto|destruct (H4 x Ix); auto; left; right; auto]). destruct Y as [Y|Y]; auto.
    destruct (H x Y) as [[<-|Z]|Z]; [|left; auto|].
    + right. exists pre, post, qs. rewrite (ak_trail _ _ K2), (ak_trail _ _ K1). split; auto. split; [intros a Ma Ap; destruct (E1 a Ma) as [Z|Z]; auto; rewrite alit_neg, Ap in Z; discriminate|]. intros y Iy. split; auto.
    + right. apply (just_mono M s s2 (T0 ++ cl)); [eapply ak_trans; eauto| |exact Z]. intros y Iy. apply in_app_iff in Iy as [Iy|Iy]; apply in_or_app; auto.
  - intros [cl2|] s3 (K3 & Z); (split; [eapply ak_trans; [exact K1|eapply ak_trans; [exact K2|exact K3]]|auto]).
Qed.
Inductive sub {A} : list A -> list A -> Prop := sub_nil : sub [] [] | sub_keep : forall x l m, sub l m -> sub (x :: l) (x :: m) | sub_drop : forall x l m, sub l m -> sub l (x :: m).
Lemma sub_refl : forall {A} (l : list A), sub l l. Proof. induction l; constructor; auto. Qed.
Lemma sub_incl : forall {A} (l m : list A), sub l m -> incl l m.
Proof. induction 1; [apply incl_refl| |apply incl_tl; auto]. intros y [<-|I]; [left; auto|right; auto]. Qed.
Lemma sub_nodup : forall {A B} (f : A -> B) (l m : list A), sub l m -> NoDup (map f m) -> NoDup (map f l).
Proof.
  induction 1; intros N; auto; cbn in N; inversion N; subst; auto. cbn. constructor; auto. intros X. apply in_map_iff in X as (y & E & I). apply H2. apply in_map_iff. exists y; split; auto. apply (sub_incl _ _ H); auto.
Qed.
Lemma sub_filter : forall {A} (f : A -> bool) l, sub (filter f l) l.
Proof. induction l; cbn; [constructor|]. destruct (f a); constructor; auto. Qed.
Lemma sub_trans : forall {A} (l m k : list A), sub l m -> sub m k -> sub l k.
Proof. intros A l m k H1 H2. revert l H1. induction H2; intros l' H1; auto; [inversion H1; subst; constructor; auto|constructor; auto]. Qed.
(** the state of the removal: [r] is the rest, [kept] what stays of the literals before it, [T] all marked ones *)
Lemma minDeep_ok : forall M n abs r kept cl T s, DI M s (T ++ cl) -> incl r T -> (forall x, In x (T ++ cl) -> In x kept \/ In x r \/ Just M s (T ++ cl) x) ->
  wp (minDeep n abs r kept cl) s (fun x s' => Akeep s s' /\ DI M s' (T ++ snd x) /\ (exists k, fst x = kept ++ k /\ sub k r) /\ forall y, In y (T ++ snd x) -> In y (fst x) \/ Just M s' (T ++ snd x) y).
Proof.
  intros M n abs r. induction r as [|q r IH]; intros kept cl T s D Ir H.
  { apply wp_ret. split; [apply ak_refl|]. split; auto. split; [exists []; cbn; rewrite app_nil_r; split; auto; constructor|]. intros y Y. destruct (H y Y) as [|[[]|]]; auto. }
  assert (Iq : In q T) by (apply Ir; left; auto). assert (Ir' : incl r T) by (intros x I; apply Ir; right; auto).
  assert (Keep : forall s1, Akeep s s1 -> DI M s1 (T ++ cl) -> wp (minDeep n abs r (kept ++ [q]) cl) s1 (fun x s' => Akeep s s' /\ DI M s' (T ++ snd x) /\ (exists k, fst x = kept ++ k /\ sub k (q :: r)) /\ forall y, In y (T ++ snd x) -> In y (fst x) \/ Just M s' (T ++ snd x) y)).
  { intros s1 K1 D1. eapply wp_mono; [apply (IH (kept ++ [q]) cl T s1); auto|].
    - intros x I. destruct (H x I) as [X|[[<-|X]|X]]; [left; apply in_or_app; auto|left; apply in_or_app; right; left; auto|auto|]. right; right. eapply just_mono; eauto. apply incl_refl.
    - intros x s' (K & D' & (k & Ek & Sk) & J). split; [eapply ak_trans; eauto|]. split; auto. split; auto. exists (q :: k). split; [rewrite Ek, <- app_assoc; auto|constructor; auto]. }
  cbn [minDeep]. unfold wp; cbv beta. destruct (rsn s (fst q)) as [c|] eqn:Rq; [|apply (Keep s); auto; apply ak_refl].
  pose proof D as [A F S].
  apply wp_bind. eapply wp_mono; [apply (redLoop_ok M (T ++ cl) q n abs [q] [] s)|].
  - split; [rewrite app_nil_r; auto|]. split; [intros x y _ []|]. intros x [<-|[]]. split; [apply F; apply in_or_app; auto|congruence].
  - intros x [<-|[]]. left; left; auto.
  - intros [cl'|] s1 (K1 & X); [|apply (Keep s1); auto]. destruct X as (D1 & J1).
    assert (D1' : DI M s1 (T ++ cl ++ cl')) by (rewrite app_assoc; auto).
    eapply wp_mono; [apply (IH kept (cl ++ cl') T s1); auto|].
    + intros x I. rewrite app_assoc in I |- *. apply in_app_iff in I as [I|I]; [|right; right; apply J1; right; auto].
      destruct (H x I) as [X|[[<-|X]|X]]; auto; [right; right; apply J1; left; auto|]. right; right. eapply just_mono; eauto. apply incl_appl, incl_refl.
    + intros x s' (K & D' & (k & Ek & Sk) & J). split; [eapply ak_trans; eauto|]. split; auto. split; auto. exists k. split; auto. constructor; auto.
Qed.
Lemma minBasic_just : forall M s r, DI M s r -> (forall c, c_atm (db s c) = false) -> forall x, In x r -> In x (minBasic s r) \/ Just M s r x.
Proof.
  intros M s r D NA x I. pose proof D as [[[A W En] P] F S]. unfold minBasic. rewrite filter_In. destruct (rsn s (fst x)) as [c|] eqn:R; [|auto].
  destruct (existsb _ _) eqn:E; [auto|]. right. assert (Fx : fls s x) by (apply F; auto). destruct (in_split (neg x) (trail s)) as (pre & post & Et); [apply (fls_in _ _ _ _ A); auto|].
  destruct (as_rsn _ _ _ A _ _ _ _ Et R) as (R1 & R2 & R3). rewrite NA in R3. destruct R3 as (R3 & R4 & R5 & R6).
  exists pre, post, (filter (fun l => negb (slit_eqb l (neg x))) (c_lits (db s c))). split; auto. split.
  - intros a Ma Ax. specialize (R2 a Ma). unfold csat in R2. rewrite NA in R2. destruct R2 as (y & Iy & Ay). exists y. split; auto. apply filter_In. split; auto. destruct (slit_eqb y (neg x)) eqn:Y; auto.
    apply slit_eqb_eq in Y. subst y. rewrite alit_neg, Ax in Ay. discriminate.
  - intros y Iy. apply filter_In in Iy as [Iy Ny]. assert (y <> neg x) by (intros ->; rewrite slit_eqb_refl in Ny; discriminate). destruct (R4 y Iy) as [X|X]; [congruence|]. split; auto.
    assert (Fy : fls s y) by (apply (fls_in _ _ _ _ A); rewrite Et; apply in_or_app; auto).
    destruct (Nat.eq_dec (lev s y) 0); auto. right. eapply di_in; eauto.
    assert (In y (if length (c_lits (db s c)) =? 2 then c_lits (db s c) else skipn 1 (c_lits (db s c)))).
    { destruct (Nat.eqb_spec (length (c_lits (db s c))) 2); auto. destruct (c_lits (db s c)) as [|z [|z2 zs]] eqn:Ez; [destruct Iy|destruct Iy as [<-|[]]; destruct R3 as [R3|[]]; congruence|]. cbn in R5. assert (z = neg x) by (apply R5; cbn in n0; lia). destruct Iy as [<-|Iy]; [congruence|]. auto. }
    destruct (seen s (fst y)) eqn:Sy; auto. exfalso. assert (X2 : existsb (fun l => negb (seen s (fst l)) && (0 <? lev s l)) (if length (c_lits (db s c)) =? 2 then c_lits (db s c) else skipn 1 (c_lits (db s c))) = true).
    { apply existsb_exists. exists y. split; auto. rewrite Sy. cbn [negb andb]. apply Nat.ltb_lt. lia. }
    cbv zeta in E. rewrite E in X2. discriminate.
Qed.
Lemma minBinary_ok : forall M s l r, AI M s -> (forall q, In q r -> fls s q) -> (forall a, M a -> exists q, In q (l :: r) /\ alit a q = true) ->
  exists k, minBinary s (l :: r) = l :: k /\ sub k r /\ forall a, M a -> exists q, In q (l :: k) /\ alit a q = true.
Proof.
  intros M s l r [[A W En] P] Fr H. eexists. split; [reflexivity|]. split; [apply sub_filter|]. intros a Ma. destruct (H a Ma) as (q & [<-|I] & Aq); [exists l; split; auto; left; auto|].
  destruct (existsb (fun e => (fst (snd e) =? fst q) && isT s (snd e)) (wbin s (neg l))) eqn:E.
  - apply existsb_exists in E as ([c i] & Ie & Ee). cbn [fst snd] in Ee. apply andb_true_iff in Ee as [E1 E2]. apply Nat.eqb_eq in E1. apply isT_tru in E2.
    destruct (bin_lits s (neg l) c i W Ie) as (Ic & At & Ls). rewrite neg_neg in Ls. pose proof (En c Ic a Ma) as C. unfold csat in C. rewrite At in C. destruct C as (y & Iy & Ay).
    assert (Y : y = l \/ y = i) by (destruct Ls as [-> | ->] in Iy; destruct Iy as [<-|[<-|[]]]; auto). destruct Y; subst y; [exists l; split; auto; left; auto|].
    exfalso. destruct (same_var _ _ E1); subst; [eapply tru_fls; eauto|]. rewrite alit_neg, Aq in Ay. discriminate.
  - exists q. split; auto. right. apply filter_In. split; auto. rewrite E. auto.
Qed.
Lemma maxPos_ok : forall s ls pre best, 1 <= best < length pre -> let out := pre ++ ls in let at_ := fun j => lev s (nth j out (0, false)) in
  (forall j, 1 <= j < length pre -> at_ j <= at_ best) -> let k := maxPos s ls (length pre) best (at_ best) in 1 <= k < length out /\ forall j, 1 <= j < length out -> at_ j <= at_ k.
Proof.
  intros s ls. induction ls as [|l ls IH]; intros pre best B out at_ H; cbn [maxPos].
  { unfold out. rewrite app_length. cbn. rewrite Nat.add_0_r. auto. }
  assert (El : at_ (length pre) = lev s l) by (unfold at_, out; rewrite app_nth2, Nat.sub_diag by lia; auto).
  assert (Lp : length (pre ++ [l]) = S (length pre)) by (rewrite app_length; cbn; lia). rewrite <- Lp.
  specialize (IH (pre ++ [l])). cbv zeta in IH. rewrite <- app_assoc in IH. cbn [app] in IH. fold out in IH.
  destruct (Nat.ltb_spec (at_ best) (lev s l)) as [L|L].
  - rewrite <- El. apply (IH (length pre)); [lia|]. intros j J. destruct (Nat.eq_dec j (length pre)) as [->|]; auto. fold (at_ j) (at_ (length pre)). specialize (H j). lia.
  - apply (IH best); [lia|]. intros j J. destruct (Nat.eq_dec j (length pre)) as [->|]; [fold (at_ (length pre)); fold (at_ best); lia|]. apply H. lia.
Qed.
Lemma toSecond_ok : forall s l r, let x := toSecond s (l :: r) in exists r', fst x = l :: r' /\ Permutation r' r /\ match r' with [] => snd x = 0 | m :: _ => snd x = lev s m /\ forall q, In q r' -> lev s q <= lev s m end.
Proof.
  intros s l [|m r] x; subst x; cbn [toSecond]; [exists []; auto|]. cbn [fst snd].
  pose proof (maxPos_ok s r [l; m] 1) as H. cbn [length app] in H. destruct H as [K1 K2]; [lia|intros j J; replace j with 1 by lia; apply Nat.le_refl|]. cbn [nth] in K1, K2.
  set (k := maxPos s r 2 1 (lev s m)) in *. set (out := l :: m :: r) in *.
  assert (P : Permutation (swapn out 1 k) out) by (apply swapn_perm; cbn; unfold slit in *; lia).
  assert (E0 : nth 0 (swapn out 1 k) (0, false) = l). { unfold swapn. rewrite nth_setn by (rewrite setn_length; cbn; unfold slit in *; lia). destruct (Nat.eqb_spec 0 k); [lia|]. reflexivity. }
  assert (E1 : nth 1 (swapn out 1 k) (0, false) = nth k out (0, false)).
  { unfold swapn. rewrite nth_setn by (rewrite setn_length; cbn; unfold slit in *; lia). destruct (Nat.eqb_spec 1 k) as [<-|]; auto. }
  destruct (swapn out 1 k) as [|l' [|m' r']] eqn:Es; [apply Permutation_length in P; discriminate|apply Permutation_length in P; cbn in P; discriminate|]. cbn in E0, E1. subst l'. exists (m' :: r'). split; auto. assert (P' : Permutation (m' :: r') (m :: r)) by (eapply Permutation_cons_inv; exact P). split; auto.
  split; [rewrite E1; reflexivity|]. intros q Iq. assert (I' : In q (m :: r)) by (eapply Permutation_in; [exact P'|exact Iq]). rewrite E1.
  destruct (In_nth _ _ (0, false) I') as (j & J1 & J2). rewrite <- J2. apply (K2 (S j)). cbn in J1. cbn. unfold slit in *. lia.
Qed.

(** the outcome of the analysis of a conflict: the learnt clause and the level to go back to *)
Definition learntPost M s (x : list slit * nat) s' :=
  AI M s' /\ Akeep s s' /\ (forall v, seen s' v = false) /\ exists l r, fst x = l :: r /\ fls s' l /\ lev s' l = dl s' /\ NoDup (map fst (l :: r)) /\
  (forall q, In q r -> fls s' q /\ 0 < lev s' q < dl s') /\ (forall a, M a -> exists q, In q (l :: r) /\ alit a q = true) /\
  match r with [] => snd x = 0 | m :: _ => snd x = lev s' m /\ forall q, In q r -> lev s' q <= lev s' m end.
Section Min.
Variables (o : oracle) (cm : clauseMin).
Lemma simplifyClause_ok : forall M n p out s s0, anaPost M s0 (p, out) s -> (cm = MinBasic -> forall c, c_atm (db s c) = false) ->
  wp (simplifyClause o cm n (neg p :: out)) s (learntPost M s).
Proof.
  intros M n p out s s0 (A0 & K0 & Ip & Lp & Ho & Hs & Nd & En0) NA. cbn [fst snd] in *. pose proof A0 as [[A W En] P].
  assert (D0 : DI M s out). { constructor; auto; [intros x I; destruct (Ho x I) as (X1 & X2 & X3); split; auto; lia|]. intros v. split; [apply Hs|]. intros (x & I & <-). apply Ho; auto. }
  assert (Fp : fls s (neg p)) by (apply fls_neg, (as_val _ _ _ A); auto).
  unfold simplifyClause. apply wp_bind.
  apply wp_mono with (Q := fun (x : list slit * list slit) s1 => Akeep s s1 /\ exists k cl, x = (neg p :: k, (neg p :: out) ++ cl) /\ DI M s1 (out ++ cl) /\ sub k out /\ (forall a, M a -> exists q, In q (neg p :: k) /\ alit a q = true)).
  { assert (Triv : Akeep s s /\ exists k cl, (neg p :: out, neg p :: out) = (neg p :: k, (neg p :: out) ++ cl) /\ DI M s (out ++ cl) /\ sub k out /\ (forall a, M a -> exists q, In q (neg p :: k) /\ alit a q = true)).
    { split; [apply ak_refl|]. exists out, []. rewrite !app_nil_r. split; auto. split; auto. split; auto. apply sub_refl. }
    assert (Jall : forall s1 T k, DI M s1 T -> incl out T -> (forall y, In y T -> In y k \/ Just M s1 T y) -> forall a, M a -> exists q, In q (neg p :: k) /\ alit a q = true).
    { intros s1 T k D I J a Ma. destruct (existsb (alit a) (neg p :: k)) eqn:X; [apply existsb_exists in X; auto|]. exfalso.
      assert (Y : forall x, In x (neg p :: k) -> alit a x = false). { intros x Ix. destruct (alit a x) eqn:Ax; auto. rewrite <- X. symmetry. apply existsb_exists. exists x; auto. }
      destruct (En0 a Ma) as (q & [<-|Iq] & Aq); [rewrite Y in Aq; [discriminate|left; auto]|]. rewrite (just_all M s1 T k a D J Ma) in Aq; [discriminate| |auto]. intros x Ix; apply Y; right; auto. }
    destruct cm eqn:Ecm; unfold wp; cbv beta.
    - exact Triv.
    - split; [apply ak_refl|]. exists (minBasic s out), []. rewrite !app_nil_r. split; auto. split; auto. split; [apply sub_filter|]. apply (Jall s out); auto; [apply incl_refl|]. apply minBasic_just; auto.
    - apply wp_bind. eapply wp_mono; [apply (minDeep_ok M n _ out [] [] out s); [rewrite app_nil_r; auto|apply incl_refl|rewrite app_nil_r; auto]|].
      intros [kk cl] s1 (K1 & D1 & (k & Ek & Sk) & J1). cbn [fst snd app] in *. subst kk. apply wp_ret. split; auto. exists k, cl. split; auto. split; auto. split; auto. apply (Jall s1 (out ++ cl)); auto. apply incl_appl, incl_refl. }
  intros x s1 (K1 & k & cl & -> & D1 & Sk & E1). apply wp_bind. unfold ask, wp; cbv beta. cbn [fst snd].
  set (s2 := with_tick (S (tick s1)) s1). assert (D2 : DI M s2 (out ++ cl)) by (apply di_ak_tick; auto). assert (K2 : Akeep s s2) by (eapply ak_trans; [exact K1|apply ak_tick]).
  assert (F2 : forall l, fls s2 l <-> fls s l) by (intros l; rewrite <- !tru_neg; apply ak_tru; auto).
  set (o2 := if o_bin o (tick s1) then minBinary s2 (neg p :: k) else neg p :: k).
  assert (O2 : exists k2, o2 = neg p :: k2 /\ sub k2 out /\ forall a, M a -> exists q, In q (neg p :: k2) /\ alit a q = true).
  { unfold o2. destruct (o_bin o (tick s1)); [|exists k; auto]. destruct (minBinary_ok M s2 (neg p) k (di_ai _ _ _ D2)) as (k2 & X1 & X2 & X3); auto.
    - intros q Iq. apply F2. apply Ho. apply (sub_incl _ _ Sk); auto.
    - exists k2. split; auto. split; auto. eapply sub_trans; eauto. }
  destruct O2 as (k2 & -> & Sk2 & E2). pose proof (toSecond_ok s2 (neg p) k2) as T. cbv zeta in T. destruct (toSecond s2 (neg p :: k2)) as [o3 bt]. destruct T as (r & Er & Pr & Br). cbn [fst snd] in Er, Br. subst o3.
  destruct (clr_ok ((neg p :: out) ++ cl) s2) as (f & Ef & F). match goal with |- context [fold_left ?g ?l s2] => replace (fold_left g l s2) with (with_seen f s2) by (symmetry; exact Ef) end.
  set (s3 := with_seen f s2). assert (K3 : Akeep s s3) by (eapply ak_trans; [exact K2|apply ak_seen]).
  assert (F3 : forall l, fls s3 l <-> fls s l) by (intros l; rewrite <- !tru_neg; apply ak_tru; auto).
  assert (I3 : forall q, In q r -> In q out) by (intros q Iq; apply (sub_incl _ _ Sk2); eapply Permutation_in; eauto).
  split; [apply ai_seen, D2|]. split; auto. split.
  - intros v. change (seen s3 v) with (f v). destruct (f v) eqn:Fv; auto. exfalso. apply F in Fv as [X1 X2]. apply X2. apply (di_seen _ _ _ D2) in X1 as (x & Ix & Ex). exists x. split; auto. right; auto.
  - exists (neg p), r. split; auto. rewrite (ak_lev _ _ _ K3), (ak_dl _ _ K3). split; [apply F3; auto|]. split; auto. split; [|split; [|split]].
    + cbn. constructor.
      * intros X. apply in_map_iff in X as (q & Eq & Iq). destruct (Ho q (I3 q Iq)) as (_ & X & _). unfold lev in *. rewrite Eq in X. cbn in X. unfold lev in Lp. lia.
      * eapply Permutation_NoDup; [apply Permutation_map; symmetry; exact Pr|]. eapply sub_nodup; eauto.
    + intros q Iq. rewrite (ak_lev _ _ _ K3). destruct (Ho q (I3 q Iq)) as (X1 & X2 & _). split; auto. apply F3; auto.
    + intros a Ma. destruct (E2 a Ma) as (q & [<-|Iq] & Aq); [exists (neg p); split; auto; left; auto|]. exists q. split; auto. right. eapply Permutation_in; [symmetry; exact Pr|auto].
    + exact Br.
Qed.
Lemma analyze_ok : forall M n c s, AI M s -> 0 < dl s -> conflOK s c -> (forall v, seen s v = false) -> (cm = MinBasic -> forall c, c_atm (db s c) = false) -> wp (analyze o cm n c) s (learntPost M s).
Proof.
  intros M n c s A D C Sn NA. unfold analyze. apply wp_bind. eapply wp_mono; [apply (analyzeLoop_ok M n c true (length (trail s)) 0 [] s)|].
  - eapply wp_mono; [apply (antecedents_confl M c s A C)|]. intros qs s1 (-> & Q1 & Q2 & q & Q3 & Q4). pose proof A as [[Aa W En] P]. split; [|split; [apply ak_refl|split; [|split; [|split]]]].
    + constructor; auto; [intros v X; congruence|intros q' []|constructor].
    + unfold cnt. rewrite filter_none; auto. intros x _. rewrite Sn. auto.
    + intros q' I. rewrite firstn_all. apply (fls_in _ _ _ _ Aa); auto.
    + intros a Ma. right; right. auto.
    + right. exists q. split; auto. lia.
  - intros [p out] s1 X. cbn [fst snd]. pose proof X as (_ & K & _). eapply wp_mono; [apply (simplifyClause_ok M n p out s1 s X)|].
    + intros E c'. destruct (ak_db _ _ K c') as (_ & Y & _). rewrite <- Y. apply NA; auto.
    + intros x s' (Y1 & Y2 & Y3). split; auto. split; [eapply ak_trans; eauto|auto].
Qed.
End Min.
