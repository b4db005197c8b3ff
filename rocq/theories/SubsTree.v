(** * The subset tree of the subsumption: every set that is kept, none that is not *)
From Coq Require Import List Bool NArith Lia Sorted.
From Verif Require Import Spec Factory FactoryProofs Assign NormalForm Simplify.
Import ListNotations.
Local Open Scope N_scope.

Definition flt (f g : formula) : Prop := fid f < fid g.
Definition asc (l : list formula) : Prop := StronglySorted flt l.
Definition sets (forest : list ubnode) : list (list formula) := flat_map ubSets forest.

Section Tree.
Context (U : formula -> Prop) (HU : forall x y, U x -> U y -> fid x = fid y -> x = y).

Fixpoint okN (pre : list formula) (n : ubnode) : Prop :=
  match n with
  | UB e x c =>
    U e /\ match x with Some l => l = pre ++ [e] | None => True end /\ asc (map ubElem c) /\
    (fix all (l : list ubnode) : Prop := match l with [] => True | m :: r => okN (pre ++ [e]) m /\ all r end) c
  end.
Definition okF (pre : list formula) (l : list ubnode) : Prop := asc (map ubElem l) /\ Forall (okN pre) l.
Lemma okN_eq pre e x c : okN pre (UB e x c) <-> U e /\ match x with Some l => l = pre ++ [e] | None => True end /\ okF (pre ++ [e]) c.
Proof.
  simpl. unfold okF.
  assert (G : forall l, (fix all (l : list ubnode) : Prop := match l with [] => True | m :: r => okN (pre ++ [e]) m /\ all r end) l <-> Forall (okN (pre ++ [e])) l).
  { induction l; [split; auto|]. rewrite IHl. split; [intros [A B]; constructor; auto|inversion 1; auto]. }
  rewrite G. tauto.
Qed.

Section UbInd.
Context (P : ubnode -> Prop) (H : forall e x c, Forall P c -> P (UB e x c)).
Fixpoint ub_ind (n : ubnode) : P n :=
  match n with
  | UB e x c => H e x c ((fix go (l : list ubnode) : Forall P l := match l with [] => Forall_nil P | m :: r => Forall_cons m (ub_ind m) (go r) end) c)
  end.
End UbInd.

Lemma sets_prefix : forall n pre, okN pre n -> forall l, In l (ubSets n) -> exists r, l = pre ++ ubElem n :: r /\ Forall U (ubElem n :: r).
Proof.
  induction n as [e x c IH] using ub_ind. intros pre H l Hl. apply okN_eq in H. destruct H as (Ue & Hx & _ & Hc). simpl in *. apply in_app_iff in Hl. destruct Hl as [Hl|Hl].
  - destruct x as [y|]; [|destruct Hl]. destruct Hl as [<-|[]]. exists []. split; auto.
  - apply in_flat_map in Hl. destruct Hl as (m & Hm & Hl). rewrite Forall_forall in IH, Hc. destruct (IH m Hm _ (Hc m Hm) l Hl) as (r & -> & Hr).
    exists (ubElem m :: r). rewrite <- app_assoc. split; auto.
Qed.
Lemma NoDup_app {A} (l m : list A) : NoDup l -> NoDup m -> (forall x, In x l -> ~ In x m) -> NoDup (l ++ m).
Proof. induction 1; simpl; intros Hm Hd; auto. constructor; [rewrite in_app_iff; intros [?|?]; [auto|eapply Hd; eauto]|apply IHNoDup; auto]. Qed.
Lemma asc_cons_lt e l : asc (e :: l) -> forall x, In x l -> fid e < fid x.
Proof. intros H x Hx. inversion H; subst. rewrite Forall_forall in *. apply H3; auto. Qed.
Lemma sets_NoDup_F : forall l pre, Forall (fun n => forall pre, okN pre n -> NoDup (ubSets n)) l -> okF pre l -> NoDup (sets l).
Proof.
  induction l as [|n l IH]; intros pre HF [Ha Ho]; simpl; [constructor|]. inversion HF; subst. inversion Ho; subst. simpl in Ha.
  apply NoDup_app; eauto.
  - apply (IH pre); auto. split; auto. inversion Ha; auto.
  - intros x Hx Hx2. apply in_flat_map in Hx2. destruct Hx2 as (m & Hm & Hx2). rewrite Forall_forall in H4.
    destruct (sets_prefix _ _ H3 _ Hx) as (r & -> & _). destruct (sets_prefix _ _ (H4 m Hm) _ Hx2) as (r' & E & _).
    apply app_inv_head in E. inversion E. pose proof (asc_cons_lt _ _ Ha (ubElem m) (in_map _ _ _ Hm)). rewrite H0 in H. lia.
Qed.
Lemma sets_NoDup_N : forall n pre, okN pre n -> NoDup (ubSets n).
Proof.
  induction n as [e x c IH] using ub_ind. intros pre H. apply okN_eq in H. destruct H as (Ue & Hx & Hc). simpl.
  apply NoDup_app.
  - destruct x; repeat constructor; auto.
  - apply (sets_NoDup_F c (pre ++ [e])); auto.
  - intros l Hl Hl2. destruct x as [y|]; [|destruct Hl]. destruct Hl as [<-|[]]. apply in_flat_map in Hl2. destruct Hl2 as (m & Hm & Hl).
    destruct Hc as [_ Hc]. rewrite Forall_forall in Hc. destruct (sets_prefix _ _ (Hc m Hm) _ Hl) as (r & E & _). rewrite Hx in E.
    rewrite <- (app_nil_r (pre ++ [e])) in E at 1. apply app_inv_head in E. discriminate.
Qed.
Lemma sets_NoDup pre l : okF pre l -> NoDup (sets l).
Proof. intros H. apply (sets_NoDup_F l pre); auto. apply Forall_forall. intros n _ p. apply sets_NoDup_N. Qed.

(** ** Adding a set *)
Definition ubIns (full : list formula) (e : formula) (r : list formula) : list ubnode -> list ubnode :=
  let reach n := UB e (match r with [] => Some full | _ => ubEnd n end) (ubAdd full r (ubKids n)) in
  fix ins (l : list ubnode) : list ubnode :=
    match l with
    | [] => [reach (UB e None [])]
    | n :: l' => if fid e =? fid (ubElem n) then reach n :: l'
                 else if fid e <? fid (ubElem n) then reach (UB e None []) :: l
                 else n :: ins l'
    end.
Lemma ubAdd_cons full e r forest : ubAdd full (e :: r) forest = ubIns full e r forest.
Proof. reflexivity. Qed.

Lemma ubAdd_ok : forall set pre forest, Forall U set -> okF pre forest -> let full := pre ++ set in
  okF pre (ubAdd full set forest) /\ (forall l, In l (sets (ubAdd full set forest)) <-> (set <> [] /\ l = full) \/ In l (sets forest)).
Proof.
  induction set as [|e r IH]; intros pre forest HUs Ho full.
  - simpl. split; auto. intros l. intuition congruence.
  - rewrite ubAdd_cons. inversion HUs as [|? ? Ue Ur]; subst.
    set (reach := fun n => UB e (match r with [] => Some full | _ => ubEnd n end) (ubAdd full r (ubKids n))).
    assert (R : forall n, okN pre n -> ubElem n = e -> okN pre (reach n) /\ forall l, In l (ubSets (reach n)) <-> l = full \/ In l (ubSets n)).
    { intros [e' x c] Hn He. simpl in He. subst e'. apply okN_eq in Hn. destruct Hn as (_ & Hx & Hc). unfold reach. cbn [ubEnd ubKids].
      destruct (IH (pre ++ [e]) c Ur Hc) as [A B]. rewrite <- app_assoc in A, B. simpl in A, B. fold full in A, B. split.
      - apply okN_eq. split; auto. split; auto. destruct r; auto.
      - intros l. simpl. rewrite in_app_iff. fold (sets (ubAdd full r c)). fold (sets c). rewrite B, in_app_iff. destruct r as [|e' r'].
        + simpl. destruct x as [y|]; simpl; [|intuition]. unfold full. rewrite Hx. intuition.
        + destruct x as [y|]; simpl; (split; [intros [Hl|Hl]; [auto|destruct Hl as [[_ Hl]|Hl]; auto]|intros [Hl|Hl]; [right; left; split; [discriminate|auto]|destruct Hl; auto]]). }
    assert (Nu : okN pre (UB e None [])).
    { apply okN_eq. split; auto. split; auto. split; constructor. }
    assert (R0 : forall l, In l (ubSets (reach (UB e None []))) <-> l = full).
    { intros l. destruct (R (UB e None []) Nu eq_refl) as [_ B]. rewrite B. simpl. tauto. }
    assert (G : okF pre (ubIns full e r forest) /\ (forall l, In l (sets (ubIns full e r forest)) <-> l = full \/ In l (sets forest)) /\
                forall y, In y (map ubElem (ubIns full e r forest)) -> y = e \/ In y (map ubElem forest)).
    { assert (E0 : ubIns full e r [] = [reach (UB e None [])]) by reflexivity.
      assert (E1 : forall n l, ubIns full e r (n :: l) = if fid e =? fid (ubElem n) then reach n :: l else if fid e <? fid (ubElem n) then reach (UB e None []) :: n :: l else n :: ubIns full e r l) by reflexivity.
      assert (Er : forall n, ubElem (reach n) = e) by reflexivity. clearbody reach.
      destruct Ho as [Ha Ho]. induction forest as [|n l IHl]; rewrite ?E0, ?E1.
      - split; [split|split].
        + cbn [map]. rewrite Er. repeat constructor.
        + constructor; auto. apply R; auto.
        + intros l. unfold sets. cbn [flat_map]. rewrite app_nil_r, R0. simpl. tauto.
        + cbn [map]. rewrite Er. simpl. intuition.
      - inversion Ho as [|? ? Hn Hl]; subst. simpl in Ha.
        assert (Ha' : asc (map ubElem l)) by (inversion Ha; auto). destruct (IHl Ha' Hl) as ([A1 A2] & B & C).
        destruct (N.eqb_spec (fid e) (fid (ubElem n))) as [E|E].
        + assert (ubElem n = e) by (symmetry; apply HU; auto; destruct n; simpl; apply okN_eq in Hn; tauto).
          destruct (R n Hn H) as [R1 R2]. split; [split; [cbn [map]; rewrite Er, <- H; exact Ha|constructor; auto]|]. split.
          * intros x. unfold sets. cbn [flat_map]. rewrite !in_app_iff, R2. tauto.
          * cbn [map]. rewrite Er. intros y [<-|Hy]; simpl; auto.
        + destruct (N.ltb_spec (fid e) (fid (ubElem n))) as [L|L].
          * split; [split|split].
            -- cbn [map]. rewrite Er. constructor; auto. constructor; auto. apply Forall_forall. intros y Hy. pose proof (asc_cons_lt _ _ Ha y Hy). unfold flt. lia.
            -- constructor; auto. apply R; auto.
            -- intros x. unfold sets. cbn [flat_map]. rewrite !in_app_iff, R0. tauto.
            -- cbn [map]. rewrite Er. simpl. intuition.
          * split; [split|split].
            -- simpl. constructor; auto. apply Forall_forall. intros y Hy. apply C in Hy. unfold flt. destruct Hy as [-> |Hy]; [lia|].
               apply (asc_cons_lt _ _ Ha y Hy).
            -- constructor; auto.
            -- intros x. unfold sets in *. cbn [flat_map]. rewrite !in_app_iff, B. tauto.
            -- simpl. intros y [<-|Hy]; auto. apply C in Hy. tauto. }
    destruct G as (G1 & G2 & _). split; auto. intros l. rewrite G2. intuition discriminate.
Qed.

(** ** Looking for a subset *)
Definition ubGo (rest : list formula) (forest : list ubnode) : list formula -> option (list formula) :=
  fix go (es : list formula) : option (list formula) :=
    match es with
    | [] => None
    | e :: es' =>
      match find (fun n => fid e =? fid (ubElem n)) forest with
      | None => go es'
      | Some n =>
        match ubEnd n with
        | Some x => Some x
        | None => match ubFirst rest (ubKids n) with Some x => Some x | None => go es' end
        end
      end
    end.
Lemma ubFirst_cons e rest forest : ubFirst (e :: rest) forest = ubGo rest forest (e :: rest).
Proof. reflexivity. Qed.

Lemma ubFirst_sound : forall set pre forest l, Forall U set -> okF pre forest -> ubFirst set forest = Some l -> In l (sets forest) /\ incl l (pre ++ set).
Proof.
  induction set as [|a rest IH]; intros pre forest l HUs Ho H; [discriminate|]. rewrite ubFirst_cons in H.
  assert (Ur : Forall U rest) by (inversion HUs; auto).
  assert (G : forall es, incl es (a :: rest) -> ubGo rest forest es = Some l -> In l (sets forest) /\ incl l (pre ++ a :: rest)).
  { induction es as [|e es IHe]; intros Hi Hg; simpl in Hg; [discriminate|].
    assert (Hi' : incl es (a :: rest)) by (intros x Hx; apply Hi; simpl; auto).
    destruct (find _ forest) as [n|] eqn:Ef; [|auto]. apply find_some in Ef. destruct Ef as [Hn E]. apply N.eqb_eq in E.
    destruct Ho as [_ Ho]. rewrite Forall_forall in Ho. specialize (Ho n Hn). destruct n as [e' x c]. simpl in *. apply okN_eq in Ho. destruct Ho as (Ue & Hx & Hc).
    assert (e' = e) as ->. { symmetry. apply HU; auto. rewrite Forall_forall in HUs. apply HUs, Hi. simpl; auto. }
    destruct x as [y|].
    - inversion Hg; subst. split; [apply in_flat_map; exists (UB e (Some (pre ++ [e])) c); split; auto; simpl; auto|].
      intros z Hz. rewrite in_app_iff in *. destruct Hz as [Hz|[<-|[]]]; auto. right. apply Hi. simpl; auto.
    - destruct (ubFirst rest c) as [y|] eqn:Ey; [|auto]. inversion Hg; subst. destruct (IH (pre ++ [e]) c l Ur Hc Ey) as [A B]. split.
      + apply in_flat_map. exists (UB e None c). split; auto.
      + intros z Hz. apply B in Hz. rewrite !in_app_iff in *. simpl in *. destruct Hz as [[Hz|[<-|[]]]|Hz]; auto. right. apply Hi. simpl; auto. }
  apply (G (a :: rest)); auto. apply incl_refl.
Qed.

Lemma find_elem forest n : asc (map ubElem forest) -> In n forest -> find (fun m => fid (ubElem n) =? fid (ubElem m)) forest = Some n.
Proof.
  induction forest as [|m l IH]; intros Ha Hn; [destruct Hn|]. simpl in *. destruct Hn as [->|Hn]; [rewrite N.eqb_refl; auto|].
  pose proof (asc_cons_lt _ _ Ha (ubElem n) (in_map _ _ _ Hn)). destruct (N.eqb_spec (fid (ubElem n)) (fid (ubElem m))); [lia|]. apply IH; auto. inversion Ha; auto.
Qed.
Lemma ubFirst_complete : forall set pre forest p, Forall U set -> asc set -> okF pre forest -> asc p -> In (pre ++ p) (sets forest) -> incl p set -> p <> [] -> ubFirst set forest <> None.
Proof.
  induction set as [|a rest IH]; intros pre forest p HUs Has Ho Hap Hin Hi Hne; [destruct p; [congruence|elim (Hi f); simpl; auto]|].
  rewrite ubFirst_cons. assert (Ur : Forall U rest) by (inversion HUs; auto).
  destruct p as [|e p]; [congruence|]. apply in_flat_map in Hin. destruct Hin as (n & Hn & Hin). pose proof Ho as [Ha Hof]. rewrite Forall_forall in Hof.
  destruct (sets_prefix _ _ (Hof n Hn) _ Hin) as (r & E & _). apply app_inv_head in E. inversion E; subst.
  assert (Hg : match ubEnd n with Some _ => True | None => ubFirst rest (ubKids n) <> None end).
  { specialize (Hof n Hn). destruct n as [e x c]. cbn [ubElem ubEnd ubKids] in *. destruct x as [y|]; auto. apply okN_eq in Hof. destruct Hof as (Ue & _ & Hc).
    simpl in Hin. apply (IH (pre ++ [e]) c r); auto.
    - inversion Has; auto.
    - inversion Hap; auto.
    - rewrite <- app_assoc. exact Hin.
    - intros z Hz. assert (Hz' : In z (a :: rest)) by (apply Hi; simpl; auto). destruct Hz' as [<-|]; auto.
      pose proof (asc_cons_lt _ _ Hap a Hz). assert (In e (a :: rest)) as [<-|He] by (apply Hi; simpl; auto); [lia|].
      pose proof (asc_cons_lt _ _ Has e He). lia.
    - intros ->. apply in_flat_map in Hin. destruct Hin as (m & Hm & Hin). destruct Hc as [_ Hc]. rewrite Forall_forall in Hc.
      destruct (sets_prefix _ _ (Hc m Hm) _ Hin) as (r & E' & _). rewrite <- (app_nil_r (pre ++ [e])) in E'. rewrite <- !app_assoc in E'. simpl in E'. apply app_inv_head in E'. discriminate. }
  assert (G : forall es, In (ubElem n) es -> ubGo rest forest es <> None).
  { induction es as [|x es IHe]; [intros []|]. intros Hx. cbn [ubGo]. destruct Hx as [->|Hx].
    - rewrite find_elem; auto. destruct (ubEnd n); [discriminate|]. destruct (ubFirst rest (ubKids n)); congruence.
    - specialize (IHe Hx). cbn [ubGo] in IHe. destruct (find _ forest) as [m|]; [|exact IHe]. destruct (ubEnd m); [discriminate|]. destruct (ubFirst rest (ubKids m)); [discriminate|exact IHe]. }
  apply G. apply Hi. simpl; auto.
Qed.

(** ** The loop *)
Record keeps_min (done : list (list formula)) (forest : list ubnode) : Prop := {
  m_ok : okF [] forest;
  m_asc : forall l, In l (sets forest) -> asc l /\ l <> [];
  m_from : forall l, In l (sets forest) -> In l done;
  m_cover : forall x, In x done -> exists l, In l (sets forest) /\ incl l x;
  m_min : forall l l', In l (sets forest) -> In l' (sets forest) -> incl l l' -> l = l' }.

Lemma asc_NoDup l : asc l -> NoDup l.
Proof. induction 1; constructor; auto. rewrite Forall_forall in H0. intros Hin. specialize (H0 _ Hin). unfold flt in H0. lia. Qed.
Lemma asc_same : forall l m, asc l -> asc m -> (forall x, In x l <-> In x m) -> l = m.
Proof.
  induction l as [|a l IH]; intros [|b m] Hl Hm E; auto.
  - destruct (E b) as [_ H]. destruct H; simpl; auto.
  - destruct (E a) as [H _]. destruct H; simpl; auto.
  - assert (a = b).
    { destruct (proj1 (E a) (or_introl eq_refl)) as [|Ha]; auto. destruct (proj2 (E b) (or_introl eq_refl)) as [|Hb]; auto.
      pose proof (asc_cons_lt _ _ Hl b Hb). pose proof (asc_cons_lt _ _ Hm a Ha). lia. }
    subst b. f_equal. apply IH; [inversion Hl; auto|inversion Hm; auto|]. intros x. split; intros Hx.
    + destruct (proj1 (E x) (or_intror Hx)) as [<-|]; auto. pose proof (asc_cons_lt _ _ Hl a Hx). lia.
    + destruct (proj2 (E x) (or_intror Hx)) as [<-|]; auto. pose proof (asc_cons_lt _ _ Hm a Hx). lia.
Qed.
Lemma asc_incl_length l m : asc l -> asc m -> incl l m -> (length m <= length l)%nat -> l = m.
Proof.
  intros Hl Hm Hi Hlen. apply asc_same; auto. intros x. split; [apply Hi|].
  apply (NoDup_length_incl (asc_NoDup _ Hl) Hlen Hi).
Qed.

Lemma min_step done forest set : keeps_min done forest -> Forall U set -> asc set -> set <> [] ->
  (forall x, In x done -> (length x <= length set)%nat) ->
  keeps_min (done ++ [set]) (match ubFirst set forest with Some _ => forest | None => ubAdd set set forest end).
Proof.
  intros [K1 K2 K3 K4 K5] Us As Ne Hlen. destruct (ubFirst set forest) as [l|] eqn:E.
  - destruct (ubFirst_sound set [] forest l Us K1 E) as [A B]. constructor; auto.
    + intros x Hx. apply in_app_iff. auto.
    + intros x Hx. apply in_app_iff in Hx. destruct Hx as [Hx|[<-|[]]]; eauto.
  - destruct (ubAdd_ok set [] forest Us K1) as [A B]. simpl in A, B. constructor; auto.
    + intros l Hl. apply B in Hl. destruct Hl as [[_ ->]|Hl]; auto.
    + intros l Hl. apply B in Hl. rewrite in_app_iff. simpl. destruct Hl as [[_ ->]|Hl]; auto.
    + intros x Hx. apply in_app_iff in Hx. destruct Hx as [Hx|[<-|[]]].
      * destruct (K4 x Hx) as (l & Hl & Hi). exists l. split; auto. apply B. auto.
      * exists set. split; [apply B; auto|apply incl_refl].
    + intros l l' Hl Hl' Hi. apply B in Hl. apply B in Hl'. destruct Hl as [[_ ->]|Hl], Hl' as [[_ ->]|Hl']; auto.
      * destruct (K2 _ Hl') as [Al' _]. apply asc_incl_length; auto.
      * exfalso. destruct (K2 _ Hl) as [Al Nl]. apply (ubFirst_complete set [] forest l); auto.
Qed.

Lemma min_loop : forall todo done forest, keeps_min done forest -> Forall (fun set => Forall U set /\ asc set /\ set <> []) todo ->
  StronglySorted (fun x y => (length x <= length y)%nat) (done ++ todo) ->
  keeps_min (done ++ todo) (fold_left (fun forest set => match ubFirst set forest with Some _ => forest | None => ubAdd set set forest end) todo forest).
Proof.
  induction todo as [|set todo IH]; intros done forest K Ht Hs; simpl; [rewrite app_nil_r; auto|].
  inversion Ht as [|? ? (A & B & C) Ht']; subst. replace (done ++ set :: todo) with ((done ++ [set]) ++ todo) in * by (rewrite <- app_assoc; auto).
  apply IH; auto. apply min_step; auto.
  intros x Hx. rewrite <- app_assoc in Hs. clear -Hs Hx. induction done as [|y done IH]; [destruct Hx|]. simpl in Hs. inversion Hs as [|? ? Hs' Hf]; subst.
  destruct Hx as [->|Hx]; auto. rewrite Forall_forall in Hf. apply Hf. apply in_app_iff. simpl; auto.
Qed.
Lemma min_start : keeps_min [] [].
Proof. constructor; simpl; try (intros; contradiction). split; constructor. Qed.
End Tree.
