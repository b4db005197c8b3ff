(** * Proof framework for the solver on formulas: a factory, a core solver and what stands on it *)
From Coq Require Import String Ascii List Bool Arith ZArith NArith Lia.
From Verif Require Sat SatSpec SatProps.
From Verif Require Import Spec Factory FactoryProofs FactoryProofs2 FactoryProofs3 FactoryApi FactoryProps Assign NormalForm NfBase NfAssign NfEnc NfNnf NfCnf NfFun NfTseitin NfPg NfAig SatApi.
Import ListNotations.

(** the values of the solver variables under an assignment of names *)
Definition view (ns : list string) (b : asg) : nat -> bool := fun i => b (nth i ns EmptyString).
Definition mods (cs : list SatSpec.constr) (ns : list string) (b : asg) : Prop := SatSpec.models cs (view ns b).
Definition clits (c : SatSpec.constr) : list (nat * bool) := match c with SatSpec.SomeOf ls => ls | SatSpec.AtMostOf ls _ => ls end.
Definition inrange (n : nat) (ls : list (nat * bool)) : Prop := forall l, In l ls -> fst l < n.
Definition bounded (n : nat) (cs : list SatSpec.constr) : Prop := forall c, In c cs -> inrange n (clits c).
Definition anyOf (ns : list string) (b : asg) (ls : list (nat * bool)) : Prop := exists l, In l ls /\ SatSpec.lit_true (view ns b) l = true.
Definition defsOK (defs : list (nat * tree)) (b : asg) : Prop := forall p t, In (p, t) defs -> b (pgName p) = eval b t.

Lemma view_app ns l b i : i < length ns -> view (ns ++ l) b i = view ns b i.
Proof. intros H. unfold view. rewrite app_nth1; auto. Qed.
Lemma lit_true_view ns l b p : fst p < length ns -> SatSpec.lit_true (view (ns ++ l) b) p = SatSpec.lit_true (view ns b) p.
Proof. intros H. unfold SatSpec.lit_true. rewrite view_app; auto. Qed.
Lemma anyOf_app ns l b ls : inrange (length ns) ls -> anyOf (ns ++ l) b ls <-> anyOf ns b ls.
Proof.
  intros H. split; intros (p & I & T); exists p; (split; [exact I|]).
  - rewrite lit_true_view in T; auto.
  - rewrite lit_true_view; auto.
Qed.
Lemma holds_view ns l b c : inrange (length ns) (clits c) -> SatSpec.holds (view (ns ++ l) b) c <-> SatSpec.holds (view ns b) c.
Proof.
  intros H. destruct c as [ls|ls k]; simpl in *; [apply (anyOf_app ns l b ls H)|].
  replace (filter (SatSpec.lit_true (view (ns ++ l) b)) ls) with (filter (SatSpec.lit_true (view ns b)) ls); [tauto|].
  apply filter_ext_in. intros p I. symmetry. apply lit_true_view; auto.
Qed.
Lemma mods_app ns l b cs : bounded (length ns) cs -> mods cs (ns ++ l) b <-> mods cs ns b.
Proof. intros H. unfold mods, SatSpec.models. split; intros M c I; specialize (M c I); eapply holds_view; eauto. Qed.
Lemma mods_incl cs cs' ns b : incl cs cs' -> mods cs' ns b -> mods cs ns b.
Proof. intros H M c I. apply M; auto. Qed.
Lemma bounded_app cs n m : n <= m -> bounded n cs -> bounded m cs.
Proof. intros L H c I p Ip. specialize (H c I p Ip). lia. Qed.
Lemma inrange_le n m ls : n <= m -> inrange n ls -> inrange m ls.
Proof. intros L H p Ip. specialize (H p Ip). lia. Qed.
Lemma inrange_app n a b : inrange n (a ++ b) <-> inrange n a /\ inrange n b.
Proof. unfold inrange. split; [intros H; split; intros; apply H, in_or_app; auto|intros [H1 H2] l I; apply in_app_or in I; destruct I; auto]. Qed.
Lemma anyOf_cons ns b a ls : anyOf ns b (a :: ls) <-> SatSpec.lit_true (view ns b) a = true \/ anyOf ns b ls.
Proof. unfold anyOf. simpl. split; [intros (l & [<-|I] & T); eauto|intros [T|(l & I & T)]; eauto]. Qed.
Lemma anyOf_more ns b l r : anyOf ns b (l ++ r) <-> anyOf ns b l \/ anyOf ns b r.
Proof. induction l as [|a l IH]; simpl; [unfold anyOf; firstorder|]. rewrite !anyOf_cons, IH. tauto. Qed.
Lemma anyOf_nil ns b : anyOf ns b [] <-> False.
Proof. unfold anyOf. firstorder. Qed.

(** ** What stands on a solver.  [G] is what the clauses are meant to say, [defs] are the meanings of the subformula variables. *)
Record content (s : state) (V : asg -> Prop) (ns : list string) (cs : list SatSpec.constr) (G : asg -> Prop) (defs : list (nat * tree)) : Prop := {
  ct_nodup : NoDup ns;
  ct_names : forall i x, nth_error ns i = Some x -> x = pgName i \/ ~ freshN s x;
  ct_idx : bounded (length ns) cs;
  ct_defs : forall p t, In (p, t) defs -> nth_error ns p = Some (pgName p) /\ forall x, occurs x t -> ~ freshN s x;
  ct_fun : forall p t u, In (p, t) defs -> In (p, u) defs -> t = u;
  ct_compl : forall b, V b -> defsOK defs b -> G b -> mods cs ns b }.

Definition flagsOK (ns : list string) (cs : list SatSpec.constr) (p : nat) (t : tree) (pos neg : bool) : Prop :=
  forall b, mods cs ns b -> (pos = true -> b (pgName p) = true -> eval b t = true) /\ (neg = true -> b (pgName p) = false -> eval b t = false).
Definition cacheok (s : state) (c : formula -> option (nat * bool * bool)) (ns : list string) (cs : list SatSpec.constr) (defs : list (nat * tree)) (O : list formula) : Prop :=
  forall f p pos neg, c f = Some (p, pos, neg) -> exists t, Den s f t /\ In (p, t) defs /\ (~ In f O -> flagsOK ns cs p t pos neg).

(** extension of what stands on a solver *)
Record grows (V : asg -> Prop) (ns : list string) (cs : list SatSpec.constr) (defs : list (nat * tree))
             (V' : asg -> Prop) (ns' : list string) (cs' : list SatSpec.constr) (defs' : list (nat * tree)) : Prop := {
  gr_V : forall b, V' b -> V b;
  gr_ns : exists l, ns' = ns ++ l;
  gr_cs : incl cs cs';
  gr_defs : incl defs defs';
  gr_idx : bounded (length ns) cs }.
Lemma gr_len V ns cs defs V' ns' cs' defs' : grows V ns cs defs V' ns' cs' defs' -> length ns <= length ns'.
Proof. intros [_ [l ->] _ _ _]. rewrite app_length. lia. Qed.
Lemma gr_mods V ns cs defs V' ns' cs' defs' b : grows V ns cs defs V' ns' cs' defs' -> mods cs' ns' b -> mods cs ns b.
Proof. intros [_ [l ->] I _ B] M. apply (mods_app ns l b cs B). eapply mods_incl; eauto. Qed.
Lemma gr_any V ns cs defs V' ns' cs' defs' b ls : grows V ns cs defs V' ns' cs' defs' -> inrange (length ns) ls -> anyOf ns' b ls <-> anyOf ns b ls.
Proof. intros [_ [l ->] I _ B] M. apply anyOf_app; auto. Qed.
Lemma gr_ok V ns cs defs V' ns' cs' defs' b : grows V ns cs defs V' ns' cs' defs' -> defsOK defs' b -> defsOK defs b.
Proof. intros [_ _ _ I _] M p t H. apply M; auto. Qed.
Lemma gr_refl V ns cs defs : bounded (length ns) cs -> grows V ns cs defs V ns cs defs.
Proof. intros B. constructor; auto; try apply incl_refl. exists []. rewrite app_nil_r; auto. Qed.
Lemma gr_trans V1 n1 c1 d1 V2 n2 c2 d2 V3 n3 c3 d3 : grows V1 n1 c1 d1 V2 n2 c2 d2 -> grows V2 n2 c2 d2 V3 n3 c3 d3 -> grows V1 n1 c1 d1 V3 n3 c3 d3.
Proof.
  intros [A1 [l1 A2] A3 A4 A5] [B1 [l2 B2] B3 B4 B5]. subst. constructor; auto.
  - exists (l1 ++ l2). rewrite app_assoc. auto.
  - eapply incl_tran; eauto.
  - eapply incl_tran; eauto.
Qed.
Lemma flags_grow V ns cs defs V' ns' cs' defs' p t pos neg : grows V ns cs defs V' ns' cs' defs' -> flagsOK ns cs p t pos neg -> flagsOK ns' cs' p t pos neg.
Proof. intros X H b M. apply H. eapply gr_mods; eauto. Qed.

Section Inv.
Variables (cfg : satConfig) (k : nat) (G : asg -> Prop) (stk : list (Sat.saved * (nat * list SatSpec.constr))) (hs : list Sat.saved).

Record sinv (s : state) (V : asg -> Prop) (w : solver) (cs : list SatSpec.constr) (defs : list (nat * tree)) (O : list formula) : Prop := {
  si_winv : winv s V;
  si_reach : SatProps.reach (g_min cfg) false (core w) (length (vnames w)) cs stk hs;
  si_content : content s V (vnames w) cs G defs;
  si_cache : cacheok s (pgCache w) (vnames w) cs defs O }.

Definition awp {A} (m : nat -> SM A) (s : state) (V : asg -> Prop) (w : solver) (cs : list SatSpec.constr) (defs : list (nat * tree)) (O O' : list formula)
  (Q : A -> state -> (asg -> Prop) -> solver -> list SatSpec.constr -> list (nat * tree) -> Prop) : Prop :=
  exists n0 r, (forall n, n0 <= n -> m n s w = r) /\
  match r with
  | SRet a s' w' => exists V' cs' defs', wext s V s' V' /\ sinv s' V' w' cs' defs' O' /\ grows V (vnames w) cs defs V' (vnames w') cs' defs' /\
                    (forall g, In g O -> pgCache w' g = pgCache w g) /\ Q a s' V' w' cs' defs'
  | SPanic => False
  | SStuck => True
  end.

Lemma awp_conseq {A} (m : nat -> SM A) s V w cs defs O O' Q (R : A -> state -> (asg -> Prop) -> solver -> list SatSpec.constr -> list (nat * tree) -> Prop) :
  awp m s V w cs defs O O' Q ->
  (forall a s' V' w' cs' defs', wext s V s' V' -> sinv s' V' w' cs' defs' O' -> grows V (vnames w) cs defs V' (vnames w') cs' defs' -> Q a s' V' w' cs' defs' -> R a s' V' w' cs' defs') ->
  awp m s V w cs defs O O' R.
Proof.
  intros (n0 & r & E & H) HR. exists n0, r. split; auto. destruct r as [a s' w'| |]; auto.
  destruct H as (V' & cs' & defs' & X & S & Gr & Kp & HQ). exists V', cs', defs'. repeat (split; auto).
Qed.
Lemma awp_bind {A B} (m : nat -> SM A) (h : nat -> A -> SM B) s V w cs defs O O1 O2 Q R : awp m s V w cs defs O O1 Q -> incl O O1 ->
  (forall a s' V' w' cs' defs', wext s V s' V' -> sinv s' V' w' cs' defs' O1 -> grows V (vnames w) cs defs V' (vnames w') cs' defs' ->
     Q a s' V' w' cs' defs' -> awp (fun n => h n a) s' V' w' cs' defs' O1 O2 R) ->
  awp (fun n => sbind (m n) (h n)) s V w cs defs O O2 R.
Proof.
  intros (n0 & r & E & H) HO HR. destruct r as [a s' w'| |]; [|contradiction|].
  - destruct H as (V' & cs' & defs' & X & S & Gr & Kp & HQ). destruct (HR a s' V' w' cs' defs' X S Gr HQ) as (n1 & r & E1 & H1).
    exists (Nat.max n0 n1), r. split.
    + intros n Hn. unfold sbind. rewrite E by lia. apply E1. lia.
    + destruct r as [b s2 w2| |]; auto. destruct H1 as (V2 & cs2 & defs2 & X2 & S2 & Gr2 & Kp2 & HR2). exists V2, cs2, defs2.
      split; [eapply wext_trans; eauto|]. split; auto. split; [eapply gr_trans; eauto|]. split; auto.
      intros g Hg. rewrite Kp2; auto.
  - exists n0, SStuck. split; auto. intros n Hn. unfold sbind. rewrite E; auto.
Qed.
Lemma awp_ret {A} (a : A) s V w cs defs O (Q : A -> state -> (asg -> Prop) -> solver -> list SatSpec.constr -> list (nat * tree) -> Prop) :
  sinv s V w cs defs O -> Q a s V w cs defs -> awp (fun _ => sret a) s V w cs defs O O Q.
Proof.
  intros S H. exists 0, (SRet a s w). split; auto. exists V, cs, defs. split; [apply wext_refl|]. split; auto. split; [apply gr_refl; apply S|]. auto.
Qed.
Lemma awp_bret {A B} (a : A) (h : nat -> A -> SM B) s V w cs defs O O' R :
  awp (fun n => h n a) s V w cs defs O O' R -> awp (fun n => sbind (sret a) (h n)) s V w cs defs O O' R.
Proof. intros H. exact H. Qed.
Lemma awp_S {A} (m : nat -> SM A) s V w cs defs O O' Q : awp (fun n => m (S n)) s V w cs defs O O' Q -> awp m s V w cs defs O O' Q.
Proof. intros (n0 & r & E & H). exists (S n0), r. split; auto. intros [|n] Hn; [lia|]. apply E. lia. Qed.
Lemma awp_get {A B} (g : state -> A) (h : nat -> A -> SM B) s V w cs defs O O' R :
  awp (fun n => h n (g s)) s V w cs defs O O' R -> awp (fun n => sbind (liftF (get g)) (h n)) s V w cs defs O O' R.
Proof. intros H. exact H. Qed.
Lemma awp_getW {A B} (g : solver -> A) (h : nat -> A -> SM B) s V w cs defs O O' R :
  awp (fun n => h n (g w)) s V w cs defs O O' R -> awp (fun n => sbind (getW g) (h n)) s V w cs defs O O' R.
Proof. intros H. exact H. Qed.

(** factory operations *)
Lemma content_wext s V s' V' ns cs (H : asg -> Prop) defs : wext s V s' V' -> content s V ns cs H defs -> content s' V' ns cs H defs.
Proof.
  intros X [A1 A2 A3 A4 A5 A6]. assert (Fm : forall x, freshN s' x -> freshN s x) by (intros x; apply fresh_mono; apply X). constructor; auto.
  - intros i x E. destruct (A2 i x E); auto.
  - intros p t I. destruct (A4 p t I) as [B1 B2]. split; auto. intros x Ho F. apply (B2 x Ho). auto.
  - intros b Hb. apply A6. apply X; auto.
Qed.
Lemma sinv_wext s V s' V' w cs defs O : wext s V s' V' -> winv s' V' -> sinv s V w cs defs O -> sinv s' V' w cs defs O.
Proof.
  intros X I [A B C D]. constructor; auto; [eapply content_wext; eauto|].
  intros f p pos neg E. destruct (D f p pos neg E) as (t & D1 & D2 & D3). exists t. split; auto. eapply wext_Den; eauto.
Qed.
Lemma awp_F {A} (m : nat -> M A) s V w cs defs O Q : sinv s V w cs defs O -> wp m s V Q ->
  awp (fun n => liftF (m n)) s V w cs defs O O (fun a s' V' w' cs' defs' => w' = w /\ cs' = cs /\ defs' = defs /\ Q a s' V').
Proof.
  intros S (n0 & a & s' & V' & E & I & X & HQ). exists n0, (SRet a s' w). split.
  - intros n Hn. unfold liftF. rewrite E; auto.
  - exists V', cs, defs. split; auto. split; [eapply sinv_wext; eauto|]. split; [|auto 6]. constructor; try apply incl_refl; try apply S; try apply X. exists []. rewrite app_nil_r; auto.
Qed.
Lemma awp_bindF {A B} (m : nat -> M A) (h : nat -> A -> SM B) s V w cs defs O O' Q R : sinv s V w cs defs O -> wp m s V Q ->
  (forall a s' V', wext s V s' V' -> sinv s' V' w cs defs O -> grows V (vnames w) cs defs V' (vnames w) cs defs -> Q a s' V' -> awp (fun n => h n a) s' V' w cs defs O O' R) ->
  awp (fun n => sbind (liftF (m n)) (h n)) s V w cs defs O O' R.
Proof.
  intros S HW HR. eapply awp_bind; [apply awp_F; eauto|apply incl_refl|]. cbv beta. intros a s' V' w' cs' defs' X S' Gr (-> & -> & -> & HQ). auto.
Qed.

(** core operations *)
Lemma cache_grow s V ns cs defs V' ns' cs' defs' c O : grows V ns cs defs V' ns' cs' defs' -> cacheok s c ns cs defs O -> cacheok s c ns' cs' defs' O.
Proof.
  intros Gr H f p pos neg E. destruct (H f p pos neg E) as (t & D & I & F). exists t. split; auto. split; [apply Gr; auto|]. intros N. eapply flags_grow; eauto.
Qed.
Lemma awp_addClause ps s V w cs defs O : sinv s V w cs defs O -> inrange (length (vnames w)) ps ->
  (forall b, V b -> defsOK defs b -> G b -> anyOf (vnames w) b ps) ->
  awp (fun _ => addClauseC k ps) s V w cs defs O O (fun _ s' V' w' cs' defs' => s' = s /\ V' = V /\ vnames w' = vnames w /\ pgCache w' = pgCache w /\ defs' = defs /\ cs' = SatSpec.SomeOf ps :: cs).
Proof.
  intros [I R C D] Hr Hc. destruct (SatProps.C37_no_panic _ _ _ _ _ _ _ R) as (_ & NP & _). specialize (NP k ps Hr).
  destruct (Sat.addClause k ps (core w)) as [b c| |] eqn:E; [|congruence|exists 0, SStuck; split; auto; intros n _; unfold addClauseC, sbind, liftC; rewrite E; auto].
  exists 0, (SRet tt s (Slv c (vnames w) (pgCache w))). split; [intros n _; unfold addClauseC, sbind, liftC; rewrite E; auto|]. exists V, (SatSpec.SomeOf ps :: cs), defs.
  assert (Gr : grows V (vnames w) cs defs V (vnames w) (SatSpec.SomeOf ps :: cs) defs).
  { constructor; auto; [exists []; rewrite app_nil_r; auto|apply incl_tl, incl_refl|apply incl_refl|apply C]. }
  split; [apply wext_refl|]. split; [|split; [exact Gr|split; [auto|simpl; auto 8]]]. constructor; simpl; auto.
  - eapply SatProps.reach_clause; eauto.
  - destruct C as [C1 C2 C3 C4 C5 C6]. constructor; auto.
    + intros d [<-|Id]; auto.
    + intros b0 Hb Hd HG d [<-|Id]; [exact (Hc b0 Hb Hd HG)|exact (C6 b0 Hb Hd HG d Id)].
  - eapply cache_grow; eauto.
Qed.
Lemma awp_addAtMost ps z s V w cs defs O : sinv s V w cs defs O -> inrange (length (vnames w)) ps -> NoDup ps -> g_min cfg <> Sat.MinBasic ->
  (forall l, In l ps -> snd l = false) ->
  (forall b, V b -> defsOK defs b -> G b -> SatSpec.holds (view (vnames w) b) (SatSpec.AtMostOf ps z)) ->
  awp (fun _ => addAtMostC k ps z) s V w cs defs O O (fun _ s' V' w' cs' defs' => s' = s /\ V' = V /\ vnames w' = vnames w /\ pgCache w' = pgCache w /\ defs' = defs /\ cs' = SatSpec.AtMostOf ps z :: cs).
Proof.
  intros [I R C D] Hr Hn Hm Hp Hc. destruct (SatProps.C37_no_panic _ _ _ _ _ _ _ R) as (_ & _ & NP & _). specialize (NP k ps z Hr Hn).
  destruct (Sat.addAtMost k ps z (core w)) as [[] c| |] eqn:E; [|congruence|exists 0, SStuck; split; auto; intros n _; unfold addAtMostC, liftC; rewrite E; auto].
  exists 0, (SRet tt s (Slv c (vnames w) (pgCache w))). split; [intros n _; unfold addAtMostC, liftC; rewrite E; auto|]. exists V, (SatSpec.AtMostOf ps z :: cs), defs.
  assert (Gr : grows V (vnames w) cs defs V (vnames w) (SatSpec.AtMostOf ps z :: cs) defs).
  { constructor; auto; [exists []; rewrite app_nil_r; auto|apply incl_tl, incl_refl|apply incl_refl|apply C]. }
  split; [apply wext_refl|]. split; [|split; [exact Gr|split; [auto|simpl; auto 8]]]. constructor; simpl; auto.
  - eapply SatProps.reach_atmost; eauto.
  - destruct C as [C1 C2 C3 C4 C5 C6]. constructor; auto.
    + intros d [<-|Id]; auto.
    + intros b0 Hb Hd HG d [<-|Id]; [exact (Hc b0 Hb Hd HG)|exact (C6 b0 Hb Hd HG d Id)].
  - eapply cache_grow; eauto.
Qed.

(** names *)
Lemma indexOf_some x l i : indexOf x l = Some i -> nth_error l i = Some x.
Proof.
  revert i. induction l as [|y r IH]; simpl; intros i H; [discriminate|]. destruct (String.eqb_spec y x); [inversion H; subst; auto|].
  destruct (indexOf x r); inversion H; subst. simpl. auto.
Qed.
Lemma indexOf_none x l : indexOf x l = None -> ~ In x l.
Proof.
  induction l as [|y r IH]; simpl; intros H; [auto|]. destruct (String.eqb_spec y x); [discriminate|]. destruct (indexOf x r); [discriminate|]. intros [->|I]; auto. apply IH; auto.
Qed.
Lemma pg_notin s V ns cs (H : asg -> Prop) defs : content s V ns cs H defs -> ~ In (pgName (length ns)) ns.
Proof.
  intros C I. apply In_nth_error in I. destruct I as (i & E). destruct (ct_names _ _ _ _ _ _ C i _ E) as [Ep|F].
  - apply pgName_inj in Ep. subst i. assert (N : nth_error ns (length ns) <> None) by congruence. apply nth_error_Some in N. lia.
  - apply F. right. eauto.
Qed.
Lemma awp_newNamed (nm : nat -> string) s V w cs defs O x : sinv s V w cs defs O -> nm (length (vnames w)) = x -> ~ In x (vnames w) -> (x = pgName (length (vnames w)) \/ ~ freshN s x) ->
  awp (fun _ => newNamed cfg nm) s V w cs defs O O (fun v s' V' w' cs' defs' => s' = s /\ V' = V /\ cs' = cs /\ defs' = defs /\ v = length (vnames w) /\ vnames w' = vnames w ++ [x] /\ pgCache w' = pgCache w).
Proof.
  intros [I R C D] Ex Hn Hf. destruct (SatProps.C37_no_panic _ _ _ _ _ _ _ R) as (NP & _). destruct (NP (negb (g_phase cfg))) as [c E].
  exists 0, (SRet (length (vnames w)) s (Slv c (vnames w ++ [nm (length (vnames w))]) (pgCache w))). split; [intros n _; unfold newNamed, sbind, liftC; rewrite E; auto|]. rewrite Ex. exists V, cs, defs.
  assert (Gr : grows V (vnames w) cs defs V (vnames w ++ [x]) cs defs).
  { constructor; auto; [exists [x]; auto|apply incl_refl|apply incl_refl|apply C]. }
  split; [apply wext_refl|]. split; [|split; [exact Gr|split; [auto|simpl; auto 8]]]. constructor; simpl; auto.
  - rewrite app_length. simpl. rewrite Nat.add_1_r. eapply SatProps.reach_var; eauto.
  - destruct C as [C1 C2 C3 C4 C5 C6]. constructor; auto.
    + clear - C1 Hn. induction (vnames w) as [|y r IH]; simpl; [repeat constructor; auto|]. inversion C1; subst. constructor; [|apply IH; auto; intros Hi; apply Hn; right; auto]. intros Hi. apply in_app_or in Hi. destruct Hi as [Hi|[<-|[]]]; auto. apply Hn; left; auto.
    + intros i y Ey. destruct (Nat.lt_ge_cases i (length (vnames w))) as [L|L].
      * rewrite nth_error_app1 in Ey; auto.
      * rewrite nth_error_app2 in Ey; auto. destruct (i - length (vnames w)) as [|j] eqn:Ej; simpl in Ey; [|destruct j; discriminate]. inversion Ey; subst y.
        replace i with (length (vnames w)) by lia. auto.
    + eapply bounded_app; [|exact C3]. rewrite app_length. lia.
    + intros p t Ip. destruct (C4 p t Ip) as [B1 B2]. split; auto. rewrite nth_error_app1; auto. apply nth_error_Some. congruence.
    + intros b Hb Hd HG. apply mods_app; auto.
  - eapply cache_grow; eauto.
Qed.
End Inv.
