(** * Printing and parsing a formula of a factory *)
From Coq Require Import String Ascii List Bool Arith ZArith NArith Lia.
From Verif Require Import Spec Factory FactoryProofs FactoryProofs2 FactoryProofs3 FactoryApi FactoryProps Assign NfBase Dimacs Print PrintSpec PrintLex PrintParse.
Import ListNotations.

(** ** Rebuilding a formula from its parts gives the same formula and changes nothing *)
Local Open Scope N_scope.
Lemma rebuild : forall s f, wf s ->
  (forall n p, LiteralNamePhase f s = Some (n, p) -> Lit n p s = (f, s)) /\
  (forall g, NotOperand f s = Some g -> Not g s = (f, s)) /\
  (forall l, NaryOperands f s = Some l -> (srt f = SAnd /\ And l s = (f, s)) \/ (srt f = SOr /\ Or l s = (f, s))) /\
  (forall a b, BinaryLeftRight f s = Some (a, b) ->
     (srt f = SImpl /\ Implication a b s = (f, s)) \/ (srt f = SEquiv /\ Equivalence a b s = (f, s))) /\
  (forall p, PBCOps f s = Some p ->
     (srt f = SCC /\ CC (p_cmp p) (Z.to_N (p_rhs p)) (p_lits p) s = (f, s)) \/
     (srt f = SPBC /\ PBC (p_cmp p) (p_rhs p) (p_lits p) (p_coeffs p) s = (f, s))).
Proof.
  intros s f Hw. pose proof Hw as [W T].
  assert (FA : forall l, node s f = Some (ShAnd l) -> findAnd (hashOperands l) l s = Some f).
  { intros l Hn. destruct (findAnd (hashOperands l) l s) as [g|] eqn:E.
    - apply findAnd_some in E; auto. f_equal. eapply (w_uniq s W); eauto.
    - exfalso. eapply findAnd_none; eauto. }
  assert (FO : forall l, node s f = Some (ShOr l) -> findOr (hashOperands l) l s = Some f).
  { intros l Hn. destruct (findOr (hashOperands l) l s) as [g|] eqn:E.
    - apply findOr_some in E; auto. f_equal. eapply (w_uniq s W); eauto.
    - exfalso. eapply findOr_none; eauto. }
  assert (FC : forall l, node s f = Some (ShCC l) -> findCC (hashPbc l) l s = Some f).
  { intros l Hn. destruct (findCC (hashPbc l) l s) as [g|] eqn:E.
    - apply findCC_some in E; auto. f_equal. eapply (w_uniq s W); eauto.
    - exfalso. eapply findCC_none; eauto. }
  assert (FP : forall l, node s f = Some (ShPBC l) -> findPBC (hashPbc l) l s = Some f).
  { intros l Hn. destruct (findPBC (hashPbc l) l s) as [g|] eqn:E.
    - apply findPBC_some in E; auto. f_equal. eapply (w_uniq s W); eauto.
    - exfalso. eapply findPBC_none; eauto. }
  split; [|split; [|split; [|split]]].
  - intros n p Hl. apply LiteralNamePhase_node in Hl; auto. pose proof (w_ok s W _ _ Hl) as Hok. simpl in Hok.
    unfold Lit, Var. pose proof Hl as Hl'. apply node_lit in Hl'; auto. simpl in Hl'.
    destruct p.
    + apply (c_pos s T) in Hl'. rewrite Hl'. auto.
    + destruct Hok as (_ & _ & Hv). destruct (Hv eq_refl) as (v & Hnv & _). apply node_lit in Hnv; auto. apply (c_pos s T) in Hnv. rewrite Hnv.
      apply (c_neg s T) in Hl'. rewrite Hl'. auto.
  - intros g Hg. unfold NotOperand in Hg. apply node_nots in Hg as Hn; auto. destruct (w_ok s W _ _ Hn) as (_ & Hnt & _).
    apply (c_not s T) in Hg. unfold Not. unfold notable in Hnt.
    destruct (feqb_spec g ffalse) as [->|]; [discriminate|]. destruct (feqb_spec g ftrue) as [->|]; [discriminate|].
    rewrite Hg. destruct (srt g); auto; discriminate.
  - intros l Hl. unfold NaryOperands in Hl. destruct (srt f) eqn:Es; try discriminate.
    + left. split; auto. apply node_ands in Hl; auto. unfold And. rewrite (FA l Hl). auto.
    + right. split; auto. apply node_ors in Hl; auto. unfold Or. rewrite (FO l Hl). auto.
  - intros a b Hl. unfold BinaryLeftRight in Hl. destruct (srt f) eqn:Es; try discriminate.
    + left. split; auto. apply node_impls in Hl as Hn; auto. destruct (w_ok s W _ _ Hn) as (_ & Htr).
      apply (c_impl s T) in Hl. unfold implTriv in Htr. unfold Implication.
      apply orb_false_iff in Htr. destruct Htr as [Htr E4]. apply orb_false_iff in Htr. destruct Htr as [Htr E3].
      apply orb_false_iff in Htr. destruct Htr as [E1 E2]. rewrite E1, E2, E3, E4, Hl. auto.
    + right. split; auto. apply node_equivs in Hl as Hn; auto. destruct (w_ok s W _ _ Hn) as (_ & Htr).
      apply (c_equiv s T) in Hl. unfold equivTriv in Htr. unfold Equivalence.
      apply orb_false_iff in Htr. destruct Htr as [Htr E6]. apply orb_false_iff in Htr. destruct Htr as [Htr E5].
      apply orb_false_iff in Htr. destruct Htr as [Htr E4]. apply orb_false_iff in Htr. destruct Htr as [Htr E3].
      apply orb_false_iff in Htr. destruct Htr as [E1 E2]. rewrite E1, E2, E3, E4, E5, E6, Hl. auto.
  - intros p Hp. destruct (PBCOps_node _ _ _ Hw Hp) as [Hn|Hn]; [left|right]; (split; [apply (node_sort _ _ _ Hn)|]).
    + destruct (w_ok s W _ _ Hn) as (_ & (Hne & Hr) & Hc & _). unfold CC. rewrite Z2N.id by auto. unfold constructCC.
      pose proof (FC p Hn) as HF. destruct p as [ls cs rhs c]; simpl in *. subst cs. destruct ls; [congruence|].
      cbv zeta. rewrite HF. auto.
    + destruct (w_ok s W _ _ Hn) as (_ & (Hne & Hr) & _). unfold PBC. rewrite Hr. unfold constructPBC.
      pose proof (FP p Hn) as HF. destruct p as [ls cs rhs c]; simpl in *. destruct ls; [congruence|].
      cbv zeta. rewrite HF. auto.
Qed.
Local Close Scope N_scope.

(** ** The trees of the factory's formulas *)
Lemma f2len {A B} {R : A -> B -> Prop} {l m} : Forall2 R l m -> length l = length m.
Proof. induction 1; cbn; auto. Qed.
Lemma Den_formed s : wf s -> forall t f, Den s f t -> formed t.
Proof.
  intros Hw. pose proof Hw as [W T]. induction t as [| |l|t IH|l IH|l IH|a b IHa IHb|a b IHa IHb|cc c k ls cs] using tree_ind'; intros f D; cbn [formed]; auto.
  - apply Den_not_inv in D as (g & _ & D). eauto.
  - apply Den_and_inv in D as (ops & N & F). destruct (w_ok s W _ _ N) as (_ & L & _). split; [rewrite <- (f2len F); auto|]. clear N L. induction F as [|g u ops l D F IHF]; [constructor|]. inversion IH; subst. cbn [map]. constructor; eauto.
  - apply Den_or_inv in D as (ops & N & F). destruct (w_ok s W _ _ N) as (_ & L & _). split; [rewrite <- (f2len F); auto|]. clear N L. induction F as [|g u ops l D F IHF]; [constructor|]. inversion IH; subst. cbn [map]. constructor; eauto.
  - apply Den_impl_inv in D as (g & h & _ & D1 & D2). eauto.
  - apply Den_equiv_inv in D as (g & h & _ & D1 & D2). eauto.
  - apply Den_pbc_inv in D as (p & N & F & -> & -> & ->). pose proof (w_ok s W _ _ N) as O. pose proof (f2len F) as E. destruct cc.
    + destruct O as (_ & (O1 & _) & O2 & _). rewrite O2, map_length, E. split; auto. intros ->. destruct (p_lits p); [congruence|discriminate].
    + destruct O as (_ & (O1 & _) & O2 & _). split; [|lia]. intros ->. destruct (p_lits p); [congruence|discriminate].
Qed.
Lemma Den_rank s f t : Den s f t -> rank (srt f) = trank t.
Proof. intros D. rewrite (Den_sort s f t D). destruct t as [| | | | | | | |[] ? ? ? ?]; reflexivity. Qed.

(** ** Printing *)
Lemma litText_ok s f l : wf s -> litDen s f l -> litText defaultSymbols f s = Some (litT l).
Proof. intros Hw D. unfold litText. apply (LiteralNamePhase_node s f l Hw) in D. rewrite D. destruct l as [n []]; reflexivity. Qed.
Lemma mulText_ok s f l c : wf s -> litDen s f l -> mulText defaultSymbols f c s = Some (mulT (l, c)).
Proof. intros Hw D. unfold mulText. rewrite (litText_ok s f l Hw D). unfold mulT. cbn [fst snd]. destruct (Z.eqb c 1); reflexivity. Qed.
Lemma sumText_ok s : wf s -> forall fs ls, Forall2 (litDen s) fs ls -> forall cs, length cs = length ls -> sumText defaultSymbols fs cs s = Some (sumT ls cs).
Proof.
  intros Hw fs ls F. induction F as [|f l fs ls D F IH]; intros [|c cs] E; try discriminate; [reflexivity|]. cbn in E. destruct F as [|f2 l2 fs ls D2 F].
  - destruct cs; [|discriminate]. cbn [sumText]. rewrite (mulText_ok s f l c Hw D). reflexivity.
  - destruct cs as [|c2 cs]; [discriminate|]. specialize (IH (c2 :: cs) ltac:(lia)). cbn [sumText] in IH |- *. rewrite IH, (mulText_ok s f l c Hw D). reflexivity.
Qed.
Fixpoint tall (t : tree) : nat :=
  match t with TNot a => S (tall a) | TAnd l | TOr l => S (fold_right (fun u m => Nat.max (tall u) m) 0 l) | TImpl a b | TEquiv a b => S (Nat.max (tall a) (tall b)) | _ => 1 end.
Lemma tall_in : forall l (u : tree), In u l -> tall u <= fold_right (fun u m => Nat.max (tall u) m) 0 l.
Proof. induction l as [|x l IH]; intros u I; [destruct I|]. destruct I as [->|I]; cbn; [lia|specialize (IH u I); lia]. Qed.
Lemma toInner_ok s : wf s -> forall t f, Den s f t -> forall n, tall t <= n -> toInner defaultSymbols n f s = Some (text t).
Proof.
  intros Hw. pose proof Hw as [W T].
  assert (Inner : forall k u g n, Den s g u -> toInner defaultSymbols n g s = Some (text u) -> match toInner defaultSymbols n g s with Some t => Some (if Nat.ltb (rank (srt g)) k then t else y_lbr defaultSymbols ++ t ++ y_rbr defaultSymbols)%string | None => None end = Some (brT k u (text u))).
  { intros k u g n D E. rewrite E, (Den_rank s g u D). reflexivity. }
  induction t as [| |l|t IH|l IH|l IH|a b IHa IHb|a b IHa IHb|cc c k ls cs] using tree_ind'; intros f D n L; (destruct n as [|n]; [cbn in L; lia|]); cbn [toInner]; pose proof (Den_sort s f _ D) as Es; rewrite ?Es; cbn [tall] in L.
  - reflexivity.
  - reflexivity.
  - apply Den_litt_inv in D. apply litText_ok; auto.
  - apply Den_not_inv in D as (g & N & D). apply node_nots in N; auto. unfold NotOperand. rewrite N, (IH g D n ltac:(lia)). reflexivity.
  - apply Den_and_inv in D as (ops & N & F). pose proof (w_ok s W _ _ N) as (_ & _ & Hin). apply node_ands in N; auto. unfold NaryOperands. rewrite Es, N. cbn [text].
    assert (Q : forall u g, In u l -> Den s g u -> toInner defaultSymbols n g s = Some (text u)). { intros u g I Dg. rewrite Forall_forall in IH. apply IH; auto. pose proof (tall_in l u I). lia. }
    clear N L IH Es. induction F as [|g u ops l Dg F IHF]; [reflexivity|]. inversion Hin as [|? ? H1 H2]; subst. specialize (IHF H2 (fun u g I => Q u g (or_intror I))). cbn [map].
    destruct F as [|g2 u2 ops l D2 F].
    + destruct (feqb_spec g ffalse) as [->|_]; [discriminate H1|]. apply (Inner 4 u g n Dg). apply Q; auto. left; auto.
    + cbn [rank]. pose proof (Inner 4 u g n Dg (Q u g (or_introl eq_refl) Dg)) as E. cbn [rank] in IHF. rewrite E. rewrite IHF. reflexivity.
  - apply Den_or_inv in D as (ops & N & F). pose proof (w_ok s W _ _ N) as (_ & _ & Hin). apply node_ors in N; auto. unfold NaryOperands. rewrite Es, N. cbn [text].
    assert (Q : forall u g, In u l -> Den s g u -> toInner defaultSymbols n g s = Some (text u)). { intros u g I Dg. rewrite Forall_forall in IH. apply IH; auto. pose proof (tall_in l u I). lia. }
    clear N L IH Es. induction F as [|g u ops l Dg F IHF]; [reflexivity|]. inversion Hin as [|? ? H1 H2]; subst. specialize (IHF H2 (fun u g I => Q u g (or_intror I))). cbn [map].
    destruct F as [|g2 u2 ops l D2 F].
    + destruct (feqb_spec g ffalse) as [->|_]; [discriminate H1|]. apply (Inner 5 u g n Dg). apply Q; auto. left; auto.
    + cbn [rank]. pose proof (Inner 5 u g n Dg (Q u g (or_introl eq_refl) Dg)) as E. cbn [rank] in IHF. rewrite E. rewrite IHF. reflexivity.
  - apply Den_impl_inv in D as (g & h & N & D1 & D2). apply node_impls in N; auto. unfold BinaryLeftRight. rewrite Es, N. cbn [text].
    pose proof (Inner 6 a g n D1 (IHa g D1 n ltac:(lia))) as E1. pose proof (Inner 6 b h n D2 (IHb h D2 n ltac:(lia))) as E2. cbn [rank] in *. rewrite E1, E2. reflexivity.
  - apply Den_equiv_inv in D as (g & h & N & D1 & D2). apply node_equivs in N; auto. unfold BinaryLeftRight. rewrite Es, N. cbn [text].
    pose proof (Inner 7 a g n D1 (IHa g D1 n ltac:(lia))) as E1. pose proof (Inner 7 b h n D2 (IHb h D2 n ltac:(lia))) as E2. cbn [rank] in *. rewrite E1, E2. reflexivity.
  - pose proof (Den_formed s Hw _ _ D) as (_ & Fl). apply Den_pbc_inv in D as (p & N & F & -> & -> & ->).
    assert (E : pbcText defaultSymbols p s = Some (text (TPBC cc (p_cmp p) (p_rhs p) ls (p_coeffs p)))). { unfold pbcText. rewrite (sumText_ok s Hw _ _ F _ Fl). destruct (p_cmp p); reflexivity. }
    destruct cc; rewrite ?Es; unfold PBCOps; rewrite Es; [apply node_ccs in N|apply node_pbcs in N]; auto; rewrite N; exact E.
Qed.

(** ** Parsing the printed text *)
Lemma parse_text : forall t, printable t = true -> formed t -> exists n0, forall n, n0 <= n -> forall s, parse n (text t) s = (st <- walk (cstOf t) [] ;; match rev st with x :: _ => ret (Some (sform x)) | [] => fail end) s.
Proof.
  intros t P F. destruct (parse_toks t P F) as (n0 & H). exists n0. intros n L s. unfold parse. pose proof (text_solid t P F) as So. rewrite (lex_text t P F), (H n L).
  assert (A : allc isSpace (text t) = false). { destruct (text t) as [|c r]; [destruct So|]. cbn. destruct So as [_ ->]. reflexivity. }
  rewrite A. pose proof (toks_ne t F) as N. destruct (toks t); [congruence|reflexivity].
Qed.
Lemma parseLiteral_ok : forall l, admissible (fst l) = true -> parseLiteral (litT l) = l.
Proof.
  intros [n []] A; unfold litT; cbn [fst snd] in *; [|reflexivity]. destruct (adm_cons n A) as (c & m & -> & H). cbn [parseLiteral]. destruct (head_ne c H) as [-> _]. reflexivity.
Qed.
Lemma mulParts_ok : forall x, mulParts (mulC x) = Some (litT (fst x), snd x).
Proof. intros [l c]. unfold mulC. cbn [fst snd]. destruct (Z.eqb_spec c 1) as [->|]; [reflexivity|]. cbn. rewrite atoi_decZ. reflexivity. Qed.
Lemma Lit_same s f l : wf s -> litDen s f l -> Lit (fst l) (snd l) s = (f, s).
Proof. intros Hw D. apply (rebuild s f Hw). apply (LiteralNamePhase_node s f l Hw) in D. rewrite D. destruct l; reflexivity. Qed.
Lemma popOps_map : forall fs acc (stk : stack), popOps (map (@Some formula) fs ++ None :: stk) acc = Some (rev fs ++ acc, stk).
Proof. induction fs as [|f fs IH]; intros acc stk; cbn [map app popOps rev]; [reflexivity|]. rewrite IH, <- app_assoc. reflexivity. Qed.
Definition walks : list cst -> stack -> M stack := fix go l st := match l with [] => ret st | c :: r => st' <- walk c st ;; go r st' end.
Lemma walk_conj l stk : walk (PConj l) stk = (st <- walks l (None :: stk) ;; nary And st).
Proof. reflexivity. Qed.
Lemma walk_disj l stk : walk (PDisj l) stk = (st <- walks l (None :: stk) ;; nary Or st).
Proof. reflexivity. Qed.
(** on the factory of the formula: the same formula, and nothing changes *)
Lemma walk_same s : wf s -> forall t f, Den s f t -> printable t = true -> noneBelow0 t = true -> forall stk, walk (cstOf t) stk s = Some (Some f :: stk, s).
Proof.
  intros Hw. pose proof Hw as [W T].
  assert (Ws : forall l ops, Forall2 (Den s) ops l -> Forall (fun t => forall f, Den s f t -> printable t = true -> noneBelow0 t = true -> forall stk, walk (cstOf t) stk s = Some (Some f :: stk, s)) l -> (forall u, In u l -> printable u = true) -> (forall u, In u l -> noneBelow0 u = true) ->
    forall fs stk, walks (map cstOf l) (map (@Some formula) fs ++ None :: stk) s = Some (map (@Some formula) (rev ops ++ fs) ++ None :: stk, s)).
  { intros l ops F. induction F as [|g u ops l D F IHF]; intros IH P P' fs stk; [reflexivity|]. inversion IH as [|? ? H1 H2]; subst. cbn [map walks]. unfold bind. rewrite (H1 g D (P u (or_introl eq_refl)) (P' u (or_introl eq_refl))). change (Some g :: map (@Some formula) fs ++ None :: stk) with (map (@Some formula) (g :: fs) ++ None :: stk). rewrite (IHF H2 (fun u I => P u (or_intror I)) (fun u I => P' u (or_intror I))). cbn [rev]. rewrite <- app_assoc. reflexivity. }
  induction t as [| |l|t IH|l IH|l IH|a b IHa IHb|a b IHa IHb|cc c k ls cs] using tree_ind'; intros f D P P' stk; cbn [cstOf printable noneBelow0] in *.
  - rewrite (Den_inj s Hw _ _ _ D (Den_false s)). reflexivity.
  - rewrite (Den_inj s Hw _ _ _ D (Den_true s)). reflexivity.
  - apply Den_litt_inv in D. cbn [walk]. rewrite (parseLiteral_ok l P). unfold bind, up. rewrite (Lit_same s f l Hw D). reflexivity.
  - apply Den_not_inv in D as (g & N & D). cbn [walk]. unfold bind. rewrite (IH g D P P'). cbn [sform]. unfold up. apply node_nots in N; auto. destruct (rebuild s f Hw) as (_ & R & _). rewrite (R g N). reflexivity.
  - apply Den_and_inv in D as (ops & N & F). rewrite forallb_forall in P, P'. rewrite walk_conj. unfold bind. pose proof (Ws l ops F IH P P' [] stk) as E. cbn [map app] in E. rewrite E, app_nil_r. unfold nary. rewrite popOps_map, rev_involutive, app_nil_r. unfold bind, up.
    apply node_ands in N as N'; auto. pose proof (node_sort _ _ _ N) as Es. cbn in Es. destruct (rebuild s f Hw) as (_ & _ & R & _). destruct (R ops) as [[_ E2]|[E2 _]]; [unfold NaryOperands; rewrite Es; auto| |congruence]. rewrite E2. reflexivity.
  - apply Den_or_inv in D as (ops & N & F). rewrite forallb_forall in P, P'. rewrite walk_disj. unfold bind. pose proof (Ws l ops F IH P P' [] stk) as E. cbn [map app] in E. rewrite E, app_nil_r. unfold nary. rewrite popOps_map, rev_involutive, app_nil_r. unfold bind, up.
    apply node_ors in N as N'; auto. pose proof (node_sort _ _ _ N) as Es. cbn in Es. destruct (rebuild s f Hw) as (_ & _ & R & _). destruct (R ops) as [[E2 _]|[_ E2]]; [unfold NaryOperands; rewrite Es; auto|congruence|]. rewrite E2. reflexivity.
  - apply andb_prop in P as [P1 P2], P' as [P3 P4]. apply Den_impl_inv in D as (g & h & N & D1 & D2). cbn [walk]. unfold bind. rewrite (IHa g D1 P1 P3), (IHb h D2 P2 P4). cbn [binary sform]. unfold bind, up.
    apply node_impls in N as N'; auto. pose proof (node_sort _ _ _ N) as Es. cbn in Es. destruct (rebuild s f Hw) as (_ & _ & _ & R & _). destruct (R g h) as [[_ E2]|[E2 _]]; [unfold BinaryLeftRight; rewrite Es; auto| |congruence]. rewrite E2. reflexivity.
  - apply andb_prop in P as [P1 P2], P' as [P3 P4]. apply Den_equiv_inv in D as (g & h & N & D1 & D2). cbn [walk]. unfold bind. rewrite (IHa g D1 P1 P3), (IHb h D2 P2 P4). cbn [binary sform]. unfold bind, up.
    apply node_equivs in N as N'; auto. pose proof (node_sort _ _ _ N) as Es. cbn in Es. destruct (rebuild s f Hw) as (_ & _ & _ & R & _). destruct (R g h) as [[E2 _]|[_ E2]]; [unfold BinaryLeftRight; rewrite Es; auto|congruence|]. rewrite E2. reflexivity.
  - pose proof (Den_formed s Hw _ _ D) as (_ & Fl). pose proof P as P1. pose proof P' as P2. apply Den_pbc_inv in D as (p & N & F & -> & -> & ->). cbn [walk].
    assert (E : mapM exitMul (map mulC (combine ls (p_coeffs p))) s = Some (combine (p_lits p) (p_coeffs p), s)).
    { pose proof (lits_adm ls P1) as La. clear P P' P1 P2 N. revert Fl. generalize (p_coeffs p) as cs. induction F as [|g l fs ls D F IHF]; intros [|c cs] Fl; try discriminate; [reflexivity|]. cbn [combine map mapM]. unfold exitMul at 1. rewrite mulParts_ok. cbn [fst snd]. unfold bind, up.
      rewrite parseLiteral_ok by (apply (La (c :: cs) (l, c)); left; auto). rewrite (Lit_same s g l Hw D). cbn [ret]. unfold ret. rewrite IHF; auto. intros cs' x I. apply (La (c :: cs')). right; auto. }
    unfold bind. rewrite E. assert (Lp : length (p_coeffs p) = length (p_lits p)) by (rewrite (f2len F); auto).
    assert (E1 : map fst (combine (p_lits p) (p_coeffs p)) = p_lits p). { clear -Lp. revert Lp. generalize (p_coeffs p). induction (p_lits p) as [|x l IH]; intros [|c cs] H; cbn in *; try discriminate; auto. rewrite IH; auto. }
    assert (E2 : map snd (combine (p_lits p) (p_coeffs p)) = p_coeffs p). { clear -Lp. revert Lp. generalize (p_lits p). induction (p_coeffs p) as [|x l IH]; intros [|c cs] H; cbn in *; try discriminate; auto. rewrite IH; auto. }
    rewrite E1, E2, atoi_decZ. unfold up. destruct (rebuild s f Hw) as (_ & _ & _ & _ & R). pose proof (w_ok s W _ _ N) as O.
    destruct cc.
    + apply node_ccs in N as N'; auto. pose proof (node_sort _ _ _ N) as Es. cbn in Es. destruct (R p) as [[_ R2]|[R2 _]]; [unfold PBCOps; rewrite Es; auto| |congruence].
      destruct O as (_ & (O1 & O2) & O3 & O4). unfold PBC. destruct (p_lits p) as [|x0 xs] eqn:El; [congruence|]. rewrite <- El in *.
      assert (C : isCC (p_cmp p) (p_rhs p) (p_lits p) (p_coeffs p) = true). { unfold isCC. apply andb_true_intro. split; [apply andb_true_intro; split|].
        - apply forallb_forall. intros x I. rewrite Forall_forall in O4. destruct (O4 x I) as (n & Nx). destruct (w_ok s W _ _ Nx) as (Ox & _). exact Ox.
        - rewrite O3. apply forallb_forall. intros x I. apply in_map_iff in I as (? & <- & _). reflexivity.
        - destruct (p_cmp p); cbn in P2; try (apply Z.leb_le; lia). }
      rewrite C. unfold CC in R2. rewrite Z2N.id in R2 by auto. rewrite R2. reflexivity.
    + apply node_pbcs in N as N'; auto. pose proof (node_sort _ _ _ N) as Es. cbn in Es. destruct (R p) as [[R2 _]|[_ R2]]; [unfold PBCOps; rewrite Es; auto|congruence|]. rewrite R2. reflexivity.
Qed.

(** on any factory: a formula with the same meaning *)
Local Notation hist := (history anycall).
Definition built (s : state) (H : list formula) (t : tree) (r : formula) (s' : state) (H' : list formula) : Prop :=
  steps anycall (s, H) (s', H') /\ incl H H' /\ In r H' /\ exists u, Reads s' r u /\ forall b, eval b u = eval b t.
Lemma steps_trans ok a b c : steps ok a b -> steps ok b c -> steps ok a c.
Proof. intros H1 H2. revert H1. induction H2 as [|w1 w2 w3 H2 IH St]; intros H1; [exact H1|]. eapply steps_more; [apply IH; exact H1|exact St]. Qed.
Lemma history_reads cv s H s' H' l us : hist cv s H -> steps anycall (s, H) (s', H') -> incl l H -> Forall2 (Reads s) l us -> Forall2 (Reads s') l us.
Proof. intros Hh St Hi F. induction F as [|x y l us R F IH]; [constructor|]. constructor; [eapply C01_immutable; eauto; apply Hi; left; auto|apply IH; intros z I; apply Hi; right; auto]. Qed.
Lemma built_call cv s H c ts t : hist cv s H -> allowed H c -> Forall2 (Reads s) (operands_of c) ts -> (forall b, eval b (promise c s ts) = eval b t) ->
  exists r s' , run c s = (r, s') /\ built s H t r s' (r :: H).
Proof.
  intros Hh A F E. destruct (run c s) as [r s'] eqn:R. exists r, s'. split; auto. destruct (C03_meaning anycall cv s H c r s' ts Hh A R F) as (u & Ru & Eu). split; [eapply steps_more; [apply steps_refl|apply (step_call _ c); auto; exact Logic.I]|]. split; [intros x I; right; auto|]. split; [left; auto|]. exists u. split; auto. intros b. rewrite Eu. auto.
Qed.
Lemma hist_more cv s H s' H' : hist cv s H -> steps anycall (s, H) (s', H') -> hist cv s' H'.
Proof. intros A B. exact (steps_trans _ _ _ _ A B). Qed.
Lemma built_lit cv s H l : hist cv s H -> exists r s', Lit (fst l) (snd l) s = (r, s') /\ steps anycall (s, H) (s', r :: H) /\ Reads s' r (TLit l).
Proof.
  intros Hh. destruct (Lit (fst l) (snd l) s) as [r s'] eqn:R. exists r, s'. split; auto. split; [eapply steps_more; [apply steps_refl|apply (step_call _ (CLit (fst l) (snd l))); auto; exact Logic.I]|].
  destruct (history_held _ _ _ _ Hh) as [Hw _]. destruct (Lit_spec s _ _ r s' Hw R) as ((W' & _) & N & _). apply Reads_Den; auto. destruct l as [n q]. apply DLit. exact N.
Qed.
Lemma reads_more cv s H s' H' r u : hist cv s H -> steps anycall (s, H) (s', H') -> In r H -> Reads s r u -> Reads s' r u.
Proof. intros Hh St I R. eapply C01_immutable; eauto. Qed.
Lemma built_trans s H s1 H1 t r s2 H2 : steps anycall (s, H) (s1, H1) -> incl H H1 -> built s1 H1 t r s2 H2 -> built s H t r s2 H2.
Proof. intros St I (A & B & C & D). split; [eapply steps_trans; eauto|]. split; [intros x X; auto|]. auto. Qed.
Definition walksTo (t : tree) : Prop := forall cv s H stk, hist cv s H -> exists r s' H', walk (cstOf t) stk s = Some (Some r :: stk, s') /\ built s H t r s' H'.
Lemma walks_other : forall l, Forall walksTo l -> forall cv s H fs stk, hist cv s H ->
  exists rs s' H' us, walks (map cstOf l) (map (@Some formula) fs ++ None :: stk) s = Some (map (@Some formula) (rev rs ++ fs) ++ None :: stk, s') /\ steps anycall (s, H) (s', H') /\ incl H H' /\ incl rs H' /\ Forall2 (Reads s') rs us /\ forall b, map (eval b) us = map (eval b) l.
Proof.
  induction l as [|t l IH]; intros F cv s H fs stk Hh.
  - exists [], s, H, []. split; [reflexivity|]. split; [constructor|]. split; [intros x I; auto|]. split; [intros x []|]. split; auto.
  - inversion F as [|? ? F1 F2]; subst. destruct (F1 cv s H (map (@Some formula) fs ++ None :: stk) Hh) as (r & s1 & H1 & E1 & St1 & I1 & Ir & u & Ru & Eu). pose proof (hist_more _ _ _ _ _ Hh St1) as Hh1.
    destruct (IH F2 cv s1 H1 (r :: fs) stk Hh1) as (rs & s2 & H2 & us & E2 & St2 & I2 & Irs & Rs & Es).
    exists (r :: rs), s2, H2, (u :: us). split; [cbn [map walks]; unfold bind; rewrite E1; cbn [map app] in E2; rewrite E2; cbn [rev]; rewrite <- app_assoc; reflexivity|].
    split; [eapply steps_trans; eauto|]. split; [intros x I; auto|]. split; [intros x [<-|I]; auto|]. split; [constructor; auto; eapply reads_more; [exact Hh1|exact St2|exact Ir|exact Ru]|]. intros b. cbn [map]. rewrite Eu, Es. reflexivity.
Qed.
Lemma forallb_map (b : asg) : forall l, forallb (eval b) l = forallb (fun x => x) (map (eval b) l).
Proof. induction l; cbn; auto. rewrite IHl. auto. Qed.
Lemma existsb_map (b : asg) : forall l, existsb (eval b) l = existsb (fun x => x) (map (eval b) l).
Proof. induction l; cbn; auto. rewrite IHl. auto. Qed.
Lemma lits_other : forall xs : list (lit * Z), (forall x, In x xs -> admissible (fst (fst x)) = true) -> forall cv s H, hist cv s H ->
  exists rs s' H', mapM exitMul (map mulC xs) s = Some (combine rs (map snd xs), s') /\ length rs = length xs /\ steps anycall (s, H) (s', H') /\ incl H H' /\ incl rs H' /\ Forall2 (Reads s') rs (map (fun x => TLit (fst x)) xs).
Proof.
  induction xs as [|x xs IH]; intros A cv s H Hh.
  - exists [], s, H. split; [reflexivity|]. split; auto. split; [constructor|]. split; [intros y I; auto|]. split; [intros y []|constructor].
  - destruct (built_lit cv s H (fst x) Hh) as (r & s1 & E1 & St1 & R1). pose proof (hist_more _ _ _ _ _ Hh St1) as Hh1.
    destruct (IH (fun y I => A y (or_intror I)) cv s1 (r :: H) Hh1) as (rs & s2 & H2 & E2 & L & St2 & I2 & Irs & Rs).
    exists (r :: rs), s2, H2. split.
    { cbn [map mapM combine]. unfold exitMul at 1. rewrite mulParts_ok, parseLiteral_ok by (apply A; left; auto). unfold bind, up. rewrite E1. unfold ret. rewrite E2. reflexivity. }
    split; [cbn; auto|]. split; [eapply steps_trans; eauto|]. split; [intros y I; apply I2; right; auto|]. split; [intros y [<-|I]; [apply I2; left; auto|auto]|]. cbn [map]. constructor; auto. eapply reads_more; [exact Hh1|exact St2|left; auto|exact R1].
Qed.
Lemma hist_consts cv s H : hist cv s H -> In ffalse H /\ In ftrue H.
Proof.
  intros Hh. assert (G : forall a b, steps anycall a b -> incl (snd a) (snd b)). { intros a b St. induction St as [|w1 w2 w3 St IH X]; [apply incl_refl|]. inversion X; subst; cbn in *; intros y I; auto; right; auto. }
  specialize (G _ _ Hh). cbn in G. split; apply G; cbn; auto.
Qed.
Lemma walk_other : forall t, printable t = true -> formed t -> walksTo t.
Proof.
  induction t as [| |l|t IH|l IH|l IH|a b IHa IHb|a b IHa IHb|cc c k ls cs] using tree_ind'; intros P F cv s H stk Hh; cbn [printable formed cstOf] in *.
  - exists ffalse, s, H. split; [reflexivity|]. split; [constructor|]. split; [apply incl_refl|]. split; [apply (hist_consts cv s H Hh)|]. exists TFalse. split; [constructor|auto].
  - exists ftrue, s, H. split; [reflexivity|]. split; [constructor|]. split; [apply incl_refl|]. split; [apply (hist_consts cv s H Hh)|]. exists TTrue. split; [constructor|auto].
  - destruct (built_lit cv s H l Hh) as (r & s1 & E1 & St1 & R1). exists r, s1, (r :: H). split; [cbn [walk]; rewrite (parseLiteral_ok l P); unfold bind, up; rewrite E1; reflexivity|]. split; auto. split; [intros y I; right; auto|]. split; [left; auto|]. eauto.
  - destruct (IH P F cv s H stk Hh) as (g & s1 & H1 & E1 & St1 & I1 & Ig & u & Ru & Eu). pose proof (hist_more _ _ _ _ _ Hh St1) as Hh1. destruct (built_call cv s1 H1 (CNot g) [u] (TNot t) Hh1) as (r & s2 & E2 & B); [exact Ig|constructor; auto|intros b; cbn; rewrite Eu; auto|].
    exists r, s2, (r :: H1). split; [cbn [walk]; unfold bind; rewrite E1; unfold up; cbn in E2 |- *; rewrite E2; reflexivity|]. eapply built_trans; eauto.
  - destruct F as [F1 F2]. rewrite forallb_forall in P. assert (Q : Forall walksTo l). { rewrite Forall_forall in *. intros u I. apply IH; auto. apply F2, in_map; auto. }
    destruct (walks_other l Q cv s H [] stk Hh) as (rs & s1 & H1 & us & E1 & St1 & I1 & Irs & Rs & Es). pose proof (hist_more _ _ _ _ _ Hh St1) as Hh1. destruct (built_call cv s1 H1 (CAnd rs) us (TAnd l) Hh1) as (r & s2 & E2 & B); [exact Irs|exact Rs|intros b; cbn; rewrite !forallb_map, Es; auto|].
    exists r, s2, (r :: H1). split; [|eapply built_trans; eauto]. rewrite walk_conj. cbn [map app] in E1. unfold bind. rewrite E1, app_nil_r. unfold nary. rewrite popOps_map, rev_involutive, app_nil_r. unfold bind, up. cbn in E2. rewrite E2. reflexivity.
  - destruct F as [F1 F2]. rewrite forallb_forall in P. assert (Q : Forall walksTo l). { rewrite Forall_forall in *. intros u I. apply IH; auto. apply F2, in_map; auto. }
    destruct (walks_other l Q cv s H [] stk Hh) as (rs & s1 & H1 & us & E1 & St1 & I1 & Irs & Rs & Es). pose proof (hist_more _ _ _ _ _ Hh St1) as Hh1. destruct (built_call cv s1 H1 (COr rs) us (TOr l) Hh1) as (r & s2 & E2 & B); [exact Irs|exact Rs|intros b; cbn; rewrite !existsb_map, Es; auto|].
    exists r, s2, (r :: H1). split; [|eapply built_trans; eauto]. rewrite walk_disj. cbn [map app] in E1. unfold bind. rewrite E1, app_nil_r. unfold nary. rewrite popOps_map, rev_involutive, app_nil_r. unfold bind, up. cbn in E2. rewrite E2. reflexivity.
  - apply andb_prop in P as [P1 P2]. destruct F as [F1 F2]. destruct (IHa P1 F1 cv s H stk Hh) as (g & s1 & H1 & E1 & St1 & I1 & Ig & u & Ru & Eu). pose proof (hist_more _ _ _ _ _ Hh St1) as Hh1.
    destruct (IHb P2 F2 cv s1 H1 (Some g :: stk) Hh1) as (h & s2 & H2 & E2 & St2 & I2 & Ih & v & Rv & Ev). pose proof (hist_more _ _ _ _ _ Hh1 St2) as Hh2. pose proof (reads_more _ _ _ _ _ _ _ Hh1 St2 Ig Ru) as Ru2.
    destruct (built_call cv s2 H2 (CImpl g h) [u; v] (TImpl a b) Hh2) as (r & s3 & E3 & B); [split; auto|repeat constructor; auto|intros x; cbn; rewrite Eu, Ev; auto|].
    exists r, s3, (r :: H2). split; [|eapply built_trans; [eapply steps_trans; [exact St1|exact St2]|intros x I; auto|exact B]]. cbn [walk]. unfold bind. rewrite E1, E2. cbn [binary sform]. unfold bind, up. cbn in E3. rewrite E3. reflexivity.
  - apply andb_prop in P as [P1 P2]. destruct F as [F1 F2]. destruct (IHa P1 F1 cv s H stk Hh) as (g & s1 & H1 & E1 & St1 & I1 & Ig & u & Ru & Eu). pose proof (hist_more _ _ _ _ _ Hh St1) as Hh1.
    destruct (IHb P2 F2 cv s1 H1 (Some g :: stk) Hh1) as (h & s2 & H2 & E2 & St2 & I2 & Ih & v & Rv & Ev). pose proof (hist_more _ _ _ _ _ Hh1 St2) as Hh2. pose proof (reads_more _ _ _ _ _ _ _ Hh1 St2 Ig Ru) as Ru2.
    destruct (built_call cv s2 H2 (CEquiv g h) [u; v] (TEquiv a b) Hh2) as (r & s3 & E3 & B); [split; auto|repeat constructor; auto|intros x; cbn; rewrite Eu, Ev; auto|].
    exists r, s3, (r :: H2). split; [|eapply built_trans; [eapply steps_trans; [exact St1|exact St2]|intros x I; auto|exact B]]. cbn [walk]. unfold bind. rewrite E1, E2. cbn [binary sform]. unfold bind, up. cbn in E3. rewrite E3. reflexivity.
  - destruct F as [F1 F2]. destruct (lits_other (combine ls cs)) with (cv := cv) (s := s) (H := H) as (rs & s1 & H1 & E1 & L1 & St1 & I1 & Irs & Rs); [intros x I; apply (lits_adm ls P cs x I)|exact Hh|].
    pose proof (hist_more _ _ _ _ _ Hh St1) as Hh1.
    assert (Ms : map snd (combine ls cs) = cs). { clear -F2. revert ls F2. induction cs as [|c cs IH]; intros [|x ls] E; cbn in *; try discriminate; auto. rewrite IH; auto. }
    assert (Mf : map (fun x : lit * Z => TLit (fst x)) (combine ls cs) = map TLit ls). { clear -F2. revert ls F2. induction cs as [|c cs IH]; intros [|x ls] E; cbn in *; try discriminate; auto. rewrite IH; auto. }
    rewrite Ms in E1. rewrite Mf in Rs. assert (Lr : length cs = length rs). { pose proof (f2len Rs) as X. rewrite map_length in X. lia. }
    destruct (built_call cv s1 H1 (CPBC c k rs cs) (map TLit ls) (TPBC cc c k ls cs) Hh1) as (r & s2 & E2 & B).
    { split; auto. split; auto. clear -Rs. revert Rs. generalize ls. induction rs as [|r rs IH]; intros [|x ls0] Rs; inversion Rs; subst; constructor; eauto. match goal with R : Reads _ r (TLit x) |- _ => inversion R as [| |? ? X| | | | | |]; subst end. unfold LiteralNamePhase in X. red. destruct (srt r); congruence. }
    { exact Rs. }
    { intros b. cbn. rewrite map_map. cbn. rewrite map_id. reflexivity. }
    exists r, s2, (r :: H1). split; [|eapply built_trans; eauto]. cbn [walk]. unfold bind. rewrite E1. unfold up.
    assert (X1 : map fst (combine rs cs) = rs). { clear -Lr. revert rs Lr. induction cs as [|c cs IH]; intros [|x ls] E; cbn in *; try discriminate; auto. rewrite IH; auto. }
    assert (X2 : map snd (combine rs cs) = cs). { clear -Lr. revert rs Lr. induction cs as [|c cs IH]; intros [|x ls] E; cbn in *; try discriminate; auto. rewrite IH; auto. }
    rewrite X1, X2, atoi_decZ. cbn in E2. rewrite E2. reflexivity.
Qed.
