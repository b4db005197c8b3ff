(** * C63: the reader for MaxSAT files *)
From Coq Require Import String Ascii List Bool Arith ZArith NArith Lia DecimalString.
From Verif Require SatProps.
From Verif Require Import MaxSpec MaxSat MaxBase MaxProps.
From Verif Require Import Spec Factory FactoryProofs FactoryProofs2 FactoryProofs3 FactoryApi FactoryProps Assign AssignProps EncSpec EncApi EncPbc EncProps NormalForm NfBase NfAssign NfEnc NfNnf NfCnf NfTseitin NfApi NfProps MaxApi MaxApiInv MaxApiProps Dimacs DimacsProps Wcnf.
Import ListNotations.
Local Close Scope N_scope.
Local Open Scope list_scope.

(** ** Specification *)
(** A weighted clause is a weight and a clause of numbers, see [zclause].  Its line in a file has the weight, the numbers and a 0.
    The header has the number of variables, the number of clauses and the weight of the hard clauses. *)
Definition wLine (p : Z * list Z) : string := String.concat " " (zdec (fst p) :: map zdec (snd p) ++ ["0"%string]).
Definition wcnfText (nv : nat) (top : Z) (ps : list (Z * list Z)) : string :=
  String.concat "" (map (fun l => l ++ nl)%string (String.concat " " ["p"; "wcnf"; dec nv; dec (length ps); zdec top]%string :: map wLine ps)).
(** the formula of a clause; variable i of the file has the name vi *)
Definition means (t : tree) (c : list Z) : Prop := forall b, eval b t = zclause (fun i => b ("v" ++ dec i)%string) c.
Definition fits16 (l : string) : Prop := (N.of_nat (String.length l) < 65536)%N.

(** ** Strings *)
Definition word (w : string) : Prop := allc (fun c => negb (isSpace c)) w = true /\ w <> ""%string.
Lemma num_word w : allc isNum w = true -> w <> ""%string -> word w.
Proof. intros A N. split; auto. eapply allc_impl; [|exact A]. intros c Hc. destruct (num_nospace c Hc) as [-> _]. reflexivity. Qed.
Lemma zdec_word z : word (zdec z). Proof. apply num_word; [apply zdec_num|apply zdec_ne]. Qed.
Lemma dec_word n : word (dec n). Proof. apply num_word; [apply dec_num|apply dec_ne]. Qed.
Lemma sp_not c : isSpace c = false -> Ascii.eqb c " " = false.
Proof. intros H. apply Ascii.eqb_neq. intros ->. discriminate. Qed.
Lemma split_word w : forall cur r, allc (fun c => negb (isSpace c)) w = true -> splitSp cur (w ++ r)%string = splitSp (cur ++ w)%string r.
Proof.
  induction w as [|c w IH]; intros cur r H; [rewrite app_nil_s; auto|]. cbn in H. apply andb_true_iff in H as [Hc H]. apply negb_true_iff in Hc.
  cbn [append splitSp]. rewrite (sp_not c Hc), IH by auto. rewrite app_assoc_s. reflexivity.
Qed.
Lemma split_words : forall ws, Forall word ws -> ws <> [] -> splitSp "" (String.concat " " ws) = ws.
Proof.
  induction ws as [|w ws IH]; intros F N; [congruence|]. inversion F as [|? ? [Hw _] F']; subst. destruct ws as [|v ws].
  - cbn [String.concat]. rewrite <- (app_nil_s w) at 1. rewrite split_word by auto. reflexivity.
  - change (String.concat " " (w :: v :: ws)) with (w ++ " " ++ String.concat " " (v :: ws))%string. rewrite split_word by auto. cbn [append splitSp]. change (Ascii.eqb " " " ") with true. cbv iota. f_equal. apply IH; auto. discriminate.
Qed.
Lemma trimR_app a b : trimR b = b -> b <> ""%string -> trimR (a ++ b) = (a ++ b)%string.
Proof. intros H N. induction a as [|c a IH]; auto. cbn [append trimR]. rewrite IH. destruct a; cbn [append]; [destruct b; [congruence|reflexivity]|reflexivity]. Qed.
Lemma trimR_word w : word w -> trimR w = w.
Proof.
  intros [H _]. induction w as [|c w IH]; auto. cbn in H. apply andb_true_iff in H as [Hc H]. apply negb_true_iff in Hc. cbn [trimR]. rewrite (IH H), Hc. destruct w; reflexivity.
Qed.
Lemma trim_words ws : Forall word ws -> trim (String.concat " " ws) = String.concat " " ws.
Proof.
  intros F. unfold trim. assert (L : trimL (String.concat " " ws) = String.concat " " ws).
  { destruct ws as [|w ws]; auto. inversion F as [|? ? [Hw N] _]; subst. destruct w as [|c w]; [congruence|]. cbn in Hw. apply andb_true_iff in Hw as [Hc _]. apply negb_true_iff in Hc.
    destruct ws; cbn [String.concat append trimL]; rewrite Hc; reflexivity. }
  rewrite L. clear L. destruct (list_eq_dec string_dec ws []) as [->|N]; auto. destruct (exists_last N) as (l & w & ->). apply Forall_app in F as [_ F]. inversion F; subst.
  destruct l as [|a l]; [apply trimR_word; auto|]. rewrite concat_app1 by discriminate. rewrite <- app_assoc_s. apply trimR_app; [apply trimR_word; auto|apply H1].
Qed.
Lemma digits_dec n : digitsZ (dec n) = Some (Z.of_nat n).
Proof.
  unfold digitsZ, NilZero.uint_of_string, dec. pose proof (dec_ne n) as N. unfold dec in N. destruct (NilEmpty.string_of_uint (N.to_uint (N.of_nat n))) as [|c r] eqn:E; [congruence|].
  rewrite <- E, NilEmpty.usu, DecimalN.Unsigned.of_to. rewrite nat_N_Z. reflexivity.
Qed.
Lemma atoi_dec n : atoi (dec n) = Some (Z.of_nat n).
Proof.
  unfold atoi. pose proof (dec_digits n) as D. pose proof (dec_ne n) as N. pose proof (digits_dec n) as Q. destruct (dec n) as [|c r]; [congruence|]. cbn in D. apply andb_true_iff in D as [D _].
  assert (X : Ascii.eqb c "-" = false) by (apply Ascii.eqb_neq; intros ->; discriminate D). assert (Y : Ascii.eqb c "+" = false) by (apply Ascii.eqb_neq; intros ->; discriminate D). rewrite X, Y. exact Q.
Qed.
Lemma atoi_zdec z : atoi (zdec z) = Some z.
Proof.
  unfold zdec. destruct (Z.ltb_spec 0 z) as [L|L].
  - cbn [append]. rewrite atoi_dec. f_equal. lia.
  - cbn [append atoi]. change (Ascii.eqb "-" "-") with true. cbv iota. rewrite digits_dec. cbn [option_map]. f_equal. lia.
Qed.
Lemma words_noLF ws : Forall word ws -> noLF (String.concat " " ws) = true.
Proof.
  assert (W : forall w, word w -> noLF w = true). { intros w [H _]. eapply allc_impl; [|exact H]. intros c Hc. apply negb_true_iff in Hc. apply negb_true_iff, Ascii.eqb_neq. intros ->. discriminate Hc. }
  induction ws as [|w ws IH]; intros F; auto. inversion F; subst. destruct ws as [|v ws]; [apply W; auto|].
  change (String.concat " " (w :: v :: ws)) with (w ++ " " ++ String.concat " " (v :: ws))%string. unfold noLF in *. rewrite !allc_app. rewrite (W w) by auto. rewrite IH by auto. reflexivity.
Qed.
Definition headWords (nv : nat) (top : Z) (m : nat) : list string := ["p"; "wcnf"; dec nv; dec m; zdec top]%string.
Lemma head_words nv top m : Forall word (headWords nv top m).
Proof. unfold headWords. repeat constructor; try discriminate; auto using dec_num, zdec_num; try apply dec_word; try apply zdec_word. Qed.
Lemma wLine_words p : Forall word (zdec (fst p) :: map zdec (snd p) ++ ["0"%string]).
Proof. constructor; [apply zdec_word|]. apply Forall_app. split; [apply Forall_map, Forall_forall; intros; apply zdec_word|constructor; [split; [reflexivity|discriminate]|constructor]]. Qed.
Lemma scanned_all ls : (forall l, In l ls -> fits16 l) -> scanned ls = ls.
Proof. induction ls as [|l ls IH]; intros H; auto. cbn [scanned]. unfold lineFits. rewrite (proj2 (N.ltb_lt _ _) (H l (or_introl eq_refl))). rewrite IH; auto. intros k J. apply H. right; auto. Qed.
Lemma header_ok nv top m ls : header (String.concat " " (headWords nv top m) :: ls) = (false, top, ls).
Proof.
  cbn [header]. rewrite trim_words, split_words by (apply head_words || discriminate). change (4 <? length (headWords nv top m)) with true. change (nth 4 (headWords nv top m) EmptyString) with (zdec top). rewrite atoi_zdec. reflexivity.
Qed.

(** ** Clauses *)
Section Client.
Variables (cf : encConfig) (nf : cnfConfig) (alg : algo) (cv : bool).
Notation client := (mclient cf nf alg cv).
Lemma keeps_trans a b c : keeps a b -> keeps b c -> keeps a c.
Proof. unfold keeps. auto. Qed.
Lemma keeps_refl a : keeps a a.
Proof. unfold keeps. auto. Qed.
Lemma wext_keeps' s V s' V' : winv s V -> winv s' V' -> wext s V s' V' -> keeps s s'.
Proof. intros I I' X f t R. apply Reads_Den in R; [|apply I]. apply Reads_Den; [apply I'|]. eapply wext_Den; eauto. Qed.
Lemma client_call s H X K w hs ss c r s' : client s H X K w hs ss -> userCall c -> allowed H c -> run c s = (r, s') ->
  client s' (r :: H) X K w hs ss /\ keeps s s' /\ wf s /\ wf s'.
Proof.
  intros C U A E. destruct (mclient_inv _ _ _ _ _ _ _ _ _ _ _ C) as [V M]. pose proof (mi_linv _ _ _ _ _ _ _ _ _ M) as L. destruct (call_winv c s V H X r s' L U A E) as (V' & I' & X').
  split; [eapply mc_lib; [exact C|eapply l_call; eauto]|]. split; [eapply wext_keeps'; [apply (i_winv _ _ _ _ L)|exact I'|exact X']|]. split; [apply (i_winv _ _ _ _ L)|apply I'].
Qed.
Definition zl (z : Z) : lit := ("v" ++ dec (Z.abs_nat z), (0 <? z)%Z)%string.
Lemma litsOf_ok : forall zs s H X K w hs ss, client s H X K w hs ss ->
  exists ls s' H', litsOf (map zdec zs) s = Some (Some ls, s') /\ client s' H' X K w hs ss /\ incl H H' /\ incl ls H' /\ keeps s s' /\ Forall2 (Reads s') ls (map (fun z => TLit (zl z)) zs).
Proof.
  induction zs as [|z zs IH]; intros s H X K w hs ss C.
  - exists [], s, H. split; [reflexivity|]. split; auto. split; [apply incl_refl|]. split; [intros x []|]. split; [apply keeps_refl|constructor].
  - cbn [map litsOf]. rewrite atoi_zdec. destruct (Lit ("v" ++ dec (Z.abs_nat z))%string (0 <? z)%Z s) as [l s1] eqn:E.
    destruct (client_call _ _ _ _ _ _ _ (CLit ("v" ++ dec (Z.abs_nat z))%string (0 <? z)%Z) l s1 C eq_refl I E) as (C1 & K1 & W & W1).
    destruct (Lit_spec _ _ _ _ _ W E) as (_ & Nl & _). assert (Rl : Reads s1 l (TLit (zl z))) by (apply Reads_Den; auto; apply litDen_Den; exact Nl).
    destruct (IH s1 _ _ _ _ _ _ C1) as (ls & s2 & H2 & E2 & C2 & I1 & I2 & K2 & F2).
    exists (l :: ls), s2, H2. split.
    { pose proof (zdec_ne z) as Nz. destruct (zdec z) as [|c0 r0] eqn:Ez; [congruence|]. unfold bind at 1, up at 1. rewrite E. unfold bind at 1. rewrite E2. reflexivity. }
    split; auto. split; [intros x J; apply I1; right; auto|]. split; [intros x [<-|J]; [apply I1; left; auto|auto]|]. split; [eapply keeps_trans; eauto|]. constructor; auto.
Qed.
Lemma clause_means zs u : equiv u (TOr (map (fun z => TLit (zl z)) zs)) -> means u zs.
Proof.
  intros E b. rewrite (E b). cbn [eval]. unfold zclause. clear. induction zs as [|z zs IH]; cbn; auto. rewrite IH. f_equal. unfold zl, zlit, eval_lit. cbn [fst snd]. destruct (Z.ltb_spec 0 z); [replace (Z.abs_nat z) with (Z.to_nat z) by lia|replace (Z.abs_nat z) with (Z.to_nat (- z)) by lia]; auto.
Qed.
Lemma clause_ok zs s H X K w hs ss ls : client s H X K w hs ss -> incl ls H -> Forall2 (Reads s) ls (map (fun z => TLit (zl z)) zs) ->
  exists g u s', Or ls s = (g, s') /\ client s' (g :: H) X K w hs ss /\ keeps s s' /\ Reads s' g u /\ means u zs /\ pbfree u = true /\ freeT u.
Proof.
  intros C Il F. destruct (Or ls s) as [g s'] eqn:E. destruct (client_call _ _ _ _ _ _ _ (COr ls) g s' C I Il E) as (C1 & K1 & W & W1).
  assert (D : Forall2 (Den s) ls (map (fun z => TLit (zl z)) zs)) by (eapply Forall2_impl; [|exact F]; intros; apply Reads_Den; auto).
  destruct (mclient_inv _ _ _ _ _ _ _ _ _ _ _ C) as [V M]. destruct (winv_or s V ls _ g s' (i_winv _ _ _ _ (mi_linv _ _ _ _ _ _ _ _ _ M)) D E) as (_ & _ & u & Du & Eu & Su).
  exists g, u, s'. split; auto. split; auto. split; auto. split; [apply Reads_Den; auto|]. split; [apply clause_means; auto|]. split.
  - apply (or_shape_closed pbfree (map (fun z => TLit (zl z)) zs)); auto; [repeat split; reflexivity|]. apply forallb_forall. intros t J. apply in_map_iff in J as (z & <- & _). reflexivity.
  - intros x Hx. destruct (or_shape_occurs x _ _ Su Hx) as (t & J & Ho). apply in_map_iff in J as (z & <- & _). cbn in Ho. subst x. split; reflexivity.
Qed.

Definition wHard (top : Z) (ps : list (Z * list Z)) : list (list Z) := map snd (filter (fun p => Z.eqb (fst p) top) ps).
Definition wSoft (top : Z) (ps : list (Z * list Z)) : list (Z * list Z) := filter (fun p => negb (Z.eqb (fst p) top)) ps.
Definition softMeans (q : nat * tree) (p : Z * list Z) : Prop := Z.of_nat (fst q) = fst p /\ means (snd q) (snd p).
Lemma returns_bind {A B} (m : nat -> M A) (k : nat -> A -> M B) s a s1 b s2 : returns m s a s1 -> returns (fun n => k n a) s1 b s2 -> returns (fun n => bind (m n) (k n)) s b s2.
Proof. intros [n0 H0] [n1 H1]. exists (Nat.max n0 n1). intros n Hn. unfold bind. rewrite H0 by lia. apply H1. lia. Qed.
Lemma add_hard s H X K w hs ss f t : client s H X K w hs ss -> In f H -> Reads s f t -> pbfree t = true -> freeT t ->
  exists w' s', returns (fun n => addHardFormula cf nf n f w) s w' s' /\ client s' H X K w' (hs ++ [t]) ss /\ keeps s s'.
Proof.
  intros C J R P Fr. destruct (mclient_inv _ _ _ _ _ _ _ _ _ _ _ C) as [V M]. pose proof (mi_linv _ _ _ _ _ _ _ _ _ M) as L. pose proof (i_winv _ _ _ _ L) as I. pose proof (pbfree_encodable cf t P) as En.
  destruct (addAsCNF_hard alg [] cf nf f t s V w I (Reads_of _ _ _ _ _ _ L R) En) as (n0 & w' & s' & V' & Hn & I' & X2 & _).
  assert (Rt : returns (fun n => addHardFormula cf nf n f w) s w' s') by (exists n0; exact Hn). exists w', s'. split; auto. split; [eapply mc_hard; eauto|eapply wext_keeps'; eauto].
Qed.
Lemma add_soft s H X K w hs ss f t wt : client s H X K w hs ss -> In f H -> Reads s f t -> pbfree t = true -> freeT t -> (1 <= wt)%Z ->
  exists w' s', returns (fun n => addSoftFormula cf nf n f wt w) s (true, w') s' /\ client s' H X K w' hs (ss ++ [(Z.to_nat wt, t)]) /\ keeps s s'.
Proof.
  intros C J R P Fr Lw. destruct (mclient_inv _ _ _ _ _ _ _ _ _ _ _ C) as [V M]. pose proof (mi_linv _ _ _ _ _ _ _ _ _ M) as L. pose proof (i_winv _ _ _ _ L) as I. pose proof (pbfree_encodable cf t P) as En.
  destruct (addSoft_ok alg [] cf nf f t s V w wt I (Reads_of _ _ _ _ _ _ L R) En Lw) as (n0 & [b w'] & s' & V' & Hn & I' & X2 & B & _). cbn in B. subst b.
  assert (Rt : returns (fun n => addSoftFormula cf nf n f wt w) s (true, w') s') by (exists n0; exact Hn). exists w', s'. split; auto. split; [eapply mc_soft; eauto|eapply wext_keeps'; eauto].
Qed.
Definition lineOf (pure : bool) (p : Z * list Z) : string := if pure then clauseLine (snd p) else wLine p.
Definition isHard (pure : bool) (top : Z) (p : Z * list Z) : bool := negb pure && Z.eqb (fst p) top.
Definition wOf (pure : bool) (p : Z * list Z) : Z := if pure then 1%Z else fst p.
Lemma readClauses_ok pure top : forall ps s H X K w hs ss, client s H X K w hs ss -> (forall p, In p ps -> isHard pure top p = false -> (1 <= wOf pure p)%Z) ->
  exists s' H' w' hs' ss', returns (fun n => readClauses cf nf n pure top (map (lineOf pure) ps) w) s (true, w') s' /\ keeps s s' /\ incl H H' /\
    client s' H' X K w' (hs ++ hs') (ss ++ ss') /\ Forall2 means hs' (map snd (filter (isHard pure top) ps)) /\
    Forall2 (fun q p => Z.of_nat (fst q) = wOf pure p /\ means (snd q) (snd p)) ss' (filter (fun p => negb (isHard pure top p)) ps).
Proof.
  induction ps as [|p ps IH]; intros s H X K w hs ss C Hw.
  - exists s, H, w, [], []. rewrite !app_nil_r. split; [exists 0; reflexivity|]. split; [apply keeps_refl|]. split; [apply incl_refl|]. split; auto. split; constructor.
  - cbn [map readClauses]. set (toks := splitSp "" (trim (lineOf pure p))).
    assert (Et : toks = if pure then map zdec (snd p) ++ ["0"%string] else zdec (fst p) :: map zdec (snd p) ++ ["0"%string]).
    { unfold toks, lineOf. pose proof (wLine_words p) as F. destruct pure; [unfold clauseLine|unfold wLine].
      - inversion F; subst. rewrite trim_words, split_words; auto. destruct (snd p); discriminate.
      - rewrite trim_words, split_words; auto. discriminate. }
    assert (Ea : exists wt, atoi (hd EmptyString toks) = Some wt /\ (pure = false -> wt = fst p)).
    { rewrite Et. destruct pure; [destruct (snd p) as [|z zs]; cbn [map app hd]|cbn [hd]]; try rewrite atoi_zdec; eexists; split; try reflexivity; auto; discriminate. }
    destruct Ea as (wt & Ea & Ew). rewrite Ea.
    assert (El : (length toks <? (if pure then 0 else 1) + 1) = false) by (apply Nat.ltb_ge; rewrite Et; destruct pure; cbn [length]; rewrite app_length, map_length; cbn [length]; lia).
    rewrite El. assert (Es : removelast (skipn (if pure then 0 else 1) toks) = map zdec (snd p)) by (rewrite Et; destruct pure; cbn [skipn]; apply removelast_last). rewrite Es. clearbody toks. clear Et Ea El Es.
    destruct (litsOf_ok (snd p) s H X K w hs ss C) as (ls & s1 & H1 & E1 & C1 & I1 & I2 & K1 & F1).
    destruct (clause_ok (snd p) s1 H1 X K w hs ss ls C1 I2 F1) as (g & u & s2 & E2 & C2 & K2 & R2 & Mu & Pu & Fu).
    assert (A : exists w3 s3, returns (fun n => if pure then q <- addSoftFormula cf nf n g 1 w ;; ret (snd q) else if Z.eqb wt top then addHardFormula cf nf n g w else q <- addSoftFormula cf nf n g wt w ;; ret (snd q)) s2 w3 s3 /\ keeps s2 s3 /\
      client s3 (g :: H1) X K w3 (hs ++ if isHard pure top p then [u] else []) (ss ++ if isHard pure top p then [] else [(Z.to_nat (wOf pure p), u)])).
    { specialize (Hw p (or_introl eq_refl)). unfold isHard, wOf in *. destruct pure; cbn [negb andb] in *; [|rewrite (Ew eq_refl); destruct (Z.eqb (fst p) top)]; rewrite ?app_nil_r.
      - destruct (add_soft _ _ _ _ _ _ _ g u 1%Z C2 (or_introl eq_refl) R2 Pu Fu ltac:(lia)) as (w3 & s3 & R3 & C3 & K3). exists w3, s3. split; [eapply returns_bind; [exact R3|exists 0; reflexivity]|]. auto.
      - destruct (add_hard _ _ _ _ _ _ _ g u C2 (or_introl eq_refl) R2 Pu Fu) as (w3 & s3 & R3 & C3 & K3). exists w3, s3. auto.
      - destruct (add_soft _ _ _ _ _ _ _ g u (fst p) C2 (or_introl eq_refl) R2 Pu Fu (Hw eq_refl)) as (w3 & s3 & R3 & C3 & K3). exists w3, s3. split; [eapply returns_bind; [exact R3|exists 0; reflexivity]|]. auto. }
    destruct A as (w3 & s3 & R3 & K3 & C3).
    destruct (IH s3 _ _ _ _ _ _ C3 (fun q J => Hw q (or_intror J))) as (s' & H' & w' & hs' & ss' & R4 & K4 & I4 & C4 & Fh & Fs).
    exists s', H', w', ((if isHard pure top p then [u] else []) ++ hs'), ((if isHard pure top p then [] else [(Z.to_nat (wOf pure p), u)]) ++ ss').
    split; [|split; [|split; [|split; [rewrite !app_assoc; exact C4|]]]].
    + destruct R3 as [n3 R3], R4 as [n4 R4]. exists (Nat.max n3 n4). intros n Hn. unfold bind at 1. rewrite E1. unfold bind at 1, up at 1. rewrite E2. unfold bind at 1. rewrite R3 by lia. apply R4. lia.
    + eapply keeps_trans; [exact K1|]. eapply keeps_trans; [exact K2|]. eapply keeps_trans; eauto.
    + intros x J. apply I4. right. auto.
    + specialize (Hw p (or_introl eq_refl)). cbn [filter]. destruct (isHard pure top p) eqn:Eh; cbn [negb map app]; split; auto; constructor; auto. cbn [fst snd]. split; auto. specialize (Hw eq_refl). lia.
Qed.

Lemma filter_ext' {A} (f g : A -> bool) l : (forall x, f x = g x) -> filter f l = filter g l.
Proof. intros E. induction l as [|x l IH]; cbn; auto. rewrite E, IH. auto. Qed.
(** C63: a client with any history reads a file with weights.  The reader succeeds; afterwards the hard and the soft formulas of the solver are
    those it had before and one for each clause of the file, in the order of the file, with its weight. *)
Theorem C63_wcnf : forall s H X K w hs ss nv top ps, client s H X K w hs ss ->
  (forall p, In p ps -> fst p <> top -> (1 <= fst p)%Z) -> (forall p, In p ps -> fits16 (wLine p)) -> (N.of_nat (String.length (dec nv) + String.length (dec (length ps)) + String.length (zdec top)) < 60000)%N ->
  exists s' H' w' hs' ss', returns (fun n => readToSolver cf nf n (wcnfText nv top ps) w) s (true, w') s' /\ keeps s s' /\ incl H H' /\
    client s' H' X K w' (hs ++ hs') (ss ++ ss') /\ Forall2 means hs' (wHard top ps) /\ Forall2 softMeans ss' (wSoft top ps).
Proof.
  intros s H X K w hs ss nv top ps C Hw Fit Hd. unfold readToSolver, wcnfText. fold (headWords nv top (length ps)). rewrite scan_all.
  2:{ intros l [<-|J]; [apply words_noLF, head_words|]. apply in_map_iff in J as (p & <- & _). apply words_noLF, wLine_words. }
  rewrite scanned_all.
  2:{ intros l [<-|J]; [|apply in_map_iff in J as (p & <- & J); auto]. unfold fits16, headWords. cbn [String.concat]. rewrite !slen_app. cbn [String.length]. lia. }
  rewrite header_ok. destruct (readClauses_ok false top ps s H X K w hs ss C) as (s' & H' & w' & hs' & ss' & R & Kp & I & C' & Fh & Fs).
  { intros p J E. apply Hw; auto. unfold isHard in E. cbn in E. apply Z.eqb_neq; auto. }
  exists s', H', w', hs', ss'. split; [exact R|]. auto 7.
Qed.
(** A file without weights: every clause is a soft formula with weight 1. *)
Theorem C63_cnf : forall s H X K w hs ss nv cls, client s H X K w hs ss -> (forall c, In c cls -> fits16 (clauseLine c)) -> (N.of_nat (String.length (dec nv) + String.length (dec (length cls))) < 60000)%N ->
  exists s' H' w' ss', returns (fun n => readToSolver cf nf n (dimacsText nv cls) w) s (true, w') s' /\ keeps s s' /\ incl H H' /\
    client s' H' X K w' hs (ss ++ ss') /\ Forall2 (fun q c => fst q = 1 /\ means (snd q) c) ss' cls.
Proof.
  intros s H X K w hs ss nv cls C Fit Hd. unfold readToSolver. rewrite scan_text, scanned_all.
  2:{ intros l [<-|J]; [|apply in_map_iff in J as (c & <- & J); auto]. unfold fits16. rewrite !slen_app. cbn [String.length]. lia. }
  cbn [header]. change (String.prefix "p wcnf" ("p cnf " ++ dec nv ++ " " ++ dec (length cls))%string) with false. change (String.prefix "p cnf" ("p cnf " ++ dec nv ++ " " ++ dec (length cls))%string) with true. cbv iota.
  set (ps := map (fun c => (0%Z, c)) cls). destruct (readClauses_ok true (-1) ps s H X K w hs ss C) as (s' & H' & w' & hs' & ss' & R & Kp & I & C' & Fh & Fs); [intros; cbn; lia|].
  assert (E1 : filter (isHard true (-1)) ps = []) by (clear; unfold ps; induction cls; cbn; auto). assert (E2 : filter (fun p => negb (isHard true (-1) p)) ps = ps) by (clear; unfold ps; induction cls as [|c cls IH]; cbn in *; congruence).
  rewrite E1 in Fh. rewrite E2 in Fs. inversion Fh; subst. rewrite app_nil_r in C'. exists s', H', w', ss'. split; [|split; auto; split; auto; split; auto].
  - replace (map clauseLine cls) with (map (lineOf true) ps) by (unfold ps; rewrite map_map; reflexivity). exact R.
  - clear -Fs. unfold ps in Fs. remember (map _ cls) as l eqn:El. revert cls El. induction Fs as [|q p ss' l [A B] _ IH]; intros [|c cls] El; inversion El; subst; constructor; auto. cbn in *. split; auto. lia.
Qed.
End Client.

(** Reading a file into a new solver and solving: a reported optimum is the minimal weight of the violated soft clauses of the file among the assignments
    that satisfy its hard clauses, and an assignment attains it.  A report of unsatisfiability means that no assignment satisfies the hard clauses.  The
    conditions on the clause vectors ([padded]) and on the weights ([fitsW]) are those of C61. *)
Definition wCost (top : Z) (ps : list (Z * list Z)) (val : nat -> bool) : Z :=
  fold_right Z.add 0%Z (map (fun p => if zclause val (snd p) then 0%Z else fst p) (wSoft top ps)).
Definition wFeasible (top : Z) (ps : list (Z * list Z)) (val : nat -> bool) : Prop := forall c, In c (wHard top ps) -> zclause val c = true.
Definition asgOf (val : nat -> bool) : asg := fun x => match x with String _ r => match digitsZ r with Some z => val (Z.to_nat z) | None => false end | EmptyString => false end.
Lemma asgOf_var val i : asgOf val ("v" ++ dec i)%string = val i.
Proof. cbn [append asgOf]. rewrite digits_dec, Nat2Z.id. reflexivity. Qed.
Lemma zclause_ext v v' c : (forall i, v i = v' i) -> zclause v c = zclause v' c.
Proof. intros E. unfold zclause. induction c as [|z c IH]; cbn; auto. rewrite IH. unfold zlit. rewrite !E. reflexivity. Qed.
Lemma means_hard hs' cs b : Forall2 means hs' cs -> ((forall t, In t hs' -> eval b t = true) <-> forall c, In c cs -> zclause (fun i => b ("v" ++ dec i)%string) c = true).
Proof.
  intros F. induction F as [|t c hs' cs M _ IH]; [split; intros _ ? []|]. split; intros G x [<-|J].
  - rewrite <- (M b). apply G. left; auto.
  - revert x J. apply IH. intros u J. apply G. right; auto.
  - rewrite (M b). apply G. left; auto.
  - revert x J. apply IH. intros u J. apply G. right; auto.
Qed.
Lemma means_soft ss' ps b : Forall2 softMeans ss' ps -> Z.of_nat (violated ss' b) = fold_right Z.add 0%Z (map (fun p => if zclause (fun i => b ("v" ++ dec i)%string) (snd p) then 0%Z else fst p) ps).
Proof.
  unfold violated. induction 1 as [|q p ss' ps [A B] _ IH]; auto. cbn [map fold_right]. rewrite <- IH, <- (B b). cbn [list_sum fold_right]. rewrite Nat2Z.inj_add. f_equal. destruct (eval b (snd q)); auto.
Qed.
Lemma soft_weights ss' ps : Forall2 softMeans ss' ps -> map fst ss' = map (fun p => Z.to_nat (fst p)) ps.
Proof. induction 1 as [|q p ss' ps [A _] _ IH]; cbn; auto. rewrite IH. f_equal. lia. Qed.
Theorem C63_read_solve_partial : forall cf nf alg cv s H X K w nv top ps s1 w1 os hd k a s2 w2, mclient cf nf alg cv s H X K w [] [] ->
  (forall p, In p ps -> fst p <> top -> (1 <= fst p)%Z) -> (forall p, In p ps -> fits16 (wLine p)) -> (N.of_nat (String.length (dec nv) + String.length (dec (length ps)) + String.length (zdec top)) < 60000)%N ->
  returns (fun n => readToSolver cf nf n (wcnfText nv top ps) w) s (true, w1) s1 -> padded w1 = false -> fitsW alg (map (fun p => Z.to_nat (fst p)) (wSoft top ps)) -> (forall i, SatProps.fair (os i)) ->
  returns (fun _ => solveFormulas os hd k alg w1) s1 (a, w2) s2 ->
  match a with
  | AOptimum z ls => (exists val, wFeasible top ps val /\ wCost top ps val = Z.of_nat z) /\ forall val, wFeasible top ps val -> (Z.of_nat z <= wCost top ps val)%Z
  | AUnsat => forall val, ~ wFeasible top ps val
  | ACancelled => True
  end.
Proof.
  intros cf nf alg cv s H X K w nv top ps s1 w1 os hd k a s2 w2 C Hw Fit Hd Rr Pd Fw Fa Rs.
  destruct (C63_wcnf cf nf alg cv s H X K w [] [] nv top ps C Hw Fit Hd) as (s' & H' & w' & hs' & ss' & R & _ & _ & C' & Fh & Fs). cbn [app] in C'.
  destruct (returns_fun _ _ _ _ _ _ Rr R) as [E1 E2]. inversion E1; subst w' s'. clear E1 R. rewrite <- (soft_weights _ _ Fs) in Fw.
  assert (Back : forall val, wFeasible top ps val -> (forall t, In t hs' -> eval (asgOf val) t = true) /\ Z.of_nat (violated ss' (asgOf val)) = wCost top ps val).
  { intros val Fv. split.
    - apply (means_hard _ _ _ Fh). intros c J. rewrite (zclause_ext _ val) by (apply asgOf_var). apply Fv; auto.
    - rewrite (means_soft _ _ _ Fs). unfold wCost. f_equal. apply map_ext. intros p. rewrite (zclause_ext _ val) by (apply asgOf_var). reflexivity. }
  destruct a as [| |z ls]; auto.
  - intros val Fv. destruct (C61_unsat_partial _ _ _ _ _ _ _ _ _ _ _ _ _ _ _ _ C' Pd Fw Fa Rs (asgOf val)) as (t & J & Et). destruct (Back val Fv) as [B _]. rewrite (B t J) in Et. discriminate.
  - destruct (C61_optimum_partial _ _ _ _ _ _ _ _ _ _ _ _ _ _ _ _ _ _ C' Pd Fw Fa Rs) as (nps & _ & Nd & _ & A & B). split.
    + set (b := fun x => match find (fun np => String.eqb (fst np) x) nps with Some np => snd np | None => false end : bool).
      assert (Hb : forall np, In np nps -> eval_lit b np = true).
      { intros [x q] J. unfold eval_lit, b. cbn [fst snd]. assert (Ef : find (fun np => String.eqb (fst np) x) nps = Some (x, q)).
        { clear -Nd J. induction nps as [|[y r] nps IH]; [destruct J|]. cbn [map fst] in Nd. inversion Nd; subst. cbn [find fst]. destruct J as [E|J]; [inversion E; subst; rewrite String.eqb_refl; auto|].
          destruct (String.eqb_spec y x) as [->|_]; [|auto]. exfalso. apply H1. apply in_map_iff. exists (x, q). auto. }
        rewrite Ef. cbn. destruct q; reflexivity. }
      destruct (A b Hb) as [A1 A2]. exists (fun i => b ("v" ++ dec i)%string). split; [unfold wFeasible; apply (means_hard _ _ _ Fh); auto|]. rewrite <- A2, (means_soft _ _ _ Fs). reflexivity.
    + intros val Fv. destruct (Back val Fv) as [B1 B2]. rewrite <- B2. apply Nat2Z.inj_le. apply B; auto.
Qed.

(** ** Files that the reader does not handle *)
Lemma scanned_stop ls l r : (forall k, In k ls -> fits16 k) -> ~ fits16 l -> scanned (ls ++ l :: r) = ls.
Proof.
  intros H N. induction ls as [|k ls IH]; cbn [app scanned]; unfold lineFits.
  - destruct (N.ltb_spec (N.of_nat (String.length l)) 65536); auto. contradiction.
  - rewrite (proj2 (N.ltb_lt _ _) (H k (or_introl eq_refl))). rewrite IH; auto. intros j J. apply H. right; auto.
Qed.
(** The reader drops a clause with a line of 64 KiB or more, and all clauses after it, and reports no error. *)
Theorem C63_long_line_refuted : exists p, forall cf nf alg cv s H X K w hs ss nv top ps1 ps2, mclient cf nf alg cv s H X K w hs ss ->
  (forall p, In p ps1 -> fst p <> top -> (1 <= fst p)%Z) -> (forall p, In p ps1 -> fits16 (wLine p)) ->
  (N.of_nat (String.length (dec nv) + String.length (dec (length (ps1 ++ p :: ps2))) + String.length (zdec top)) < 60000)%N ->
  exists s' H' w' hs' ss', returns (fun n => readToSolver cf nf n (wcnfText nv top (ps1 ++ p :: ps2)) w) s (true, w') s' /\
    mclient cf nf alg cv s' H' X K w' (hs ++ hs') (ss ++ ss') /\ Forall2 means hs' (wHard top ps1) /\ Forall2 softMeans ss' (wSoft top ps1).
Proof.
  exists (1%Z, repeat 1%Z (N.to_nat 40000)). intros cf nf alg cv s H X K w hs ss nv top ps1 ps2 C Hw Fit Hd.
  remember (1%Z, repeat 1%Z (N.to_nat 40000)) as p eqn:Ep.
  assert (Long : ~ fits16 (wLine p)).
  { unfold fits16. intros L. assert (E : 2 * length (zdec (fst p) :: map zdec (snd p) ++ ["0"%string]) <= String.length (wLine p) + 1) by (apply concat_len; intros x J; eapply (proj1 (Forall_forall _ _) (wLine_words p) x J)).
    cbn [length] in E. rewrite app_length, map_length in E. subst p. cbn [snd] in E. rewrite repeat_length in E. cbn [fst] in *. lia. }
  clear Ep. unfold readToSolver, wcnfText. fold (headWords nv top (length (ps1 ++ p :: ps2))). rewrite scan_all.
  2:{ intros l [<-|J]; [apply words_noLF, head_words|]. apply in_map_iff in J as (q & <- & _). apply words_noLF, wLine_words. }
  rewrite map_app. cbn [map]. rewrite app_comm_cons, scanned_stop; auto.
  2:{ intros l [<-|J]; [|apply in_map_iff in J as (q & <- & J); auto]. unfold fits16, headWords. cbn [String.concat]. rewrite !slen_app. cbn [String.length]. lia. }
  rewrite header_ok. destruct (readClauses_ok cf nf alg cv false top ps1 s H X K w hs ss C) as (s' & H' & w' & hs' & ss' & R & Kp & I & C' & Fh & Fs).
  { intros q J E. apply Hw; auto. unfold isHard in E. cbn in E. apply Z.eqb_neq; auto. }
  exists s', H', w', hs', ss'. split; [exact R|]. auto 7.
Qed.
(** It panics at a line with a weight and nothing else. *)
Theorem C63_short_line_refuted : forall cf nf n w s, readToSolver cf nf n ("p wcnf 1 1 9" ++ nl ++ "5" ++ nl)%string w s = None.
Proof. reflexivity. Qed.
(** It reports an error for an empty line and for a comment after the header. *)
Theorem C63_empty_line_refuted : forall cf nf n w s l, l = ""%string \/ l = "c a comment"%string ->
  readToSolver cf nf n ("p wcnf 1 1 9" ++ nl ++ l ++ nl ++ "9 1 0" ++ nl)%string w s = Some ((false, w), s).
Proof. intros cf nf n w s l [-> | ->]; reflexivity. Qed.

(** ** Example *)
(** a hard clause with the weight 9 of the header and two soft clauses *)
Definition psEx : list (Z * list Z) := [(9, [1; -2]); (3, [2]); (4, [-1; 2])]%Z.
Definition textEx : string := ("p wcnf 2 3 9" ++ nl ++ "9 1 -2 0" ++ nl ++ "3 2 0" ++ nl ++ "4 -1 2 0" ++ nl)%string.
Example wcnf_example : mclient exCf exNf' LinearSU false (newFactory false) [ffalse; ftrue] [] [] newMaxw [] [] /\
  wcnfText 2 9 psEx = textEx /\ (forall p, In p psEx -> fst p <> 9%Z -> (1 <= fst p)%Z) /\ (forall p, In p psEx -> fits16 (wLine p)) /\
  wHard 9 psEx = [[1; -2]]%Z /\ wSoft 9 psEx = [(3, [2]); (4, [-1; 2])]%Z /\
  match readToSolver exCf exNf' 20 textEx newMaxw (newFactory false) with
  | Some ((true, w), _) => mnames w = ["v1"; "v2"; "@SEL_SOFT_0"; "@SEL_SOFT_1"]%string /\ padded w = false
  | _ => False
  end.
Proof.
  split; [apply mc_new|]. split; [vm_compute; reflexivity|]. split; [intros p J; cbn in J; repeat (destruct J as [<-|J]; [cbn; lia|]); destruct J|].
  split; [intros p J; cbn in J; repeat (destruct J as [<-|J]; [vm_compute; reflexivity|]); destruct J|]. split; [reflexivity|]. split; [reflexivity|]. vm_compute. auto.
Qed.

(** solved: the optimum 2 of a fourth clause is found *)
Definition psEx2 : list (Z * list Z) := psEx ++ [(2, [-2])]%Z.
Example read_solve_example : fitsW (WBO false WeightNone) (map (fun p => Z.to_nat (fst p)) (wSoft 9 psEx2)) /\ (forall i, SatProps.fair (exOs i)) /\
  match readToSolver exCf exNf' 20 (wcnfText 2 9 psEx2) newMaxw (newFactory false) with
  | Some ((true, w), s) => padded w = false /\ match solveFormulas exOs go 60 (WBO false WeightNone) w s with Some (AOptimum z _, _, _) => z = 2 | _ => False end
  | _ => False
  end.
Proof. split; [right; left; eauto|]. split; [intros i; apply goO_fair|]. vm_compute. auto. Qed.

Print Assumptions C63_wcnf.
Print Assumptions C63_cnf.
Print Assumptions C63_long_line_refuted.
Print Assumptions C63_short_line_refuted.
Print Assumptions C63_empty_line_refuted.
Print Assumptions C63_read_solve_partial.
