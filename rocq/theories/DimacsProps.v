(** * C45: DIMACS files *)
From Coq Require Import String Ascii List Bool Arith ZArith NArith Lia Permutation DecimalString.
From Verif Require Import Spec Factory FactoryProofs FactoryProofs2 FactoryProofs3 FactoryApi FactoryProps Assign EncSpec NormalForm NfBase NfAssign NfSubst AssignProps NfNnf NfCnf NfTseitin NfFun NfApi NfProps Dimacs.
Import ListNotations.
Local Open Scope string_scope.

(** ** Specification *)
(** a clause of a DIMACS file is a list of integers other than 0 *)
Definition zlit (val : nat -> bool) (z : Z) : bool := if (0 <? z)%Z then val (Z.to_nat z) else negb (val (Z.to_nat (- z))).
Definition zclause (val : nat -> bool) (c : list Z) : bool := existsb (zlit val) c.
Definition zdec (z : Z) : string := (if (0 <? z)%Z then "" else "-") ++ dec (Z.abs_nat z).
(** its line: the numbers and a 0, separated by spaces *)
Definition clauseLine (c : list Z) : string := String.concat " " (map zdec c ++ ["0"])%list.
Definition dimacsText (nv : nat) (cls : list (list Z)) : string :=
  "p cnf " ++ dec nv ++ " " ++ dec (length cls) ++ nl ++ String.concat "" (map (fun c => clauseLine c ++ nl) cls).
Definition validClause (nv : nat) (c : list Z) : Prop := forall z, In z c -> z <> 0%Z /\ (Z.abs_nat z <= nv)%nat.
(** the conjuncts of a CNF *)
Definition conjuncts (t : tree) : list tree := match t with TTrue => [] | TAnd ts => ts | _ => [t] end.

(** ** Strings *)
Lemma app_assoc_s : forall a b c : string, (a ++ b) ++ c = a ++ (b ++ c).
Proof. induction a; cbn; intros; congruence. Qed.
Lemma app_nil_s : forall a, a ++ "" = a.
Proof. induction a; cbn; congruence. Qed.
Fixpoint allc (p : ascii -> bool) (t : string) : bool := match t with EmptyString => true | String c r => p c && allc p r end.
Lemma allc_app p a b : allc p (a ++ b) = allc p a && allc p b.
Proof. induction a; cbn; auto. rewrite IHa. apply andb_assoc. Qed.
Lemma allc_impl (p q : ascii -> bool) t : (forall c, p c = true -> q c = true) -> allc p t = true -> allc q t = true.
Proof. intros H. induction t; cbn; auto. intros E. apply andb_true_iff in E as [E1 E2]. rewrite H, IHt; auto. Qed.
Definition isDigit (c : ascii) : bool := let n := nat_of_ascii c in ((48 <=? n) && (n <=? 57))%nat.
Lemma digits_uint : forall u, allc isDigit (NilEmpty.string_of_uint u) = true.
Proof. induction u; cbn [NilEmpty.string_of_uint allc]; auto. Qed.
Lemma dec_digits n : allc isDigit (dec n) = true.
Proof. apply digits_uint. Qed.
Lemma dec_ne n : dec n <> "".
Proof.
  unfold dec. intros E. assert (N.to_uint (N.of_nat n) = Decimal.Nil) by (destruct (N.to_uint (N.of_nat n)); cbn in E; try discriminate; auto).
  pose proof (DecimalN.Unsigned.of_to (N.of_nat n)) as X. rewrite H in X. cbn in X. rewrite <- X in H. discriminate.
Qed.
Lemma dec_inj m n : dec m = dec n -> m = n.
Proof. intros H. apply Nnat.Nat2N.inj. apply digits_inj. exact H. Qed.
(** characters of the numbers *)
Definition isNum (c : ascii) : bool := isDigit c || Ascii.eqb c "-".
Lemma zdec_num z : allc isNum (zdec z) = true.
Proof. unfold zdec. rewrite allc_app. rewrite (allc_impl isDigit isNum (dec _)); [|unfold isNum; intros c ->; auto|apply dec_digits]. destruct (0 <? z)%Z; auto. Qed.
Lemma zdec_ne z : zdec z <> "".
Proof. unfold zdec. destruct (0 <? z)%Z; cbn; [apply dec_ne|discriminate]. Qed.
Lemma num_nospace c : isNum c = true -> isSpace c = false /\ Ascii.eqb c LF = false.
Proof.
  unfold isNum, isDigit, isSpace. intros H. apply orb_true_iff in H as [H|H].
  - apply andb_true_iff in H as [H1 H2]. apply Nat.leb_le in H1, H2. split.
    + destruct (Nat.leb_spec 9 (nat_of_ascii c)), (Nat.leb_spec (nat_of_ascii c) 13), (Nat.eqb_spec (nat_of_ascii c) 32); cbn; auto; lia.
    + apply Ascii.eqb_neq. intros ->. cbn in *. lia.
  - apply Ascii.eqb_eq in H. subst. auto.
Qed.
Lemma fields_word w : forall cur r, allc isNum w = true -> fields cur (w ++ r) = fields (cur ++ w) r.
Proof.
  induction w as [|c w IH]; intros cur r H; cbn [append]; [rewrite app_nil_s; auto|]. cbn in H. apply andb_true_iff in H as [H1 H2]. cbn [fields]. rewrite (proj1 (num_nospace c H1)). rewrite IH by auto. rewrite app_assoc_s. auto.
Qed.
Lemma fields_line : forall ws, Forall (fun w => allc isNum w = true /\ w <> "") ws -> fields "" (String.concat " " ws) = ws.
Proof.
  induction ws as [|w ws IH]; intros F; auto. inversion F as [|? ? [A B] F']; subst. destruct ws as [|w2 ws].
  - cbn [String.concat]. rewrite <- (app_nil_s w) at 1. rewrite fields_word by auto. cbn. destruct w; congruence.
  - change (String.concat " " (w :: w2 :: ws)) with (w ++ (" " ++ String.concat " " (w2 :: ws))). rewrite fields_word by auto. cbn [append]. cbn [fields]. change (isSpace " ") with true. cbv iota. rewrite IH by auto. destruct w; congruence.
Qed.
Definition noLF (t : string) : bool := allc (fun c => negb (Ascii.eqb c LF)) t.
Lemma scan_word w : forall cur r, noLF w = true -> scanLines cur (w ++ r) = scanLines (cur ++ w) r.
Proof.
  induction w as [|c w IH]; intros cur r H; cbn [append]; [rewrite app_nil_s; auto|]. unfold noLF in H; cbn [allc] in H. apply andb_true_iff in H as [H1 H2]. cbn [scanLines]. destruct (Ascii.eqb c LF); [discriminate H1|]. rewrite IH by auto. rewrite app_assoc_s. auto.
Qed.
Lemma scan_line w r : noLF w = true -> scanLines "" (w ++ nl ++ r) = w :: scanLines "" r.
Proof. intros H. rewrite scan_word by auto. cbn. auto. Qed.
Lemma concat_cons a l : String.concat "" (a :: l) = a ++ String.concat "" l.
Proof. destruct l; cbn; [rewrite app_nil_s|]; auto. Qed.
Lemma scan_all : forall ls, (forall l, In l ls -> noLF l = true) -> scanLines "" (String.concat "" (map (fun l => l ++ nl) ls)) = ls.
Proof.
  induction ls as [|l r IH]; intros H; auto. cbn [map]. rewrite concat_cons, app_assoc_s, scan_line; [|apply H; left; auto]. rewrite IH; auto. intros; apply H; right; auto.
Qed.
Lemma num_noLF w : allc isNum w = true -> noLF w = true.
Proof. apply allc_impl. intros c H. rewrite (proj2 (num_nospace c H)). auto. Qed.
Lemma concat_noLF : forall ws, Forall (fun w => allc isNum w = true) ws -> noLF (String.concat " " ws) = true.
Proof.
  induction ws as [|w ws IH]; intros F; auto. inversion F as [|? ? A F']; subst. destruct ws as [|w2 ws]; [cbn; apply num_noLF; auto|].
  change (String.concat " " (w :: w2 :: ws)) with (w ++ (" " ++ String.concat " " (w2 :: ws))). unfold noLF. rewrite !allc_app. fold (noLF w) (noLF (String.concat " " (w2 :: ws))). rewrite (num_noLF w A), IH; auto.
Qed.
Lemma tokens_ok c : Forall (fun w => allc isNum w = true /\ w <> "") (map zdec c ++ ["0"])%list.
Proof. apply Forall_app. split; [|constructor; [split; [reflexivity|discriminate]|constructor]]. apply Forall_forall. intros w I. apply in_map_iff in I as (z & <- & _). split; [apply zdec_num|apply zdec_ne]. Qed.
Lemma clauseLine_noLF c : noLF (clauseLine c) = true.
Proof. apply concat_noLF. eapply Forall_impl; [|apply tokens_ok]. cbn. tauto. Qed.
Lemma clauseLine_first c : hasPrefix "c" (clauseLine c) = false /\ hasPrefix "p" (clauseLine c) = false.
Proof.
  assert (H : exists a r, clauseLine c = String a r /\ isNum a = true).
  { unfold clauseLine. pose proof (tokens_ok c) as F. destruct (map zdec c ++ ["0"])%list as [|w ws] eqn:E; [destruct (map zdec c); discriminate|]. inversion F as [|? ? [A B] _]; subst. destruct w as [|a w]; [congruence|]. cbn in A. apply andb_true_iff in A as [A _]. exists a. destruct ws; cbn; eauto. }
  destruct H as (a & r & -> & H). cbn. unfold isNum, isDigit in H. split; apply Ascii.eqb_neq; intros ->; cbn in H; discriminate.
Qed.
Lemma dec_num n : allc isNum (dec n) = true.
Proof. eapply allc_impl; [|apply dec_digits]. unfold isNum. intros c ->. auto. Qed.
Lemma scan_text nv cls : scanLines "" (dimacsText nv cls) = ("p cnf " ++ dec nv ++ " " ++ dec (length cls)) :: map clauseLine cls.
Proof.
  unfold dimacsText. replace ("p cnf " ++ dec nv ++ " " ++ dec (length cls) ++ nl ++ String.concat "" (map (fun c => clauseLine c ++ nl) cls)) with (("p cnf " ++ dec nv ++ " " ++ dec (length cls)) ++ nl ++ String.concat "" (map (fun c => clauseLine c ++ nl) cls)) by (rewrite !app_assoc_s; auto).
  rewrite scan_line. 2:{ unfold noLF. rewrite !allc_app. fold (noLF (dec nv)) (noLF (dec (length cls))). rewrite (num_noLF (dec nv)), (num_noLF (dec (length cls))) by apply dec_num. reflexivity. }
  f_equal. rewrite <- (map_map clauseLine (fun l => l ++ nl)). apply scan_all. intros l I. apply in_map_iff in I as (c & <- & _). apply clauseLine_noLF.
Qed.

(** ** Reader *)
Definition zname (pfx : string) (z : Z) : lit := (pfx ++ dec (Z.abs_nat z), (0 <? z)%Z).
Lemma readLit_call pfx z : exists c, readLit pfx (zdec z) = run c /\ (forall H, allowed H c) /\ operands_of c = [] /\ forall s, promise c s [] = TLit (zname pfx z).
Proof.
  unfold zdec, zname. destruct (0 <? z)%Z.
  - exists (CVar (pfx ++ dec (Z.abs_nat z))). cbn [append]. pose proof (dec_digits (Z.abs_nat z)) as D. pose proof (dec_ne (Z.abs_nat z)) as N. unfold readLit. destruct (dec (Z.abs_nat z)) as [|c r] eqn:E; [congruence|]. cbn in D. apply andb_true_iff in D as [D _].
    assert (X : Ascii.eqb c "-" = false) by (apply Ascii.eqb_neq; intros ->; discriminate D). rewrite X. split; auto. split; [intros; exact I|]. split; auto.
  - exists (CLit (pfx ++ dec (Z.abs_nat z)) false). cbn. auto.
Qed.
Lemma history_step ok cv s H c r s' : history ok cv s H -> ok c -> allowed H c -> run c s = (r, s') -> history ok cv s' (r :: H).
Proof. intros Hh Ho Ha Hr. eapply steps_more; [exact Hh|]. econstructor; eauto. Qed.
Lemma history_reads cv s H s' H' l us : history anycall cv s H -> steps anycall (s, H) (s', H') -> incl l H -> Forall2 (Reads s) l us -> Forall2 (Reads s') l us.
Proof. intros Hh St Hi F. induction F as [|x y l us R F IH]; [constructor|]. constructor; [eapply C01_immutable; eauto; apply Hi; left; auto|apply IH; intros z I; apply Hi; right; auto]. Qed.
Lemma steps_trans ok a b c : steps ok a b -> steps ok b c -> steps ok a c.
Proof. intros H1 H2. revert H1. induction H2 as [|w1 w2 w3 H2 IH St]; intros H1; [exact H1|]. eapply steps_more; [apply IH; exact H1|exact St]. Qed.
Lemma readLits_ok pfx : forall zs s H cv ls s', history anycall cv s H -> readLits pfx (map zdec zs) s = (ls, s') ->
  exists H' us, steps anycall (s, H) (s', H') /\ incl H H' /\ incl ls H' /\ Forall2 (Reads s') ls us /\ Forall2 (fun u z => forall b, eval b u = eval_lit b (zname pfx z)) us zs.
Proof.
  induction zs as [|z zs IH]; intros s H cv ls s' Hh E; cbn [map readLits] in E.
  - inversion E; subst. exists H, []. split; [constructor|]. repeat split; try constructor; try apply incl_refl. intros x [].
  - destruct (readLit_call pfx z) as (c & Ec & Ac & Oc & Pc). rewrite Ec in E. destruct (run c s) as [l s1] eqn:R. destruct (readLits pfx (map zdec zs) s1) as [ls' s2] eqn:E2. inversion E; subst.
    assert (Hh1 : history anycall cv s1 (l :: H)) by (eapply history_step; eauto; exact I).
    destruct (C03_meaning anycall cv s H c l s1 [] Hh (Ac H) R ltac:(rewrite Oc; constructor)) as (t & Rt & Et). rewrite Pc in Et.
    destruct (IH s1 (l :: H) cv ls' s' Hh1 E2) as (H' & us & St & I1 & I2 & F1 & F2). exists H', (t :: us). split; [eapply steps_trans; [|exact St]; eapply steps_more; [apply steps_refl|]; econstructor; eauto; exact I|].
    split; [intros x Ix; apply I1; right; auto|]. split; [intros x [<-|Ix]; [apply I1; left; auto|auto]|]. split; [|constructor; auto]. constructor; auto. eapply C01_immutable; eauto. left; auto.
Qed.
Definition clauseMeans (pfx : string) (u : tree) (c : list Z) : Prop := forall b, eval b u = existsb (fun z => eval_lit b (zname pfx z)) c.
Lemma readLoop_ok pfx : forall cls acc aus s H cv, history anycall cv s H -> (forall c, In c cls -> lineFits (clauseLine c) = true) -> incl acc H -> Forall2 (Reads s) acc aus ->
  exists gs us s' H', readLoop pfx (map clauseLine cls) acc s = (ReadOk (acc ++ gs)%list, s') /\ steps anycall (s, H) (s', H') /\ incl (acc ++ gs)%list H' /\ Forall2 (Reads s') (acc ++ gs)%list (aus ++ us)%list /\ Forall2 (clauseMeans pfx) us cls.
Proof.
  induction cls as [|c cls IH]; intros acc aus s H cv Hh Fit Ia Fa; cbn [map readLoop].
  - exists [], [], s, H. rewrite !app_nil_r. split; auto. split; [constructor|]. auto.
  - rewrite (Fit c) by (left; auto). cbn [negb]. destruct (clauseLine_first c) as [-> ->]. cbn [orb]. unfold clauseLine at 1. rewrite (fields_line _ (tokens_ok c)). rewrite rev_app_distr. cbn [rev app].
    change (negb ("0" =? "0")) with false. cbv iota. rewrite rev_involutive. destruct (readLits pfx (map zdec c) s) as [vs s1] eqn:E. destruct (readLits_ok pfx c s H cv vs s1 Hh E) as (H1 & us1 & St1 & I1 & I2 & F1 & F2).
    assert (Hh1 : history anycall cv s1 H1) by (eapply steps_trans; eauto). destruct (Or vs s1) as [g s2] eqn:Eo.
    destruct (C03_meaning anycall cv s1 H1 (COr vs) g s2 us1 Hh1 I2 Eo F1) as (t & Rt & Et). assert (Hh2 : history anycall cv s2 (g :: H1)) by (eapply (history_step _ _ _ _ (COr vs)); eauto; exact I).
    assert (St2 : steps anycall (s, H) (s2, g :: H1)) by (eapply steps_more; [exact St1|]; apply (step_call _ (COr vs)); auto; exact I).
    assert (Ia2 : incl (acc ++ [g])%list (g :: H1)) by (intros x Ix; apply in_app_iff in Ix as [Ix|[<-|[]]]; [right; auto|left; auto]).
    assert (Fa2 : Forall2 (Reads s2) (acc ++ [g])%list (aus ++ [t])%list) by (apply Forall2_app; [eapply (history_reads cv s H); eauto|constructor; auto]).
    destruct (IH (acc ++ [g])%list (aus ++ [t])%list s2 (g :: H1) cv Hh2 ltac:(intros; apply Fit; right; auto) Ia2 Fa2) as (gs & us & s' & H' & E' & St' & Ig & Fg & Fc).
    exists (g :: gs), (t :: us), s', H'. rewrite <- !app_assoc in *. cbn [app] in *. split; auto. split; [eapply steps_trans; eauto|]. split; auto. split; auto. constructor; auto.
    intros b. rewrite Et. cbn [promise eval]. clear - F2. induction F2; cbn; auto. rewrite H, IHF2. auto.
Qed.
(** Reading a file yields one formula for each clause, with the meaning of the clause; what the client held before is unchanged. *)
Theorem C45_read : forall cv s H pfx nv cls, history anycall cv s H -> (forall c, In c cls -> N.of_nat (String.length (clauseLine c)) < 65536)%N -> (N.of_nat (String.length (dec nv ++ dec (length cls))) < 60000)%N ->
  exists gs us s' H', readDimacs pfx (dimacsText nv cls) s = (ReadOk gs, s') /\ steps anycall (s, H) (s', H') /\ incl gs H' /\ Forall2 (Reads s') gs us /\
    Forall2 (fun u c => forall b, eval b u = zclause (fun i => b (pfx ++ dec i)) c) us cls.
Proof.
  intros cv s H pfx nv cls Hh Fit Hd. unfold readDimacs. rewrite scan_text. cbn [readLoop].
  assert (Hf : lineFits ("p cnf " ++ dec nv ++ " " ++ dec (length cls)) = true).
  { unfold lineFits. apply N.ltb_lt. assert (L : forall a b, String.length (a ++ b) = (String.length a + String.length b)%nat) by (induction a; cbn; intros; auto). rewrite !L in *. cbn [String.length]. lia. }
  rewrite Hf. cbn [negb]. change (hasPrefix "p" ("p cnf " ++ dec nv ++ " " ++ dec (length cls))) with true. rewrite orb_true_r.
  destruct (readLoop_ok pfx cls [] [] s H cv Hh) as (gs & us & s' & H' & E & St & Ig & Fg & Fc); auto.
  { intros c I. apply N.ltb_lt. auto. }
  { intros x []. }
  cbn [app] in *. exists gs, us, s', H'. split; auto. split; auto. split; auto. split; auto. eapply Forall2_impl; [|exact Fc]. cbv beta. intros u c Hu b. rewrite Hu. unfold zclause. clear. induction c as [|z c IH]; cbn; auto. rewrite IH. f_equal. unfold zname, zlit, eval_lit. cbn [fst snd]. rewrite Zabs2Nat.abs_nat_spec. destruct (Z.ltb_spec 0 z); [rewrite Z.abs_eq by lia|rewrite Z.abs_neq by lia]; auto.
Qed.

(** ** Writer *)
Definition zOf (i : nat) (p : bool) : Z := if p then Z.of_nat (S i) else (- Z.of_nat (S i))%Z.
Lemma zdec_of i p : zdec (zOf i p) = ((if p then "" else "-") ++ dec (S i)).
Proof.
  unfold zdec, zOf. destruct p.
  - destruct (Z.ltb_spec 0 (Z.of_nat (S i))); [|lia]. rewrite Zabs2Nat.id. auto.
  - destruct (Z.ltb_spec 0 (- Z.of_nat (S i))); [lia|]. rewrite Zabs2Nat.abs_nat_spec, Z.abs_opp, <- Zabs2Nat.abs_nat_spec, Zabs2Nat.id. auto.
Qed.
Lemma zlit_of val i p : zlit val (zOf i p) = if p then val (S i) else negb (val (S i)).
Proof.
  unfold zlit, zOf. destruct p.
  - destruct (Z.ltb_spec 0 (Z.of_nat (S i))); [|lia]. rewrite Nat2Z.id. auto.
  - destruct (Z.ltb_spec 0 (- Z.of_nat (S i))); [lia|]. rewrite Z.opp_involutive, Nat2Z.id. auto.
Qed.
Lemma idOf_ok s : wf s -> forall vs xs k i x, Forall2 (fun v x => litDen s v (x, true)) vs xs -> NoDup xs -> nth_error xs i = Some x -> forall v, litDen s v (x, true) ->
  idOf (combine vs (seq k (length vs))) v = (k + i)%nat.
Proof.
  intros Hw vs xs k i x F. revert k i. induction F as [|w y vs xs D F IH]; intros k i Nd E v Dv; [destruct i; discriminate|]. cbn [length seq combine idOf]. apply NoDup_cons_iff in Nd as [Ny Nd]. destruct i as [|i]; cbn in E.
  - inversion E; subst. rewrite (litDen_inj s Hw w v (x, true) D Dv), feqb_refl. lia.
  - destruct (feqb_spec w v) as [->|]; [|rewrite (IH (S k) i Nd E v Dv); lia]. pose proof (litDen_fun s v _ _ D Dv) as X. inversion X; subst. exfalso. apply Ny. eapply nth_error_In; eauto.
Qed.
Definition numbered (s : state) (vs : list formula) (xs : list string) : Prop := Forall2 (fun v x => litDen s v (x, true)) vs xs /\ NoDup xs.
Lemma writeLit_ok s vs xs l x p : wf s -> numbered s vs xs -> litDen s l (x, p) -> In x xs -> exists i, (i < length xs)%nat /\ nth_error xs i = Some x /\ writeLit (combine vs (seq 1 (length vs))) l s = zdec (zOf i p).
Proof.
  intros Hw [F Nd] D I. apply In_nth_error in I as [i E]. exists i. split; [apply nth_error_Some; congruence|]. split; auto. rewrite zdec_of. unfold writeLit. assert (L : LitNamePhase l s = Some (x, p)). { pose proof (proj2 (LiteralNamePhase_node s l (x, p) Hw) D) as X. unfold LiteralNamePhase in X. unfold LitNamePhase. destruct (srt l); auto; discriminate. }
  rewrite L. rewrite (idOf_ok s Hw vs xs 1 i x F Nd E); [auto|]. eapply litVariable_den; eauto.
Qed.
(** the numbers stand for the names *)
Definition agrees (xs : list string) (val : nat -> bool) (b : asg) : Prop := forall i x, nth_error xs i = Some x -> val (S i) = b x.
Lemma writeLits_ok s vs xs : wf s -> numbered s vs xs -> forall ls ns, Forall2 (litDen s) ls ns -> (forall n, In n ns -> In (fst n) xs) ->
  exists zs, map (fun l => writeLit (combine vs (seq 1 (length vs))) l s) ls = map zdec zs /\ length zs = length ns /\ validClause (length xs) zs /\ forall val b, agrees xs val b -> zclause val zs = existsb (eval_lit b) ns.
Proof.
  intros Hw Nm ls ns F. induction F as [|l [x p] ls ns D F IH]; intros Hi.
  - exists []. split; auto. split; auto. split; [intros z []|auto].
  - destruct IH as (zs & E & Ln & Vz & Z); [intros; apply Hi; right; auto|]. destruct (writeLit_ok s vs xs l x p Hw Nm D) as (i & Li & Ni & Ei); [apply (Hi (x, p)); left; auto|].
    exists (zOf i p :: zs). cbn [map length]. split; [f_equal; auto|]. split; [congruence|]. split.
    + intros z [<-|Iz]; [|auto]. unfold zOf. destruct p; split; try lia.
    + intros val b A. cbn [zclause existsb]. fold (zclause val zs). rewrite (Z val b A), zlit_of, (A i x Ni). auto.
Qed.
Lemma clause_lits t b : is_clause t = true -> forall ns, (forall n, In n ns <-> lit_occurs n t) -> existsb (eval_lit b) ns = eval b t.
Proof.
  intros Hc ns Hn. apply eq_true_iff_eq. rewrite existsb_exists. split.
  - intros (n & In_ & E). apply Hn in In_. destruct t; try discriminate.
    + cbn in In_. subst. auto.
    + apply lit_occurs_list in In_ as (u & Iu & Ou). cbn. apply existsb_exists. exists u. split; auto. cbn in Hc. rewrite forallb_forall in Hc. specialize (Hc u Iu). destruct u; try discriminate. cbn in Ou. subst. auto.
  - intros E. destruct t; try discriminate.
    + exists l. split; auto. apply Hn. reflexivity.
    + cbn in E. apply existsb_exists in E as (u & Iu & Eu). cbn in Hc. rewrite forallb_forall in Hc. pose proof (Hc u Iu). destruct u; try discriminate. exists l. split; auto. apply Hn. apply lit_occurs_list. exists (TLit l). split; auto. reflexivity.
Qed.
Lemma concat_app1 ws w : ws <> [] -> String.concat " " (ws ++ [w])%list = String.concat " " ws ++ " " ++ w.
Proof.
  induction ws as [|a ws IH]; [congruence|]. intros _. destruct ws as [|b ws]; auto. change (String.concat " " ((a :: b :: ws) ++ [w])%list) with (a ++ " " ++ String.concat " " ((b :: ws) ++ [w])%list). rewrite IH by discriminate. change (String.concat " " (a :: b :: ws)) with (a ++ " " ++ String.concat " " (b :: ws)). rewrite !app_assoc_s. auto.
Qed.
Section Writer.
Variable ord : list formula -> list formula.
Hypothesis ord_perm : forall l, Permutation (ord l) l.
Definition partPost (xs : list string) (w : string) (u : tree) : Prop :=
  exists zs, w = clauseLine zs ++ nl /\ validClause (length xs) zs /\ forall val b, agrees xs val b -> zclause val zs = eval b u.
Lemma writePart_ok s V vs xs part u : winv s V -> numbered s vs xs -> Den s part u -> is_clause u = true -> (forall x, occurs x u -> In x xs) ->
  wp (fun n => writePart ord (combine vs (seq 1 (length vs))) n part) s V (fun w s' V' => partPost xs w u).
Proof.
  intros I Nm D Hc Hx. unfold writePart. eapply wp_bind; [apply (atomSet_ok true); eauto|]. intros lits s1 V1 I1 X1 (ns & F & Nd & Hn). apply wp_get. apply wp_ret; auto.
  destruct (Permutation_Forall2 (Permutation_sym (ord_perm lits)) F) as (ns' & P & F'). pose proof (v_wf _ _ I1) as Hw1.
  assert (Nm1 : numbered s1 vs xs). { destruct Nm as [N1 N2]. split; auto. eapply Forall2_impl; [|exact N1]. cbv beta. intros; eapply wext_litDen; eauto. }
  assert (Hn' : forall n, In n ns' <-> lit_occurs n u) by (intros n; rewrite <- Hn; split; apply Permutation_in; auto; apply Permutation_sym; auto).
  assert (Occ : forall n, lit_occurs n u -> occurs (fst n) u).
  { intros n On. destruct u; try discriminate; [cbn in On; subst; reflexivity|]. apply lit_occurs_list in On as (y & Iy & Oy). apply occurs_or. exists y. split; auto. cbn in Hc. rewrite forallb_forall in Hc. specialize (Hc y Iy). destruct y; try discriminate. cbn in *. subst; auto. }
  destruct (writeLits_ok s1 vs xs Hw1 Nm1 (ord lits) ns' F') as (zs & E & Ln & Vz & Z). { intros n In_. apply Hx, Occ, Hn'. auto. }
  exists zs. split; [|split; auto; intros val b A; rewrite (Z val b A); apply clause_lits; auto].
  rewrite E. unfold clauseLine. rewrite concat_app1; [rewrite !app_assoc_s; auto|]. assert (Ne : ns' <> []).
  { destruct u; try discriminate.
    - intros ->. apply (proj2 (Hn' l)). reflexivity.
    - apply Den_or_inv in D as (ops & Hnode & F2). destruct (v_wf _ _ I) as [W _]. destruct (w_ok s W _ _ Hnode) as (_ & Hlen & _). rewrite (Forall2_length _ _ _ F2) in Hlen. destruct ts as [|y ts]; [cbn in Hlen; lia|]. cbn in Hc. apply andb_true_iff in Hc as [Hc _]. destruct y; try discriminate. intros ->. apply (proj2 (Hn' l)). left. reflexivity. }
  destruct zs; [destruct ns'; cbn in Ln; congruence|discriminate].
Qed.
Definition textPost (t : tree) (r : option (string * list (formula * nat))) (s' : state) : Prop :=
  exists text vs xs cls, r = Some (text, combine vs (seq 1 (length vs))) /\ numbered s' vs xs /\ (forall x, In x xs <-> occurs x t) /\
    text = dimacsText (length xs) cls /\ Forall (validClause (length xs)) cls /\ Forall2 (fun c u => forall val b, agrees xs val b -> zclause val c = eval b u) cls (conjuncts t).
Lemma parts_cls xs ws us : Forall2 (partPost xs) ws us -> exists cls, String.concat "" ws = String.concat "" (map (fun c => clauseLine c ++ nl) cls) /\ length cls = length ws /\ Forall (validClause (length xs)) cls /\ Forall2 (fun c u => forall val b, agrees xs val b -> zclause val c = eval b u) cls us.
Proof.
  intros F. induction F as [|w u ws us (zs & -> & Vz & Z) F (cls & E & Ln & Vc & Fc)]; [exists []; auto|]. exists (zs :: cls). cbn [map length]. rewrite !concat_cons, E. auto.
Qed.
Lemma writeDimacs_ok s V f t : winv s V -> Den s f t -> is_cnf t = true -> wp (fun n => writeDimacs ord n f) s V (fun r s' V' => textPost t r s').
Proof.
  intros I D Hc. unfold writeDimacs. eapply wp_bind; [apply (isCNF_ok t); eauto|]. intros b s0 V0 I0 X0 (-> & -> & ->). rewrite Hc. cbn [negb].
  eapply wp_bind; [apply (atomSet_ok false); eauto|]. intros vs0 s1 V1 I1 X1 (xs0 & F0 & Nd0 & Hx0). cbn [kAtoms] in *.
  destruct (Permutation_Forall2 (Permutation_sym (ord_perm vs0)) F0) as (xs & P & F). set (vs := ord vs0) in *.
  assert (Nd : NoDup xs) by (eapply Permutation_NoDup; eauto). assert (Hx : forall x, In x xs <-> occurs x t) by (intros x; rewrite <- Hx0; split; apply Permutation_in; auto; apply Permutation_sym; auto).
  pose proof (wext_Den _ _ _ _ _ _ X1 D) as D1. pose proof (v_wf _ _ I1) as Hw1. rewrite (Den_sort _ _ _ D1).
  assert (Main : forall parts us, us = conjuncts t -> Forall2 (Den s1) parts us -> forallb is_clause us = true ->
    wp (fun n => ls <- mapM (writePart ord (combine vs (seq 1 (length vs))) n) parts ;; ret (Some ("p cnf " ++ dec (length (combine vs (seq 1 (length vs)))) ++ " " ++ dec (length parts) ++ nl ++ String.concat "" ls ++ "", combine vs (seq 1 (length vs))))) s1 V1 (fun r s' V' => textPost t r s')).
  { intros parts us Eu Fp Hcl. eapply wp_bind.
    - apply (wp_mapM (fun n p => writePart ord (combine vs (seq 1 (length vs))) n p) Den (fun s V w u => partPost xs w u)) with (cs := us); auto.
      + intros; eapply wext_Den; eauto.
      + intros a c Ia Ic s2 V2 I2 X2 Dc. apply writePart_ok; auto.
        * split; auto. eapply Forall2_impl; [|exact F]. cbv beta. intros; eapply wext_litDen; eauto.
        * rewrite forallb_forall in Hcl. auto.
        * intros x Ox. apply Hx. rewrite Eu in Ic. destruct t; cbn in Ic; try discriminate; try (destruct Ic as [<-|[]]; auto; fail); [destruct Ic|]. apply occurs_and. eauto.
    - intros ls s2 V2 I2 X2 Fl. apply wp_ret; auto. destruct (parts_cls xs ls us Fl) as (cls & E & Ln & Vc & Fc). exists (dimacsText (length xs) cls), vs, xs, cls. split; [|split; [split; auto|split; auto]].
      + f_equal. f_equal. rewrite E. unfold dimacsText. rewrite Ln, (Forall2_length _ _ _ Fl), <- (Forall2_length _ _ _ Fp). rewrite combine_length, seq_length, Nat.min_id, (Forall2_length _ _ _ F). rewrite !app_nil_s. auto.
      + eapply Forall2_impl; [|exact F]. cbv beta. intros; eapply wext_litDen; eauto.
      + rewrite <- Eu. auto. }
  destruct t; try discriminate Hc.
  - (* false *) apply wp_get. unfold Operands. rewrite (Den_sort _ _ _ D1). cbn [mapM]. apply wp_bret. apply wp_ret; auto.
    assert (xs = []) by (destruct xs as [|x xs]; auto; exfalso; apply (Hx x); left; auto). subst xs. assert (Ev : vs = []) by (inversion F; auto). rewrite Ev in *. clear Ev. exists (dimacsText 0 [[]]), [], [], [[]].
    split; [reflexivity|]. split; [split; auto|]. split; auto. split; auto. split; [constructor; [intros z []|constructor]|]. constructor; [|constructor]. intros; reflexivity.
  - (* true *) apply wp_get. unfold Operands. rewrite (Den_sort _ _ _ D1). apply (Main [] []); auto.
  - (* literal *) apply wp_bret. apply (Main [f] [TLit l]); auto.
  - (* and *) apply wp_get. pose proof (Operands_den s1 f _ Hw1 D1) as Fo. cbn [subtrees] in Fo. apply (Main _ ts); auto.
  - (* or *) apply wp_bret. apply (Main [f] [TOr ts]); auto. cbn in *. rewrite Hc. auto.
Qed.
End Writer.

(** ** C45: the written file *)
(** A formula in CNF is written as a DIMACS file whose clauses have, one by one, the meaning of its conjuncts. The returned
    map numbers exactly the variables of the formula, from 1 on, whatever the order of the elements of a set. *)
Theorem C45_write : forall cv s H X ord f t, library cv s H X -> Reads s f t -> is_cnf t = true -> (forall l, Permutation (ord l) l) ->
  exists text vs xs cls s', returns (fun n => writeDimacs ord n f) s (Some (text, combine vs (seq 1 (length vs)))) s' /\ keeps s s' /\
    lits_named s' vs (map (fun x => (x, true)) xs) /\ NoDup xs /\ (forall x, In x xs <-> occurs x t) /\
    text = dimacsText (length xs) cls /\ Forall (validClause (length xs)) cls /\
    Forall2 (fun c u => forall val b, (forall i x, nth_error xs i = Some x -> val (S i) = b x) -> zclause val c = eval b u) cls (conjuncts t).
Proof.
  intros cv s H X ord f t L R Hc Hp.
  destruct (library_wp (fun n => writeDimacs ord n f) cv s H X f t (fun r s' V' => textPost t r s') L R) as (r & s' & V' & Rt & Kp & I' & text & vs & xs & cls & -> & (F & Nd) & Hx & Et & Vc & Fc).
  { intros V [I _ _] D. apply writeDimacs_ok; auto. }
  exists text, vs, xs, cls, s'. split; auto. split; auto. split; [|auto]. clear -F I'. pose proof (v_wf _ _ I') as Hw.
  induction F as [|v x vs xs D F IH]; constructor; auto. apply LiteralNamePhase_node; auto.
Qed.
Theorem C45_write_other : forall cv s H X ord f t, library cv s H X -> Reads s f t -> is_cnf t = false ->
  exists s', returns (fun n => writeDimacs ord n f) s None s' /\ keeps s s'.
Proof.
  intros cv s H X ord f t L R Hc.
  destruct (library_wp (fun n => writeDimacs ord n f) cv s H X f t (fun r s' V' => r = None) L R) as (r & s' & V' & Rt & Kp & I' & ->); [|eauto].
  intros V [I _ _] D. unfold writeDimacs. eapply wp_bind; [apply (isCNF_ok t); eauto|]. intros b s0 V0 I0 X0 (-> & -> & ->). rewrite Hc. cbn [negb]. apply wp_ret; auto.
Qed.
(** Reading the written file, on any factory, gives the conjuncts again, with the variables renamed by their numbers. *)
Theorem C45_roundtrip_partial : forall cv s H X ord f t cv2 s2 H2 pfx, library cv s H X -> Reads s f t -> is_cnf t = true -> (forall l, Permutation (ord l) l) ->
  history anycall cv2 s2 H2 ->
  exists text vs xs cls s', returns (fun n => writeDimacs ord n f) s (Some (text, combine vs (seq 1 (length vs)))) s' /\
    lits_named s' vs (map (fun x => (x, true)) xs) /\ text = dimacsText (length xs) cls /\
    ((forall c, In c cls -> N.of_nat (String.length (clauseLine c)) < 65536)%N -> (N.of_nat (String.length (dec (length xs) ++ dec (length cls))) < 60000)%N ->
     exists gs us s2' H2', readDimacs pfx text s2 = (ReadOk gs, s2') /\ steps anycall (s2, H2) (s2', H2') /\ incl gs H2' /\ Forall2 (Reads s2') gs us /\
       Forall2 (fun u w => forall b b2, (forall i x, nth_error xs i = Some x -> b x = b2 (pfx ++ dec (S i))) -> eval b2 u = eval b w) us (conjuncts t)).
Proof.
  intros cv s H X ord f t cv2 s2 H2 pfx L R Hc Hp Hh.
  destruct (C45_write cv s H X ord f t L R Hc Hp) as (text & vs & xs & cls & s' & Rt & _ & Ln & _ & _ & -> & _ & Fc). eexists _, vs, xs, cls, s'. split; [exact Rt|]. split; auto. split; auto.
  intros Fit Hd. destruct (C45_read cv2 s2 H2 pfx (length xs) cls Hh Fit Hd) as (gs & us & s2' & H2' & E & St & Ig & Fg & Fu). exists gs, us, s2', H2'. split; auto. split; auto. split; auto. split; auto.
  clear -Fu Fc. revert us Fu. induction Fc as [|c w cls ws Hcw Fc IH]; intros us Fu; inversion Fu as [|u c' us' cls' Hu Fu']; subst; constructor; auto.
  intros b b2 Hb. rewrite Hu. apply Hcw. intros i x E. symmetry. apply Hb. auto.
Qed.

(** ** A clause that is written and cannot be read *)
Lemma slen_app a b : String.length (a ++ b) = (String.length a + String.length b)%nat.
Proof. induction a; cbn; auto. Qed.
Lemma concat_len : forall ws, (forall w, In w ws -> w <> "") -> (2 * length ws <= String.length (String.concat " " ws) + 1)%nat.
Proof.
  induction ws as [|w ws IH]; intros Hn; [cbn; lia|]. assert (Lw : (1 <= String.length w)%nat). { specialize (Hn w (or_introl eq_refl)). destruct w; [congruence|cbn; lia]. }
  destruct ws as [|w2 ws]; [cbn in *; lia|]. assert (Hn' : forall w, In w (w2 :: ws) -> w <> "") by (intros; apply Hn; right; auto). specialize (IH Hn').
  change (String.concat " " (w :: w2 :: ws)) with (w ++ " " ++ String.concat " " (w2 :: ws)). rewrite !slen_app. cbn [length String.length] in *. lia.
Qed.
Lemma clauseLine_len c : (2 * length c <= String.length (clauseLine c))%nat.
Proof.
  unfold clauseLine. pose proof (concat_len (map zdec c ++ ["0"])%list) as L. rewrite app_length, map_length in L. cbn [length] in L. enough (forall w, In w (map zdec c ++ ["0"])%list -> w <> "") by (specialize (L H); lia).
  intros w I. apply in_app_iff in I as [I|[<-|[]]]; [|discriminate]. apply in_map_iff in I as (z & <- & _). apply zdec_ne.
Qed.
Definition vname (i : nat) : string := "v" ++ dec i.
Lemma vname_inj i j : vname i = vname j -> i = j.
Proof. unfold vname. cbn. intros E. inversion E. apply dec_inj; auto. Qed.
Lemma many_vars n : exists s H ls, library false s H [] /\ incl ls H /\ Forall2 (litDen s) ls (map (fun i => (vname i, true)) (seq 0 n)).
Proof.
  induction n as [|n (s & H & ls & L & Il & F)]; [exists (newFactory false), [ffalse; ftrue], []; split; [apply lsteps_refl|split; [intros x []|constructor]]|].
  destruct (run (CVar (vname n)) s) as [v s'] eqn:E. destruct (library_inv _ _ _ _ L) as [V LI]. pose proof (v_wf _ _ (i_winv _ _ _ _ LI)) as Hw. pose proof (i_winv _ _ _ _ LI) as I.
  pose proof E as E2. cbn in E2. destruct (call_winv (CVar (vname n)) s V H [] v s' LI eq_refl Logic.I E) as (V' & I' & X').
  destruct (Var_spec s (vname n) v s' Hw E2) as (G & D & _). exists s', (v :: H), (ls ++ [v])%list. split; [|split].
  - eapply lsteps_more; [exact L|]. apply (l_call (CVar (vname n))); [reflexivity|exact Logic.I|exact E].
  - intros x Ix. apply in_app_iff in Ix as [Ix|[<-|[]]]; [right; auto|left; auto].
  - rewrite seq_S, map_app. apply Forall2_app; [|constructor; [exact D|constructor]]. eapply Forall2_impl; [|exact F]. intros; eapply wext_litDen; eauto.
Qed.
Lemma long_clause n : (2 <= n)%nat -> exists s H f t, library false s H [] /\ In f H /\ Reads s f t /\ is_clause t = true /\ (forall i, (i < n)%nat -> occurs (vname i) t) /\ (forall x b, occurs x t -> b x = true -> eval b t = true) /\ eval (fun _ => false) t = false.
Proof.
  intros Hn. destruct (many_vars n) as (s & H & ls & L & Il & F). destruct (library_inv _ _ _ _ L) as [V LI]. pose proof (i_winv _ _ _ _ LI) as I.
  assert (Al : allowed H (CClause ls)). { split; auto. clear -F. revert F. generalize (map (fun i => (vname i, true)) (seq 0 n)). intros ns F. induction F; constructor; auto. destruct y. apply (node_sort _ _ _ H). }
  destruct (run (CClause ls) s) as [f s'] eqn:E. pose proof E as E2. cbn in E2. destruct (winv_clause s V ls _ f s' I F E2) as (I' & X' & u & D & _ & Hu).
  assert (Eu : u = TOr (map TLit (map (fun i => (vname i, true)) (seq 0 n)))). { rewrite Hu. destruct n as [|[|n]]; [lia|lia|]. reflexivity. }
  clear Hu. exists s', (f :: H), f, u. split; [eapply lsteps_more; [exact L|]; apply (l_call (CClause ls)); auto; exact Logic.I|]. split; [left; auto|]. split; [eapply winv_Reads; eauto|]. subst u. split; [|split; [|split]].
  - cbn. rewrite forallb_forall. intros x Ix. apply in_map_iff in Ix as (y & <- & _). auto.
  - intros i Li. apply occurs_or. exists (TLit (vname i, true)). split; [|reflexivity]. apply in_map, in_map_iff. exists i. split; auto. apply in_seq. lia.
  - intros x b Ox Bx. apply occurs_or in Ox as (y & Iy & Oy). cbn. apply existsb_exists. exists y. split; auto. apply in_map_iff in Iy as (z & <- & Iz). apply in_map_iff in Iz as (i & <- & _). cbn in *. subst. rewrite Bx. auto.
  - cbn. clear. induction (seq 0 n); cbn; auto.
Qed.
Lemma clause_size xs c t : NoDup xs -> (forall val b, (forall i x, nth_error xs i = Some x -> val (S i) = b x) -> zclause val c = eval b t) ->
  (forall x, In x xs -> eval (fun y => String.eqb y x) t = true) -> eval (fun _ => false) t = false -> (length xs <= length c)%nat.
Proof.
  intros Nd Hz Ht Hf. assert (K : incl (map (fun i => Z.of_nat (S i)) (seq 0 (length xs))) c).
  { intros z Iz. apply in_map_iff in Iz as (i & <- & Ii). apply in_seq in Ii. destruct (nth_error xs i) as [x|] eqn:Ex; [|apply nth_error_None in Ex; lia].
    assert (A : zclause (fun j => Nat.eqb j (S i)) c = true).
    { rewrite (Hz _ (fun y => String.eqb y x)); [apply Ht; eapply nth_error_In; eauto|]. intros j y Ej. destruct (Nat.eqb_spec (S j) (S i)) as [Eq|Ne].
      - assert (j = i) by lia. subst j. rewrite Ex in Ej. inversion Ej; subst. symmetry. apply String.eqb_refl.
      - symmetry. apply String.eqb_neq. intros ->. apply Ne. f_equal. eapply (proj1 (NoDup_nth_error xs)); [auto| |congruence]. apply nth_error_Some. congruence. }
    assert (B : zclause (fun _ => false) c = false) by (rewrite (Hz _ (fun _ => false)); auto).
    apply existsb_exists in A as (z & Iz & Ez). assert (Bz : zlit (fun _ => false) z = false). { destruct (zlit (fun _ => false) z) eqn:Q; auto. exfalso. assert (zclause (fun _ => false) c = true) by (apply existsb_exists; eauto). congruence. }
    unfold zlit in *. destruct (Z.ltb_spec 0 z); [|discriminate]. apply Nat.eqb_eq in Ez. replace (Z.of_nat (S i)) with z by lia. auto. }
  pose proof (NoDup_incl_length (l := map (fun i => Z.of_nat (S i)) (seq 0 (length xs))) (l' := c)) as Le. rewrite map_length, seq_length in Le. apply Le; auto.
  apply FinFun.Injective_map_NoDup; [intros i j; lia|apply seq_NoDup].
Qed.
(** A clause over 32768 variables is written as a line of more than 65535 bytes, for which the reader, on every factory, returns an error. *)
Theorem C45_long_clause_refuted : exists s H f t, library false s H [] /\ In f H /\ Reads s f t /\ is_cnf t = true /\
  forall ord, (forall l, Permutation (ord l) l) -> exists text ids s', returns (fun n => writeDimacs ord n f) s (Some (text, ids)) s' /\
    forall pfx s2, readDimacs pfx text s2 = (TooLong, s2).
Proof.
  destruct (N.eq_dec 0 (N.of_nat (N.to_nat 32768))) as [C|_]; [rewrite N2Nat.id in C; discriminate|]. remember (N.to_nat 32768) as n eqn:En.
  assert (Ln : (N.of_nat n = 32768)%N) by (rewrite En; apply N2Nat.id). clear En. destruct (long_clause n ltac:(lia)) as (s & H & f & t & L & If & R & Hc & Ht & Hb & Hf). exists s, H, f, t. split; auto. split; auto. split; auto.
  assert (Hc' : is_cnf t = true) by (destruct t; try discriminate; auto). split; auto. intros ord Hp. destruct (C45_write _ _ _ _ ord f t L R Hc' Hp) as (text & vs & xs & cls & s' & Rt & _ & _ & Nd & Hx & -> & _ & Fc).
  eexists _, _, s'. split; [exact Rt|]. intros pfx s2. assert (Ec : conjuncts t = [t]) by (destruct t; try discriminate; auto). rewrite Ec in Fc. inversion Fc as [|c u cls' us' Hcu Fc' e1 e2]; subst. inversion Fc'; subst. clear Fc Fc'.
  assert (Lx : (n <= length xs)%nat).
  { replace n with (length (map vname (seq 0 n))) by (rewrite map_length, seq_length; auto). apply NoDup_incl_length; [apply FinFun.Injective_map_NoDup; [exact vname_inj|apply seq_NoDup]|].
    intros x Ix. apply in_map_iff in Ix as (i & <- & Ii). apply in_seq in Ii. apply Hx. apply Ht. lia. }
  assert (Lc : (length xs <= length c)%nat).
  { apply (clause_size xs c t Nd Hcu); [|auto]. intros x Ix. apply Hx in Ix. apply (Hb x); auto. apply String.eqb_refl. }
  unfold readDimacs. rewrite scan_text. cbn [map readLoop]. destruct (lineFits ("p cnf " ++ dec (length xs) ++ " " ++ dec (length [c]))); [|reflexivity]. cbn [negb]. change (hasPrefix "p" ("p cnf " ++ dec (length xs) ++ " " ++ dec (length [c]))) with true. rewrite orb_true_r.
  replace (lineFits (clauseLine c)) with false; [reflexivity|]. symmetry. unfold lineFits. apply N.ltb_ge. pose proof (clauseLine_len c). lia.
Qed.

(** ** The hypotheses are met *)
(** (a | ~b) & (c | b) is written and read again *)
Definition hDim : list (list formula -> call) :=
  [fun _ => CVar "a"; fun _ => CLit "b" false; fun H => COr [nthf 1 H; nthf 0 H]; fun _ => CVar "c"; fun _ => CVar "b"; fun H => COr [nthf 1 H; nthf 0 H]; fun H => CAnd [nthf 3 H; nthf 0 H]]%string.
Definition sDim : state := fst (lworld hDim).
Definition fDim : formula := nthf 0 (snd (lworld hDim)).
Definition tDim : tree := TAnd [TOr [TLit ("a", true); TLit ("b", false)]; TOr [TLit ("c", true); TLit ("b", true)]].
Definition fileDim : string := "p cnf 3 2" ++ nl ++ "1 -2 0" ++ nl ++ "3 2 0" ++ nl.
Example dimacs_example : library false sDim (snd (lworld hDim)) [] /\ Reads sDim fDim tDim /\ is_cnf tDim = true /\
  (match writeDimacs (fun l => l) 20 fDim sDim with Some (Some (text, ids), s') => text = fileDim /\ text = dimacsText 3 [[1; -2]; [3; 2]]%Z | _ => False end) /\
  (match readDimacs "v" fileDim (newFactory false) with
   | (ReadOk [g1; g2], s') => Reads s' g1 (TOr [TLit ("v1", true); TLit ("v2", false)]) /\ Reads s' g2 (TOr [TLit ("v3", true); TLit ("v2", true)])
   | _ => False end).
Proof.
  split; [apply lworld_library; vm_compute; discriminate|]. split; [apply (readf_ok 9); vm_compute; reflexivity|]. split; [reflexivity|].
  split; [vm_compute; auto|].
  assert (E : match readDimacs "v" fileDim (newFactory false) with (ReadOk [g1; g2], s') => readf 9 s' g1 = Some (TOr [TLit ("v1", true); TLit ("v2", false)]) /\ readf 9 s' g2 = Some (TOr [TLit ("v3", true); TLit ("v2", true)]) | _ => False end) by (vm_compute; auto).
  revert E. destruct (readDimacs "v" fileDim (newFactory false)) as [[[|g1 [|g2 [|? ?]]]| |] s']; auto. intros [E1 E2]. split; apply (readf_ok 9); auto.
Qed.

(** A line end at the end of the text may be missing. *)
Theorem C45_read_last_line : forall pfx text s, text <> "" -> (forall t, text <> t ++ nl) -> readDimacs pfx (text ++ nl) s = readDimacs pfx text s.
Proof.
  intros pfx text s H1 H2. unfold readDimacs. f_equal. assert (G : forall t cur, cur ++ t <> "" -> (t = "" \/ forall u, t <> u ++ nl) -> scanLines cur (t ++ nl) = scanLines cur t).
  { induction t as [|c t IH]; intros cur N L.
    - cbn [append scanLines nl]. rewrite app_nil_s in N. change (Ascii.eqb LF LF) with true. cbn. destruct cur; [congruence|auto].
    - destruct L as [L|L]; [discriminate|]. cbn [append scanLines]. destruct (Ascii.eqb c LF) eqn:E.
      + f_equal. apply IH; cbn; [|right; intros u Eu; apply (L (String c u)); cbn; congruence]. intros ->. apply (L ""). apply Ascii.eqb_eq in E. subst. reflexivity.
      + apply IH; [|]. { rewrite app_assoc_s. cbn. destruct cur; cbn; discriminate. } destruct t; [left; auto|right]. intros u Eu. apply (L (String c u)). cbn. congruence. }
  rewrite G; auto.
Qed.
Example C45_read_last_line_case : "p cnf 1 1" ++ nl ++ "1 0" <> "" /\ forall t, "p cnf 1 1" ++ nl ++ "1 0" <> t ++ nl.
Proof. split; [discriminate|]. intros t E. cbn in E. do 13 (destruct t as [|? t]; cbn in E; [discriminate E|inversion E; clear E; match goal with X : _ = t ++ _ |- _ => rename X into E end]). destruct t; discriminate E. Qed.
Print Assumptions C45_read_last_line.
Print Assumptions C45_read.
Print Assumptions C45_write.
Print Assumptions C45_write_other.
Print Assumptions C45_roundtrip_partial.
Print Assumptions C45_long_clause_refuted.
