(** * The lexer on printed texts *)
From Coq Require Import String Ascii List Bool Arith ZArith NArith Lia DecimalString DecimalFacts DecimalN.
From Verif Require Import Spec Factory Assign Dimacs Print PrintSpec.
Import ListNotations.
Local Open Scope string_scope.

Inductive Lexed : string -> list token -> Prop :=
| lx_nil : Lexed "" []
| lx_skip t len mk ts : munch t = (S len, mk) -> mk (take (S len) t) = None -> Lexed (drop (S len) t) ts -> Lexed t ts
| lx_tok t len mk k ts : munch t = (S len, mk) -> mk (take (S len) t) = Some k -> Lexed (drop (S len) t) ts -> Lexed t (k :: ts).
Lemma drop_len : forall n t, String.length (drop n t) <= String.length t.
Proof. induction n as [|n IH]; intros [|c t]; cbn; auto. Qed.
Lemma Lexed_lexer : forall t ts, Lexed t ts -> forall n, String.length t <= n -> lexer n t = Some ts.
Proof.
  induction 1 as [|t len mk ts H K L IH|t len mk k ts H K L IH]; intros n Hn; [destruct n; reflexivity| |];
    (destruct t as [|c r]; [cbn in H; discriminate|]; destruct n as [|n]; [cbn in Hn; lia|]; cbn [lexer]; rewrite H, (IH n), K; [reflexivity|]; cbn [drop]; pose proof (drop_len len r); cbn in Hn; lia).
Qed.

(** ** The longest match *)
Notation step t := (fun (best : nat * (string -> option token)) (r : (string -> nat) * (string -> option token)) => if Nat.ltb (fst best) (fst r t) then (fst r t, snd r) else best) (only parsing).
Lemma munch_rest : forall t rs best, (forall r, In r rs -> fst r t <= fst best) -> fold_left (step t) rs best = best.
Proof.
  induction rs as [|r rs IH]; intros best H; [reflexivity|]. cbn [fold_left].
  assert (E : Nat.ltb (fst best) (fst r t) = false) by (apply Nat.ltb_ge; apply H; left; auto). rewrite E. apply IH. intros; apply H; right; auto.
Qed.
Lemma munch_num : forall t len, matchNum t = S len -> matchLit t <= S len -> (forall r, In r (skipn 2 rules) -> fst r t <= 1) -> munch t = (S len, fun u => Some (TkNum u)).
Proof.
  intros t len E1 E2 H. unfold munch. change rules with ((matchNum, fun t => Some (TkNum t)) :: (matchLit, fun t => Some (TkLit t)) :: skipn 2 rules). cbn [fold_left fst snd]. rewrite E1.
  change (Nat.ltb 0 (S len)) with true. cbn [fst snd]. assert (E : (Nat.ltb (S len) (matchLit t)) = false) by (apply Nat.ltb_ge; auto). rewrite E. apply munch_rest. intros r I. cbn. apply H in I. lia.
Qed.
Lemma munch_lit : forall t len, matchLit t = S len -> matchNum t <= len -> (forall r, In r (skipn 2 rules) -> fst r t <= 1) -> munch t = (S len, fun u => Some (TkLit u)).
Proof.
  intros t len E1 E2 H. unfold munch. change rules with ((matchNum, fun t => Some (TkNum t)) :: (matchLit, fun t => Some (TkLit t)) :: skipn 2 rules). cbn [fold_left fst snd]. rewrite E1.
  assert (A : forall d : nat * (string -> option token), fst d <= len -> fold_left (step t) (skipn 2 rules) (if (Nat.ltb (fst d) (S len)) then (S len, fun u : string => Some (TkLit u)) else d) = (S len, fun u => Some (TkLit u))).
  { intros d L. assert (E : (Nat.ltb (fst d) (S len)) = true) by (apply Nat.ltb_lt; lia). rewrite E. apply munch_rest. intros r I. apply H in I. cbn. lia. }
  destruct (Nat.ltb 0 (matchNum t)) eqn:E; apply A; cbn; lia.
Qed.
(** what can start a literal or a number *)
Definition wordy (c : ascii) : bool := isHead c || Ascii.eqb c "~" || Ascii.eqb c "-".
Lemma prefix_head : forall a w c r, Ascii.eqb a c = false -> matchStr (String a w) (String c r) = 0.
Proof. intros a w c r H. unfold matchStr. cbn [prefix]. destruct (ascii_dec a c) as [->|]; [rewrite Ascii.eqb_refl in H; discriminate|reflexivity]. Qed.
Lemma wordy_ne : forall c, wordy c = true -> forall a, In a ["$"; "("; ")"; "&"; "|"; "="; "<"; ">"; "*"; "+"; " "]%char -> Ascii.eqb a c = false.
Proof.
  intros c H a I. destruct (Ascii.eqb_spec a c) as [->|]; auto. exfalso. repeat (destruct I as [<-|I]; [discriminate H|]). exact I.
Qed.
Lemma wordy_ws : forall c, wordy c = true -> isWs c = false.
Proof. intros c H. destruct c as [[] [] [] [] [] [] [] []]; try reflexivity; discriminate H. Qed.
Lemma wordy_space : forall c, wordy c = true -> isSpace c = false.
Proof. intros c H. destruct c as [[] [] [] [] [] [] [] []]; try reflexivity; discriminate H. Qed.
Lemma wordy_rest : forall c r, wordy c = true -> forall x, In x (skipn 2 rules) -> fst x (String c r) <= 1.
Proof.
  intros c r H x I. pose proof (wordy_ne c H) as N.
  cbn [skipn rules In] in I. repeat (destruct I as [<-|I]; [cbn [fst]; try (rewrite prefix_head; [lia|apply N; cbn; tauto])|]); [| |exact (False_ind _ I)].
  - unfold matchStr. destruct (prefix "~" (String c r)); cbn; lia.
  - cbn [countWhile]. rewrite (wordy_ws c H). lia.
Qed.

(** ** Words *)
Lemma slen_app : forall a b, String.length (a ++ b) = String.length a + String.length b.
Proof. induction a as [|c a IH]; intros b; cbn; auto. Qed.
Lemma app_assoc_s : forall a b c : string, (a ++ b) ++ c = a ++ (b ++ c).
Proof. induction a as [|x a IH]; intros b c; cbn; [reflexivity|rewrite IH; reflexivity]. Qed.
Lemma app_nil_s : forall a, a ++ "" = a.
Proof. induction a as [|x a IH]; cbn; [reflexivity|rewrite IH; reflexivity]. Qed.
Lemma take_app : forall a b, take (String.length a) (a ++ b) = a.
Proof. induction a as [|c a IH]; intros b; cbn; [destruct b; reflexivity|rewrite IH; reflexivity]. Qed.
Lemma drop_app : forall a b, drop (String.length a) (a ++ b) = b.
Proof. induction a as [|c a IH]; intros b; cbn; [destruct b; reflexivity|apply IH]. Qed.
(** the text goes on with something that does not belong to a word *)
Definition sep (r : string) : Prop := match r with EmptyString => True | String c _ => isTail c = false end.
Lemma digit_tail : forall c, isDigit c = true -> isTail c = true.
Proof. intros c H. unfold isTail. rewrite H, !orb_true_r. reflexivity. Qed.
Lemma tail_head : forall c, isTail c = true -> isHead c = true.
Proof. intros c H. unfold isHead. rewrite H. reflexivity. Qed.
Lemma head_wordy : forall c, isHead c = true -> wordy c = true.
Proof. intros c H. unfold wordy. rewrite H. reflexivity. Qed.
Lemma head_ne : forall c, isHead c = true -> Ascii.eqb c "~" = false /\ Ascii.eqb c "-" = false.
Proof. intros c H. split; [destruct (Ascii.eqb_spec c "~") as [->|]|destruct (Ascii.eqb_spec c "-") as [->|]]; auto; discriminate H. Qed.
Lemma count_app : forall p w r, allc p w = true -> match r with EmptyString => True | String c _ => p c = false end -> countWhile p (w ++ r) = String.length w.
Proof.
  induction w as [|c w IH]; intros r A S; cbn in *; [destruct r as [|c r]; cbn; auto; rewrite S; auto|].
  apply andb_prop in A as [A B]. rewrite A, (IH r B S). auto.
Qed.
Lemma count_less : forall p w r, allc p w = false -> countWhile p (w ++ r) < String.length w.
Proof. induction w as [|c w IH]; intros r A; cbn in *; [discriminate|]. destruct (p c); cbn in *; [specialize (IH r A); lia|lia]. Qed.
Lemma sep_digit : forall r, sep r -> match r with EmptyString => True | String c _ => isDigit c = false end.
Proof. intros [|c r] H; cbn in *; auto. destruct (isDigit c) eqn:E; auto. apply digit_tail in E. congruence. Qed.
Lemma lx_word : forall w r k rs len, munch (w ++ r) = (S len, k) -> S len = String.length w -> forall x, k w = Some x -> Lexed r rs -> Lexed (w ++ r) (x :: rs).
Proof.
  intros w r k rs len H E x K L. eapply lx_tok; [exact H|rewrite E, take_app; exact K|]. rewrite E, drop_app. exact L.
Qed.
Lemma matchName_app : forall n r, admissible n = true -> sep r -> matchName (n ++ r) = String.length n.
Proof.
  intros [|c n] r A S; [discriminate|]. cbn in *. apply andb_prop in A as [A B]. rewrite A, (count_app isTail n r B S). auto.
Qed.
Lemma adm_cons : forall n, admissible n = true -> exists c m, n = String c m /\ isHead c = true.
Proof. intros [|c n] A; [discriminate|]. cbn in A. apply andb_prop in A as [A _]. eauto. Qed.
Lemma lx_name : forall n r rs, admissible n = true -> sep r -> Lexed r rs -> Lexed (n ++ r) (nameK n :: rs).
Proof.
  intros n r rs A S L. pose proof (matchName_app n r A S) as Hn. destruct (adm_cons n A) as (c & m & E & Hc). destruct (head_ne c Hc) as [N1 N2].
  assert (ML : matchLit (n ++ r) = String.length n). { rewrite E in *. cbn [append matchLit]. rewrite N1. exact Hn. }
  assert (MN : matchNum (n ++ r) = countWhile isDigit (n ++ r)). { rewrite E. cbn [append matchNum]. rewrite N2. reflexivity. }
  assert (R : forall x, In x (skipn 2 rules) -> fst x (n ++ r) <= 1) by (rewrite E; cbn [append]; apply wordy_rest, head_wordy; auto).
  assert (SL : String.length n = Datatypes.S (String.length m)) by (rewrite E; reflexivity).
  unfold nameK. destruct (allc isDigit n) eqn:D.
  - rewrite (count_app isDigit n r D (sep_digit r S)) in MN. eapply lx_word; [apply (munch_num _ (String.length m)); [lia|lia|exact R]|auto|reflexivity|auto].
  - pose proof (count_less isDigit n r D). eapply lx_word; [apply (munch_lit _ (String.length m)); [lia|lia|exact R]|auto|reflexivity|auto].
Qed.
Lemma lx_lit : forall l r rs, admissible (fst l) = true -> sep r -> Lexed r rs -> Lexed (litT l ++ r) (litK l :: rs).
Proof.
  intros [n [|]] r rs A S L; cbn [litT litK fst snd] in *; [apply lx_name; auto|]. unfold litT, litK; cbn [fst snd].
  pose proof (matchName_app n r A S) as Hn. destruct (adm_cons n A) as (c & m & E & Hc).
  assert (SL : String.length n = Datatypes.S (String.length m)) by (rewrite E; reflexivity).
  assert (ML : matchLit (("~" ++ n) ++ r) = Datatypes.S (String.length n)). { cbn [append matchLit]. change (Ascii.eqb "~" "~") with true. cbv iota. rewrite Hn, SL. reflexivity. }
  eapply lx_word; [apply (munch_lit _ (String.length n)); [exact ML|change (0 <= String.length n); lia|apply wordy_rest; reflexivity]|reflexivity|reflexivity|auto].
Qed.
(** numbers *)
Lemma digits_uint : forall u, allc isDigit (NilEmpty.string_of_uint u) = true.
Proof. induction u; cbn; auto. Qed.
Lemma dec_digits n : allc isDigit (dec n) = true.
Proof. apply digits_uint. Qed.
Lemma dec_ne n : exists c m, dec n = String c m.
Proof.
  unfold dec. destruct (N.to_uint (N.of_nat n)) eqn:E; cbn; eauto. destruct (N.of_nat n); [discriminate|]. cbn in E. exfalso. revert E. apply DecimalPos.Unsigned.to_uint_nonnil.
Qed.
Lemma lx_dec : forall n r rs, sep r -> Lexed r rs -> Lexed (dec n ++ r) (TkNum (dec n) :: rs).
Proof.
  intros n r rs S L. pose proof (dec_digits n) as D. destruct (dec_ne n) as (c & m & E).
  assert (A : admissible (dec n) = true). { rewrite E in *. cbn in D |- *. apply andb_prop in D as [D1 D2]. rewrite (tail_head c (digit_tail c D1)). clear -D2. cbn. induction m as [|x m IH]; cbn in *; auto. apply andb_prop in D2 as [X Y]. rewrite (digit_tail x X). auto. }
  pose proof (lx_name (dec n) r rs A S L) as H. unfold nameK in H. rewrite D in H. exact H.
Qed.
Lemma lx_decZ : forall z r rs, sep r -> Lexed r rs -> Lexed (decZ z ++ r) (TkNum (decZ z) :: rs).
Proof.
  intros [|p|p] r rs S L; [apply lx_dec; auto|apply lx_dec; auto|]. unfold decZ.
  set (w := dec (Pos.to_nat p)). pose proof (dec_digits (Pos.to_nat p)) as D. fold w in D. assert (SL : exists m, String.length w = Datatypes.S m) by (destruct (dec_ne (Pos.to_nat p)) as (c & m & E); unfold w; rewrite E; cbn; eauto). destruct SL as (m & SL).
  assert (MN : matchNum (("-" ++ w) ++ r) = Datatypes.S (String.length w)). { cbn [append matchNum]. change (Ascii.eqb "-" "-") with true. cbv iota. rewrite (count_app isDigit w r D (sep_digit r S)), SL. reflexivity. }
  eapply lx_word; [apply (munch_num _ (String.length w)); [exact MN|change (0 <= Datatypes.S (String.length w)); lia|apply wordy_rest; reflexivity]|reflexivity|reflexivity|auto].
Qed.
Lemma atoi_dec : forall n, atoi (dec n) = Z.of_nat n.
Proof.
  intros n. pose proof (dec_digits n) as D. destruct (dec_ne n) as (c & m & E). unfold atoi. rewrite E in *. cbn in D. apply andb_prop in D as [D _]. destruct (head_ne c (tail_head c (digit_tail c D))) as [_ ->]. rewrite <- E.
  unfold dec. rewrite NilEmpty.usu. rewrite DecimalN.Unsigned.of_to. apply nat_N_Z.
Qed.
Lemma atoi_decZ : forall z, atoi (decZ z) = z.
Proof.
  intros [|p|p]; [reflexivity|unfold decZ; rewrite atoi_dec; lia|]. unfold decZ. unfold atoi. change ("-" ++ dec (Pos.to_nat p)) with (String "-" (dec (Pos.to_nat p))). change (Ascii.eqb "-" "-") with true. cbv iota.
  unfold dec. rewrite NilEmpty.usu, DecimalN.Unsigned.of_to. rewrite nat_N_Z, positive_nat_Z; reflexivity.
Qed.
(** fixed texts *)
Definition solid (r : string) : Prop := match r with EmptyString => False | String c _ => isWs c = false /\ isSpace c = false end.
Lemma lx_space : forall r rs, solid r -> Lexed r rs -> Lexed (String " " r) rs.
Proof.
  intros r rs S L. apply (lx_skip _ 0 (fun _ => None)); [|reflexivity|exact L]. destruct r as [|c r]; [destruct S|]. destruct S as [S _].
  unfold munch, rules. cbn -[isWs]. change (isWs " ") with true. cbv iota. rewrite S. reflexivity.
Qed.
Lemma lx_fixed : forall w k, In (w, k) [("$true", TkTrue); ("$false", TkFalse); ("(", TkLbr); (")", TkRbr); ("&", TkAnd); ("|", TkOr); ("*", TkMul); ("+", TkAdd)] -> forall r rs, Lexed r rs -> Lexed (w ++ r) (k :: rs).
Proof.
  intros w k I r rs L. repeat (destruct I as [E|I]; [injection E as <- <-; eapply lx_word; [destruct r; reflexivity|reflexivity|reflexivity|exact L]|]). destruct I.
Qed.
Lemma lx_not : forall r rs, Lexed r rs -> Lexed ("~(" ++ r) (TkNot :: TkLbr :: rs).
Proof. intros r rs L. change ("~(" ++ r) with ("~" ++ ("(" ++ r)). eapply lx_word; [reflexivity|reflexivity|reflexivity|]. apply lx_fixed; [cbn; tauto|auto]. Qed.
Lemma lx_oper : forall w k, In (w, k) [(" & ", TkAnd); (" | ", TkOr); (" => ", TkImpl); (" <=> ", TkEquiv); (" + ", TkAdd); (" = ", TkCmp EQ); (" <= ", TkCmp LE); (" < ", TkCmp LT); (" >= ", TkCmp GE); (" > ", TkCmp GT)] -> forall r rs, solid r -> Lexed r rs -> Lexed (w ++ r) (k :: rs).
Proof.
  intros w k I r rs S L. pose proof (lx_space r rs S L) as L1. repeat (destruct I as [E|I]; [injection E as <- <-; cbn [append]; apply lx_space; [split; reflexivity|];
    match goal with |- Lexed ?t _ => let rec pre t := match t with String " " r => constr:(EmptyString) | String ?c ?u => let v := pre u in constr:(String c v) end in let w := pre t in change t with (w ++ String " " r) end;
    eapply lx_word; [reflexivity|reflexivity|reflexivity|exact L1]|]). destruct I.
Qed.

(** ** Texts of formulas *)
Lemma solid_app : forall a b, solid a -> solid (a ++ b).
Proof. intros [|c a] b H; [destruct H|exact H]. Qed.
Lemma word_solid : forall c r, wordy c = true -> solid (String c r).
Proof. intros c r H. split; [apply wordy_ws|apply wordy_space]; auto. Qed.
Lemma lit_solid : forall l, admissible (fst l) = true -> solid (litT l).
Proof. intros [n [|]] A; unfold litT; cbn [fst snd] in *; [destruct (adm_cons n A) as (c & m & -> & H); apply word_solid, head_wordy; auto|split; reflexivity]. Qed.
Lemma dec_solid : forall n, solid (dec n).
Proof. intros n. pose proof (dec_digits n) as D. destruct (dec_ne n) as (c & m & E). rewrite E in *. cbn in D. apply andb_prop in D as [D _]. apply word_solid, head_wordy, tail_head, digit_tail; auto. Qed.
Lemma decZ_solid : forall z, solid (decZ z).
Proof. intros [|p|p]; [apply dec_solid|apply dec_solid|split; reflexivity]. Qed.
Lemma mul_solid : forall x, admissible (fst (fst x)) = true -> solid (mulT x).
Proof. intros [l c] A. unfold mulT. cbn [fst snd] in *. destruct (Z.eqb c 1); [apply lit_solid; auto|apply solid_app, decZ_solid]. Qed.
Lemma concat_solid : forall s l, l <> [] -> Forall solid l -> solid (String.concat s l).
Proof. intros s [|a [|b l]] N H; [congruence| |]; inversion H; subst; cbn; auto. apply solid_app; auto. Qed.
Lemma br_solid : forall k u, solid (text u) -> solid (brT k u (text u)).
Proof. intros k u H. unfold brT. destruct (Nat.ltb (trank u) k); auto. split; reflexivity. Qed.
Lemma combine_ne : forall {A B} (l : list A) (m : list B), l <> [] -> length m = length l -> combine l m <> [].
Proof. intros A B [|a l] [|b m] N E; cbn in *; congruence. Qed.
Lemma lits_adm : forall ls, forallb (fun l : lit => admissible (fst l) && negb (snd l && allc isDigit (fst l))) ls = true -> forall cs x, In x (combine ls cs : list (lit * Z)) -> admissible (fst (fst x)) = true /\ (snd (fst x) = true -> allc isDigit (fst (fst x)) = false).
Proof.
  intros ls H cs [l c] I. apply in_combine_l in I. rewrite forallb_forall in H. specialize (H l I). apply andb_prop in H as [H1 H2]. cbn [fst snd]. split; auto. intros E. rewrite E in H2. cbn in H2. destruct (allc isDigit (fst l)); auto; discriminate.
Qed.
Lemma text_solid : forall t, printable t = true -> formed t -> solid (text t).
Proof.
  induction t as [| |l|t IH|l IH|l IH|a b IHa IHb|a b IHa IHb|cc c k ls cs] using tree_ind'; intros P F; cbn [text printable formed] in *.
  - split; reflexivity.
  - split; reflexivity.
  - apply lit_solid; auto.
  - split; reflexivity.
  - destruct F as [F1 F2]. apply concat_solid; [destruct l; cbn in *; [lia|discriminate]|]. rewrite forallb_forall in P. rewrite Forall_forall in *. intros x I. apply in_map_iff in I as (u & <- & I). apply br_solid, IH; auto. apply F2. apply in_map; auto.
  - destruct F as [F1 F2]. apply concat_solid; [destruct l; cbn in *; [lia|discriminate]|]. rewrite forallb_forall in P. rewrite Forall_forall in *. intros x I. apply in_map_iff in I as (u & <- & I). apply br_solid, IH; auto. apply F2. apply in_map; auto.
  - apply andb_prop in P as [P1 P2]. destruct F. apply solid_app, br_solid. auto.
  - apply andb_prop in P as [P1 P2]. destruct F. apply solid_app, br_solid. auto.
  - pose proof P as P1. destruct F as [F1 F2]. apply solid_app. apply concat_solid; [pose proof (combine_ne ls cs F1 F2); destruct (combine ls cs); [congruence|discriminate]|]. apply Forall_forall. intros x I. apply in_map_iff in I as (u & <- & I). apply mul_solid. apply (lits_adm ls P1 cs u I).
Qed.
(** a part of a text and its tokens *)
Definition lexes (w : string) (ks : list token) : Prop := forall r rs, sep r -> Lexed r rs -> Lexed (w ++ r) (ks ++ rs).
Lemma lexes_oper : forall w k, In (w, k) [(" & ", TkAnd); (" | ", TkOr); (" => ", TkImpl); (" <=> ", TkEquiv); (" + ", TkAdd); (" = ", TkCmp EQ); (" <= ", TkCmp LE); (" < ", TkCmp LT); (" >= ", TkCmp GE); (" > ", TkCmp GT)] ->
  forall a ka b kb, lexes a ka -> lexes b kb -> solid b -> lexes (a ++ w ++ b) (ka ++ k :: kb)%list.
Proof.
  intros w k I a ka b kb A B S r rs Sr L. rewrite <- List.app_assoc, !app_assoc_s. apply A.
  - repeat (destruct I as [E|I]; [injection E as <- <-; reflexivity|]). destruct I.
  - cbn [app]. apply lx_oper; auto. apply solid_app; auto.
Qed.
Lemma lexes_join : forall w k, In (w, k) [(" & ", TkAnd); (" | ", TkOr); (" => ", TkImpl); (" <=> ", TkEquiv); (" + ", TkAdd); (" = ", TkCmp EQ); (" <= ", TkCmp LE); (" < ", TkCmp LT); (" >= ", TkCmp GE); (" > ", TkCmp GT)] ->
  forall ws ks, Forall2 lexes ws ks -> Forall solid ws -> ws <> [] -> lexes (String.concat w ws) (joinK k ks).
Proof.
  intros w k I ws ks H. induction H as [|a ka ws ks A F IH]; intros S N; [congruence|]. inversion S as [|? ? S1 S2]; subst. destruct F as [|b kb ws ks B F].
  - exact A.
  - change (String.concat w (a :: b :: ws)) with (a ++ w ++ String.concat w (b :: ws)). change (joinK k (ka :: kb :: ks)) with (ka ++ k :: joinK k (kb :: ks))%list.
    apply lexes_oper; auto; [apply IH; auto; discriminate|]. apply concat_solid; auto. discriminate.
Qed.
Lemma lexes_br : forall j u a ka, lexes a ka -> lexes (brT j u a) (brK j u ka).
Proof.
  intros j u a ka A. unfold brT, brK. destruct (Nat.ltb (trank u) j); auto. intros r rs S L. rewrite app_assoc_s. cbn [app]. apply lx_fixed; [cbn; tauto|]. rewrite app_assoc_s, <- app_assoc. apply A; [reflexivity|]. cbn [app]. apply lx_fixed; [cbn; tauto|auto].
Qed.
Lemma lexes_mul : forall x, admissible (fst (fst x)) = true -> lexes (mulT x) (mulK x).
Proof.
  intros [l c] A r rs S L. unfold mulT, mulK. cbn [fst snd] in *. destruct (Z.eqb c 1); [apply lx_lit; auto|]. rewrite !app_assoc_s. cbn [app]. apply lx_decZ; [reflexivity|]. apply lx_fixed; [cbn; tauto|]. apply lx_lit; auto.
Qed.
Lemma Forall2_maps : forall {A B C} (P : B -> C -> Prop) (h : A -> B) (g : A -> C) l, (forall x, In x l -> P (h x) (g x)) -> Forall2 P (map h l) (map g l).
Proof. intros A B C P h g. induction l as [|x l IH]; intros H; cbn; constructor; [apply H; left; auto|apply IH; intros; apply H; right; auto]. Qed.
Lemma text_lexes : forall t, printable t = true -> formed t -> lexes (text t) (toks t).
Proof.
  induction t as [| |l|t IH|l IH|l IH|a b IHa IHb|a b IHa IHb|cc c k ls cs] using tree_ind'; intros P F; cbn [text toks printable formed] in *.
  - intros r rs S L. apply lx_fixed; [cbn; tauto|auto].
  - intros r rs S L. apply lx_fixed; [cbn; tauto|auto].
  - intros r rs S L. apply lx_lit; auto.
  - intros r rs S L. rewrite !app_assoc_s. cbn [app]. apply lx_not. rewrite <- app_assoc. apply IH; auto; [reflexivity|]. cbn [app]. apply lx_fixed; [cbn; tauto|auto].
  - destruct F as [F1 F2]. rewrite forallb_forall in P. rewrite Forall_forall in *. assert (Q : forall u, In u l -> formed u) by (intros u I; apply F2, in_map; auto). apply lexes_join; [cbn; tauto| | |destruct l; cbn in *; [lia|discriminate]].
    + apply Forall2_maps. intros u I. apply lexes_br, IH; auto.
    + apply Forall_forall. intros x I. apply in_map_iff in I as (u & <- & I). apply br_solid, text_solid; auto.
  - destruct F as [F1 F2]. rewrite forallb_forall in P. rewrite Forall_forall in *. assert (Q : forall u, In u l -> formed u) by (intros u I; apply F2, in_map; auto). apply lexes_join; [cbn; tauto| | |destruct l; cbn in *; [lia|discriminate]].
    + apply Forall2_maps. intros u I. apply lexes_br, IH; auto.
    + apply Forall_forall. intros x I. apply in_map_iff in I as (u & <- & I). apply br_solid, text_solid; auto.
  - apply andb_prop in P as [P1 P2]. destruct F. apply lexes_oper; [cbn; tauto|apply lexes_br; auto|apply lexes_br; auto|apply br_solid, text_solid; auto].
  - apply andb_prop in P as [P1 P2]. destruct F. apply lexes_oper; [cbn; tauto|apply lexes_br; auto|apply lexes_br; auto|apply br_solid, text_solid; auto].
  - pose proof P as P1. destruct F as [F1 F2]. pose proof (combine_ne ls cs F1 F2) as N.
    apply lexes_oper; [destruct c; cbn; tauto| | |apply decZ_solid].
    + apply lexes_join; [cbn; tauto| | |destruct (combine ls cs); [congruence|discriminate]].
      * apply Forall2_maps. intros x I. apply lexes_mul. apply (lits_adm ls P1 cs x I).
      * apply Forall_forall. intros x I. apply in_map_iff in I as (u & <- & I). apply mul_solid. apply (lits_adm ls P1 cs u I).
    + intros r rs S L. apply lx_decZ; auto.
Qed.
(** the tokens of a printed formula *)
Lemma lex_text : forall t, printable t = true -> formed t -> lex (text t) = Some (toks t).
Proof.
  intros t P F. apply Lexed_lexer; [|auto]. pose proof (text_lexes t P F "" [] Logic.I lx_nil) as H. rewrite List.app_nil_r, app_nil_s in H. exact H.
Qed.
Lemma toks_ne : forall t, formed t -> toks t <> [].
Proof.
  intros [| |l|a|l|l|a b|a b|cc c k ls cs] F; cbn [toks formed] in *; try discriminate; try (destruct F as [F _]; destruct l as [|x [|z l]]; cbn in F; try lia; cbn [map joinK]); intros E; apply app_eq_nil in E as [_ E]; discriminate.
Qed.
