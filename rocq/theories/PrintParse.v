(** * The parser on the tokens of a printed formula *)
From Coq Require Import String Ascii List Bool Arith ZArith NArith Lia.
From Verif Require Import Spec Factory Assign Dimacs Print PrintSpec PrintLex.
Import ListNotations.

(** the grammar's levels: simp 2, lit 3, conj 4, disj 5, impl 6, equiv 7 *)
Definition at_ (k n : nat) : list token -> option (cst * list token) :=
  match k with
  | 2 => pSimp (pEquiv n) n | 3 => pLit (pEquiv n) n | 4 => pConj (pEquiv n) n | 5 => pDisj (pEquiv n) n | 6 => pImpl (pEquiv n) n n | _ => pEquivF (pEquiv n) n end.
(** tokens that end a formula of a level *)
Definition stops (k : nat) (r : list token) : Prop :=
  match r with [] => True | TkRbr :: _ => True | TkAnd :: _ => k < 4 | TkOr :: _ => k < 5 | TkImpl :: _ => k < 6 | TkEquiv :: _ => k < 7 | _ => False end.
Definition parses (k : nat) (ts : list token) (c : cst) : Prop := exists n0, forall n, n0 <= n -> forall r, stops k r -> at_ k n (ts ++ r) = Some (c, r).
Lemma stops_less : forall j k r, j <= k -> stops k r -> stops j r.
Proof. intros j k [|[]] L; cbn; auto; lia. Qed.
Lemma lift2 : forall ts c, parses 2 ts c -> parses 3 ts c.
Proof.
  intros ts c (n0 & H). exists n0. intros n L r Sp0. specialize (H n L r (stops_less 2 3 r ltac:(lia) Sp0)). cbn [at_] in *. destruct (ts ++ r) as [|k l]; [discriminate|]. destruct k; cbn [pLit]; auto. discriminate.
Qed.
Lemma lift3 : forall ts c, parses 3 ts c -> parses 4 ts c.
Proof.
  intros ts c (n0 & H). exists (S n0). intros n L r Sp0. specialize (H n ltac:(lia) r (stops_less 3 4 r ltac:(lia) Sp0)). cbn [at_] in *. unfold pConj. destruct n as [|n]; [lia|]. cbn [pSeq]. rewrite H.
  destruct r as [|[] r]; cbn in Sp0 |- *; auto; lia.
Qed.
Lemma lift4 : forall ts c, parses 4 ts c -> parses 5 ts c.
Proof.
  intros ts c (n0 & H). exists (S n0). intros n L r Sp0. specialize (H n ltac:(lia) r (stops_less 4 5 r ltac:(lia) Sp0)). cbn [at_] in *. unfold pDisj. destruct n as [|n]; [lia|]. cbn [pSeq]. rewrite H.
  destruct r as [|[] r]; cbn in Sp0 |- *; auto; lia.
Qed.
Lemma impl_one : forall n m a r, pDisj (pEquiv n) n a = Some r -> match snd r with TkImpl :: _ => False | _ => True end -> pImpl (pEquiv n) n (S m) a = Some r.
Proof. intros n m a [c r] H Sx. cbn [pImpl]. rewrite H. destruct r as [|[] r]; auto. destruct Sx. Qed.
Lemma lift5 : forall ts c, parses 5 ts c -> parses 6 ts c.
Proof.
  intros ts c (n0 & H). exists (S n0). intros n L r Sp0. specialize (H n ltac:(lia) r (stops_less 5 6 r ltac:(lia) Sp0)). cbn [at_] in *. destruct n as [|n]; [lia|]. apply impl_one; auto. cbn. destruct r as [|[] r]; cbn in Sp0 |- *; auto. lia.
Qed.
Lemma lift6 : forall ts c, parses 6 ts c -> parses 7 ts c.
Proof.
  intros ts c (n0 & H). exists n0. intros n L r Sp0. specialize (H n ltac:(lia) r (stops_less 6 7 r ltac:(lia) Sp0)). cbn [at_] in *. unfold pEquivF. rewrite H. destruct r as [|[] r]; cbn in Sp0 |- *; auto. lia.
Qed.
Lemma lift : forall k j ts c, 2 <= j -> j <= k -> k <= 7 -> parses j ts c -> parses k ts c.
Proof.
  intros k j ts c J L K H. induction L as [|k L IH]; auto. specialize (IH ltac:(lia)). destruct k as [|[|[|[|[|[|[|k]]]]]]]; try lia; [apply lift2|apply lift3|apply lift4|apply lift5|apply lift6]; auto.
Qed.
Lemma brackets : forall ts c, parses 7 ts c -> parses 2 (TkLbr :: ts ++ [TkRbr]) c.
Proof.
  intros ts c (n0 & H). exists (S n0). intros n L r Sp0. destruct n as [|n]; [lia|]. cbn [at_ app pSimp]. rewrite <- app_assoc. change (pEquiv (S n)) with (at_ 7 n). rewrite (H n ltac:(lia) ([TkRbr] ++ r) Logic.I). reflexivity.
Qed.
Definition lev (t : tree) : nat := match t with TNot _ => 3 | TAnd _ => 4 | TOr _ => 5 | TImpl _ _ => 6 | TEquiv _ _ => 7 | _ => 2 end.
Lemma operand : forall k u c, 3 <= k -> k <= 7 -> parses (lev u) (toks u) c -> parses (k - 1) (brK k u (toks u)) c.
Proof.
  intros k u c K K' H. unfold brK. assert (L2 : 2 <= lev u /\ lev u <= 7) by (destruct u; cbn; lia). destruct (Nat.ltb_spec (trank u) k) as [L|L].
  - assert (lev u <= k - 1) by (destruct u as [| | | | | | | |[] ? ? ? ?]; cbn in *; lia). apply (lift _ (lev u)); auto; lia.
  - apply (lift _ 2); try lia. apply brackets. apply (lift _ (lev u)); auto; lia.
Qed.
Lemma pLit_not : forall n r, pLit (pEquiv n) n (TkNot :: r) = match pLit (pEquiv n) n r with Some (c, r') => Some (PNot c, r') | None => None end.
Proof. reflexivity. Qed.
Lemma seq_parses : forall k sep sp (tss : list (list token)) cs, Forall2 (parses k) tss cs -> tss <> [] -> sp sep = true -> (forall r, stops k (sep :: r)) ->
  exists n0, forall n m, n0 <= n -> n0 <= m -> forall r, stops k r -> match r with x :: _ => sp x = false | [] => True end -> pSeq m (at_ k n) sp (joinK sep tss ++ r) = Some (cs, r).
Proof.
  intros k sep sp tss cs H N Sp St. induction H as [|ts c tss cs (n1 & A) F IH]; [congruence|]. destruct F as [|ts2 c2 tss cs B F].
  - exists (S n1). intros n m L1 L2 r St0 Q. destruct m as [|m]; [lia|]. cbn [joinK pSeq]. rewrite (A n ltac:(lia) r St0). destruct r as [|x r]; auto. rewrite Q. reflexivity.
  - destruct (IH ltac:(discriminate)) as (n2 & R). exists (S (n1 + n2)). intros n m L1 L2 r St0 Q. destruct m as [|m]; [lia|].
    change (joinK sep (ts :: ts2 :: tss)) with (ts ++ sep :: joinK sep (ts2 :: tss)). rewrite <- app_assoc. cbn [pSeq app]. rewrite (A n ltac:(lia) _ (St _)). cbn [app]. rewrite Sp, (R n m ltac:(lia) ltac:(lia) r St0 Q). reflexivity.
Qed.
Lemma conj_parses : forall tss cs, Forall2 (parses 3) tss cs -> 2 <= length tss -> parses 4 (joinK TkAnd tss) (PConj cs).
Proof.
  intros tss cs H L. destruct (seq_parses 3 TkAnd isAnd tss cs H) as (n0 & R); [destruct tss; cbn in L; [lia|discriminate]|reflexivity|intros r; cbn; lia|].
  exists n0. intros n Ln r Sp0. cbn [at_]. unfold pConj. change (pLit (pEquiv n) n) with (at_ 3 n). rewrite R; auto.
  - destruct H as [|? ? ? ? ? [|]]; cbn in L; try lia. reflexivity.
  - apply (stops_less 3 4); auto.
  - destruct r as [|[] r]; cbn in Sp0 |- *; auto. lia.
Qed.
Lemma disj_parses : forall tss cs, Forall2 (parses 4) tss cs -> 2 <= length tss -> parses 5 (joinK TkOr tss) (PDisj cs).
Proof.
  intros tss cs H L. destruct (seq_parses 4 TkOr isOr tss cs H) as (n0 & R); [destruct tss; cbn in L; [lia|discriminate]|reflexivity|intros r; cbn; lia|].
  exists n0. intros n Ln r Sp0. cbn [at_]. unfold pDisj. change (pConj (pEquiv n) n) with (at_ 4 n). rewrite R; auto.
  - destruct H as [|? ? ? ? ? [|]]; cbn in L; try lia. reflexivity.
  - apply (stops_less 4 5); auto.
  - destruct r as [|[] r]; cbn in Sp0 |- *; auto. lia.
Qed.
Lemma impl_parses : forall ta tb a b, parses 5 ta a -> parses 5 tb b -> parses 6 (ta ++ TkImpl :: tb) (PImpl a b).
Proof.
  intros ta tb a b (n1 & A) (n2 & B). exists (S (S (n1 + n2))). intros n L r Sp0. rewrite <- app_assoc. cbn [at_]. destruct n as [|[|n]]; try lia. cbn [pImpl]. change (pDisj (pEquiv (Datatypes.S (Datatypes.S n))) (Datatypes.S (Datatypes.S n))) with (at_ 5 (Datatypes.S (Datatypes.S n))).
  rewrite (A (Datatypes.S (Datatypes.S n)) ltac:(lia)) by (cbn; lia). cbn [app].
  rewrite (B (Datatypes.S (Datatypes.S n)) ltac:(lia) r (stops_less 5 6 r ltac:(lia) Sp0)). destruct r as [|[] r]; cbn in Sp0 |- *; auto. lia.
Qed.
Lemma equiv_parses : forall ta tb a b, parses 6 ta a -> parses 6 tb b -> parses 7 (ta ++ TkEquiv :: tb) (PEquiv a b).
Proof.
  intros ta tb a b (n1 & A) B. apply lift6 in B as (n2 & B). exists (S (n1 + n2)). intros n L r Sp0. rewrite <- app_assoc. cbn [at_]. destruct n as [|n]; try lia. unfold pEquivF. change (pImpl (pEquiv (Datatypes.S n)) (Datatypes.S n) (Datatypes.S n)) with (at_ 6 (Datatypes.S n)).
  rewrite (A (Datatypes.S n) ltac:(lia)) by (cbn; lia). cbn [app]. change (pEquiv (Datatypes.S n)) with (at_ 7 n). rewrite (B n ltac:(lia) r Sp0). reflexivity.
Qed.
(** ** Constraints *)
Definition plainLit (l : lit) : Prop := snd l = true -> allc isDigit (fst l) = false.
Lemma litK_lit : forall l, plainLit l -> litK l = TkLit (litT l).
Proof. intros [n []] H; unfold litK, litT, nameK, plainLit in *; cbn [fst snd] in *; auto. rewrite (H eq_refl). reflexivity. Qed.
Lemma pMul_ok : forall x r, plainLit (fst x) -> pMul (mulK x ++ r) = Some (mulC x, r).
Proof. intros [l c] r H. unfold mulK, mulC. cbn [fst snd] in *. rewrite (litK_lit l H). destruct (Z.eqb c 1); reflexivity. Qed.
Lemma pAdd_ok : forall xs, xs <> [] -> Forall (fun x => plainLit (fst x)) xs -> forall n c r, length xs <= n -> pAdd n (joinK TkAdd (map mulK xs) ++ TkCmp c :: r) = Some (map mulC xs, TkCmp c :: r).
Proof.
  induction xs as [|x xs IH]; intros N F n c r L; [congruence|]. inversion F as [|? ? F1 F2]; subst. cbn in L. destruct n as [|n]; [lia|]. cbn [pAdd map]. destruct xs as [|y xs].
  - cbn [joinK map]. rewrite (pMul_ok x _ F1). reflexivity.
  - change (joinK TkAdd (mulK x :: map mulK (y :: xs))) with (mulK x ++ TkAdd :: joinK TkAdd (map mulK (y :: xs))). rewrite <- app_assoc. rewrite (pMul_ok x _ F1). cbn [app]. rewrite IH; auto; [discriminate|lia].
Qed.
Lemma comp_parses : forall xs c k, xs <> [] -> Forall (fun x => plainLit (fst x)) xs -> parses 2 (joinK TkAdd (map mulK xs) ++ [TkCmp c; TkNum k]) (PComp (map mulC xs) c k).
Proof.
  intros xs c k N F. exists (length xs). intros n L r _. cbn [at_]. rewrite <- app_assoc. cbn [app].
  assert (E : pComparison n (joinK TkAdd (map mulK xs) ++ TkCmp c :: TkNum k :: r) = Some (PComp (map mulC xs) c k, r)) by (unfold pComparison; rewrite pAdd_ok; auto).
  assert (T : exists a b l, (a = (TkLit l) \/ a = TkNum l) /\ continues b = true /\ joinK TkAdd (map mulK xs) ++ TkCmp c :: TkNum k :: r = a :: b).
  { destruct xs as [|x xs]; [congruence|]. inversion F as [|? ? F1 F2]; subst. destruct x as [l z]. cbn [map]. unfold mulK at 1. cbn [fst snd] in *. rewrite (litK_lit l F1). destruct (Z.eqb z 1); destruct xs as [|y xs]; cbn [map joinK app]; 
    match goal with |- exists a b l, _ /\ _ /\ ?A :: ?B = _ => exists A, B end; match goal with |- exists l, (TkLit ?L = _ \/ _) /\ _ => exists L | |- exists l, (TkNum ?L = _ \/ _) /\ _ => exists L end; split; auto. }
  destruct T as (a & b & l & Ha & Hb & T). rewrite T in *. destruct Ha as [-> | ->]; cbn [pSimp]; rewrite Hb; exact E.
Qed.

(** ** Formulas *)
Lemma toks_parses : forall t, printable t = true -> formed t -> parses (lev t) (toks t) (cstOf t).
Proof.
  induction t as [| |l|t IH|l IH|l IH|a b IHa IHb|a b IHa IHb|cc c k ls cs] using tree_ind'; intros P F; cbn [toks cstOf lev printable formed] in *.
  - exists 0. reflexivity.
  - exists 0. reflexivity.
  - exists 0. intros n L r Sp0. cbn [at_ app]. unfold litK, nameK, litT. assert (C : continues r = false) by (destruct r as [|[] r]; cbn in *; auto; destruct Sp0). destruct (snd l); [destruct (allc isDigit (fst l))|]; cbn [pSimp]; rewrite C; reflexivity.
  - destruct (lift2 _ _ (brackets _ _ (lift 7 (lev t) _ _ ltac:(destruct t; cbn; lia) ltac:(destruct t; cbn; lia) ltac:(lia) (IH P F)))) as (n0 & H). exists n0. intros n L r Sp0. cbn [at_]. cbn [app]. rewrite pLit_not. specialize (H n L r Sp0). cbn [at_ app] in H. rewrite H. reflexivity.
  - destruct F as [F1 F2]. rewrite forallb_forall in P. rewrite Forall_forall in *. assert (Q : forall u, In u l -> formed u) by (intros u I; apply F2, in_map; auto). apply conj_parses; [|rewrite map_length; auto]. apply Forall2_maps. intros u I. apply (operand 4); try lia. apply IH; auto.
  - destruct F as [F1 F2]. rewrite forallb_forall in P. rewrite Forall_forall in *. assert (Q : forall u, In u l -> formed u) by (intros u I; apply F2, in_map; auto). apply disj_parses; [|rewrite map_length; auto]. apply Forall2_maps. intros u I. apply (operand 5); try lia. apply IH; auto.
  - apply andb_prop in P as [P1 P2]. destruct F. apply impl_parses; apply (operand 6); try lia; auto.
  - apply andb_prop in P as [P1 P2]. destruct F. apply equiv_parses; apply (operand 7); try lia; auto.
  - pose proof P as P1. destruct F as [F1 F2]. apply comp_parses; [apply combine_ne; auto|]. apply Forall_forall. intros x I. red. apply (lits_adm ls P1 cs x I).
Qed.
(** the parse tree of a printed formula *)
Lemma parse_toks : forall t, printable t = true -> formed t -> exists n0, forall n, n0 <= n -> pEquiv n (toks t) = Some (cstOf t, []).
Proof.
  intros t P F. destruct (lift 7 (lev t) _ _ ltac:(destruct t; cbn; lia) ltac:(destruct t; cbn; lia) ltac:(lia) (toks_parses t P F)) as (n0 & H). exists (S n0). intros n L. destruct n as [|n]; [lia|]. change (pEquiv (S n)) with (at_ 7 n). rewrite <- (H n ltac:(lia) [] Logic.I). rewrite app_nil_r. reflexivity.
Qed.
