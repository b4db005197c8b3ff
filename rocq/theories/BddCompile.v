(** * Compilation: the nodes denote the functions of their formulas *)
From Coq Require Import String List Bool ZArith NArith Lia.
From Verif Require Import Spec Factory FactoryProofs FactoryProofs2 FactoryProofs3 Assign NormalForm NfBase Bdd BddApi BddTable BddNode BddSem BddQuant BddKernel BddHandles.
Import ListNotations.
Local Open Scope Z_scope.

(** ** Functions of the variables *)
Definition vasg := formula -> bool.
(** the values of the levels agree with the values of the variables *)
Definition agr (k : kernel) (x : Z -> bool) (b : vasg) : Prop := forall i v, nth_error (vlist k) i = Some v -> x (var2level k (Z.of_nat i)) = b v.
Definition Denotes (k : kernel) (n : Z) (p : vasg -> bool) : Prop := exists t, Rep k n t /\ forall x b, agr k x b -> sem t x = p b.
Definition lvals (k : kernel) (b : vasg) (l : Z) : bool := match nth_error (vlist k) (Z.to_nat (level2var k l)) with Some v => b v | None => false end.
Lemma vlist_range k i v : kinv k -> nth_error (vlist k) i = Some v -> 0 <= Z.of_nat i < varnum k.
Proof. intros K E. pose proof (proj2 (ki_vlist _ K)). assert (i < List.length (vlist k))%nat by (apply nth_error_Some; congruence). lia. Qed.
Lemma lvals_agr k b : kinv k -> agr k (lvals k b) b.
Proof.
  intros K i v E. unfold lvals. destruct (ki_perm _ K (Z.of_nat i)) as [_ ->]; [eapply vlist_range; eauto|]. rewrite Nat2Z.id, E. auto.
Qed.
Lemma agr_kext L k k' x b : kext L k k' -> agr k' x b -> agr k x b.
Proof.
  intros [(l & E) _ _ V _] A i v H. rewrite <- V. apply A. rewrite E, nth_error_app1; auto. apply nth_error_Some. congruence.
Qed.
Lemma Denotes_ext L k k' n p : kext L k k' -> In n L -> Denotes k n p -> Denotes k' n p.
Proof. intros X I (t & R & S). exists t. split; [apply X; auto|]. intros x b A. apply S. eapply agr_kext; eauto. Qed.
Lemma Denotes_sameR k k' n p : sameR k k' -> Denotes k n p -> Denotes k' n p.
Proof. intros S. apply (Denotes_ext [n]); [apply sameR_kext; auto|left; auto]. Qed.
Lemma Denotes_eq k n p q : (forall b, p b = q b) -> Denotes k n p -> Denotes k n q.
Proof. intros E (t & R & S). exists t. split; auto. intros x b A. rewrite <- E. auto. Qed.
Lemma opres_Denotes L k f res k' p : opres L k f res k' -> (forall x b, agr k x b -> f x = p b) -> Denotes k' res p.
Proof. intros (_ & _ & X & _ & t & R & S) H. exists t. split; auto. intros x b A. rewrite S. apply H. eapply agr_kext; eauto. Qed.
Lemma Denotes_valid k n p : Denotes k n p -> valid k n.
Proof. intros (t & R & _). eapply Rep_valid; eauto. Qed.

(** ** Weakest preconditions *)
Definition cwp {A} (m : C A) (Q : A -> state -> kernel -> Prop) (s : state) (k : kernel) : Prop :=
  match m s k with CRet a s' k' => Q a s' k' | CFull => True | CPanic | CStuck => False end.
Lemma cwp_ret {A} (a : A) (Q : A -> state -> kernel -> Prop) s k : Q a s k -> cwp (cret a) Q s k. Proof. auto. Qed.
Lemma cwp_bind {A B} (m : C A) (f : A -> C B) (Q : B -> state -> kernel -> Prop) s k : cwp m (fun a s' k' => cwp (f a) Q s' k') s k -> cwp (cbind m f) Q s k.
Proof. unfold cwp, cbind. destruct (m s k); auto. Qed.
Lemma cwp_conseq {A} (m : C A) (P Q : A -> state -> kernel -> Prop) s k : cwp m P s k -> (forall a s' k', P a s' k' -> Q a s' k') -> cwp m Q s k.
Proof. unfold cwp. destruct (m s k); auto. Qed.
Lemma cwp_bind' {A B} (m : C A) (f : A -> C B) (P : A -> state -> kernel -> Prop) (Q : B -> state -> kernel -> Prop) s k :
  cwp m P s k -> (forall a s' k', P a s' k' -> cwp (f a) Q s' k') -> cwp (cbind m f) Q s k.
Proof. intros H1 H2. apply cwp_bind. eapply cwp_conseq; eauto. Qed.
Lemma cwp_onK {A} (m : K A) (Q : A -> state -> kernel -> Prop) s k : kwp m (fun a k' => Q a s k') k -> cwp (onK m) Q s k.
Proof. unfold cwp, onK, kwp. destruct (m k); auto. Qed.
Lemma cwp_bindK {A B} (m : K A) (f : A -> C B) (P : A -> kernel -> Prop) (Q : B -> state -> kernel -> Prop) s k :
  kwp m P k -> (forall a k', P a k' -> cwp (f a) Q s k') -> cwp (cbind (onK m) f) Q s k.
Proof. intros H1 H2. apply cwp_bind, cwp_onK. eapply kwp_conseq; eauto. Qed.
Lemma cwp_get {A B} (g : state -> A) (f : A -> C B) (Q : B -> state -> kernel -> Prop) s k : cwp (f (g s)) Q s k -> cwp (cbind (cget g) f) Q s k.
Proof. auto. Qed.

Lemma feq_dec (a b : formula) : {a = b} + {a <> b}.
Proof. destruct (feqb_spec a b); auto. Qed.
(** ** Room for the variables *)
(** [W]: the variables on the kernel and those still to come *)
Definition fits (k : kernel) (W : list formula) : Prop := NoDup W /\ incl (vlist k) W /\ Z.of_nat (List.length W) <= varnum k.
Lemma fits_room k W v : kinv k -> fits k W -> In v W -> room k v.
Proof.
  intros K (N & I & Le) Iv. unfold room. destruct (in_dec feq_dec v (vlist k)) as [H|H]; auto.
  right. assert (List.length (v :: vlist k) <= List.length W)%nat; [|cbn in *; lia]. apply NoDup_incl_length; [constructor; auto; apply K|]. intros x [<-|Hx]; auto.
Qed.
(** ** Literals *)
(** the value of the names of the factory [s] under the values of the variables *)
Definition bof (s : state) (b : vasg) (x : string) : bool := match posLit s x with Some v => b v | None => false end.
Lemma lit_var s f x p : wf s -> litDen s f (x, p) -> posLit s x = Some (litVariable f) /\ isPos f = p.
Proof.
  intros W D. pose proof W as [Wn Wt]. pose proof (litDen_pos _ _ _ W D) as E. cbn in E. split; auto. unfold litVariable. rewrite E. unfold litDen in D. cbn in D.
  pose proof (w_ok _ Wn _ _ D) as (_ & _ & O). destruct p.
  - apply (c_pos _ Wt). apply node_lit; auto.
  - destruct (O eq_refl) as (v & Nv & Iv). apply (c_pos _ Wt). apply node_lit in Nv; auto.
    pose proof (t_lit _ Wt _ _ Nv) as Sv. rewrite Iv, negId_invol. destruct v as [sv iv]. cbn in *. subst. auto.
Qed.
Lemma litNode_ok W L k l : kinv k -> hinv k L -> fits k W -> In (litVariable l) W ->
  kwp (litNode l) (fun n k' => kinv k' /\ hinv k' (n :: L) /\ kext L k k' /\ fits k' W /\
    (exists i, nth_error (vlist k') i = Some (litVariable l) /\ Rep k' n (Nd (var2level k' (Z.of_nat i)) (Lf (negb (isPos l))) (Lf (isPos l)))) /\
    (In (litVariable l) (vlist k) -> k' = k)) k.
Proof.
  intros K H F I. unfold litNode. eapply kwp_bind'; [eapply kwp_conseq; [apply (getIndex_ok L)|]; auto; [eapply fits_room; eauto|]|].
  { intros i k' P. exact P. }
  intros i k' (K' & H' & X & Hi & Ni & Same & Ic'). cbn in *.
  assert (V : kwp (if isPos l then ithVar i else nithVar i) (fun n k2 => k2 = k' /\ n = varnodes k' (if isPos l then 2 * i else 2 * i + 1)) k').
  { destruct (isPos l); unfold kwp, ithVar, nithVar; (replace ((i <? 0) || (varnum k' <=? i)) with false; [auto|]); symmetry; apply orb_false_iff; split; [apply Z.ltb_ge|apply Z.leb_gt|apply Z.ltb_ge|apply Z.leb_gt]; lia. }
  eapply kwp_conseq; [exact V|]. intros n k2 [-> ->]. destruct (varnode_hinv k' L i (isPos l) K' H' Hi) as [HL R]. split; auto. split; auto. split; auto. split; [|split; auto].
  - split; [apply F|]. destruct F as (N & Ic & Le). split; [|rewrite (x_num _ _ _ X); auto]. intros y Hy. destruct (Ic' y Hy) as [<-|Hy']; auto.
  - exists (Z.to_nat i). split; auto. rewrite Z2Nat.id by lia. auto.
Qed.
Lemma litNode_den W L s k l x p : wf s -> litDen s l (x, p) -> kinv k -> hinv k L -> fits k W -> In (litVariable l) W ->
  kwp (litNode l) (fun n k' => kinv k' /\ hinv k' (n :: L) /\ kext L k k' /\ fits k' W /\ Denotes k' n (fun b => eval_lit (bof s b) (x, p))) k.
Proof.
  intros Wf D K H F I. eapply kwp_conseq; [apply litNode_ok with (W := W) (L := L); auto|]. intros n k' (K' & H' & X & F' & (i & Ni & R) & _).
  split; auto. split; auto. split; auto. split; auto. eexists. split; [exact R|]. intros y b A. cbn. rewrite (A _ _ Ni). destruct (lit_var _ _ _ _ Wf D) as [E1 E2].
  unfold eval_lit, bof. cbn. rewrite E1, E2. destruct p, (b (litVariable l)); auto.
Qed.

(** ** Compilation *)
Fixpoint tdep (t : tree) : nat :=
  match t with
  | TNot t => S (tdep t)
  | TAnd ts | TOr ts => S (list_max (map tdep ts))
  | TImpl a b | TEquiv a b => S (Nat.max (tdep a) (tdep b))
  | _ => 1%nat
  end.
Lemma tdep_in ts t : In t ts -> (tdep t <= list_max (map tdep ts))%nat.
Proof.
  intros I. assert (H : Forall (fun n => n <= list_max (map tdep ts))%nat (map tdep ts)) by (apply list_max_le; auto).
  rewrite Forall_forall in H. apply H. apply in_map; auto.
Qed.
Section Compile.
Variable cf : encConfig.
Variable h : nat -> bool.
Variable s : state.
Hypothesis Wf : wf s.
Variable W : list formula.
Definition cpost (L : list Z) (k : kernel) (i : nat) (p : vasg -> bool) (r : option Z * nat) (s' : state) (k' : kernel) : Prop :=
  s' = s /\ kinv k' /\ hinv k' L /\ kext L k k' /\ fits k' W /\
  match fst r with Some z => hinv k' (z :: L) /\ Denotes k' z p | None => exists m, (i <= m < snd r)%nat /\ h m = false end /\ (i <= snd r)%nat.
Definition fuses (t : tree) : Prop := forall x, occurs x t -> exists v, posLit s x = Some v /\ In v W.
Definition tfun (t : tree) : vasg -> bool := fun b => eval (bof s b) t.
Definition csat (n : nat) (t : tree) (f : formula) : Prop := forall L k i, kinv k -> hinv k L -> fits k W -> cwp (compile cf h n f i) (cpost L k i (tfun t)) s k.

(** the end of a binary step: the result gets a reference, the operands lose theirs *)
Lemma binary_end {B} L k l r o p q i (cont : option Z -> C B) (Q : B -> state -> kernel -> Prop) : kinv k -> hinv k (r :: l :: L) -> fits k W -> Denotes k l p -> Denotes k r q ->
  (forall z k', kinv k' -> hinv k' L -> kext L k k' -> fits k' W ->
     match z with Some z => hinv k' (z :: L) /\ Denotes k' z (fun b => bsem o (p b) (q b)) | None => h i = false end -> cwp (cont z) Q s k') ->
  cwp (z <== onK (apply l r o) ;; x <== onK (addRef z (h i)) ;; _ <== onK (delRef l) ;; _ <== onK (delRef r) ;; cont x) Q s k.
Proof.
  intros K H F (tl & Rl & Sl) (tr & Rr & Sr) HC.
  eapply cwp_bindK; [apply (apply_ok (r :: l :: L)); eauto; cbn; auto|]. intros z k1 O. pose proof O as (K1 & H1 & X1 & Ev & tz & Rz & Sz).
  assert (Dz : Denotes k1 z (fun b => bsem o (p b) (q b))). { eapply opres_Denotes; [exact O|]. intros x b A. cbn. rewrite (Sl x b A), (Sr x b A); auto. } clear O.
  eapply cwp_bindK; [eapply addRef_ok; eauto|]. intros x k2 (K2 & S2 & H2 & Hb).
  assert (E : exists x' L', x = x' /\ hinv k2 (l :: r :: L' ++ L) /\ match x' with Some z' => z' = z /\ L' = [z] | None => h i = false /\ L' = [] end).
  { destruct (h i); [destruct Hb as [-> Hb]; exists (Some z), [z]|subst x; exists None, []]; (split; [auto|split; [|auto]]).
    - revert Hb. apply hinv_le. intros n. cbn [app]. rewrite !cnt_cons. lia.
    - revert H2. apply hinv_le. intros n. cbn [app]. rewrite !cnt_cons. lia. }
  destruct E as (x' & L' & -> & H3 & Hx). clear Hb.
  eapply cwp_bindK; [apply delRef_ok; eauto|]. intros [] k3 (K3 & S3 & H4).
  eapply cwp_bindK; [apply delRef_ok; eauto|]. intros [] k4 (K4 & S4 & H5).
  assert (X : kext L k k4).
  { eapply kext_trans; [eapply kext_incl; [|exact X1]; intros y Hy; cbn; auto|]. eapply kext_trans; [apply (sameR_kext _ _ _ S2)|]. eapply kext_trans; [apply (sameR_kext _ _ _ S3)|apply (sameR_kext _ _ _ S4)]. }
  apply HC; auto.
  - revert H5. apply hinv_le. intros n. unfold cnt. rewrite count_occ_app. lia.
  - assert (V : vlist k4 = vlist k1) by (destruct S2 as (? & ->), S3 as (? & ->), S4 as (? & ->); auto). assert (V1 : varnum k4 = varnum k) by (apply X).
    destruct F as (N & Ic & Le). split; auto. split; [|rewrite V1; auto]. rewrite V, Ev. auto.
  - destruct x' as [z'|]; [|tauto]. destruct Hx as [-> ->]. split; auto.
    eapply Denotes_sameR; [exact S4|]. eapply Denotes_sameR; [exact S3|]. eapply Denotes_sameR; [exact S2|]. auto.
Qed.

Lemma cpost_some L k i p z j k' : kinv k' -> hinv k' (z :: L) -> kext L k k' -> fits k' W -> Denotes k' z p -> (i <= j)%nat -> cpost L k i p (Some z, j) s k'.
Proof. intros. split; auto. split; auto. split; [eapply hinv_tl; eauto|]. split; auto. split; auto. cbn. auto. Qed.
Lemma cpost_none L k i p m j k' : kinv k' -> hinv k' L -> kext L k k' -> fits k' W -> h m = false -> (i <= m < j)%nat -> cpost L k i p (None, j) s k'.
Proof. intros. split; auto. split; auto. split; auto. split; auto. split; auto. cbn. split; [exists m; auto|lia]. Qed.
Lemma cpost_trans L k k1 i j p r s' k' : kext L k k1 -> (i <= j)%nat -> cpost L k1 j p r s' k' -> cpost L k i p r s' k'.
Proof.
  intros X H (-> & K & Hi & X1 & F & Hr & Hj). split; auto. split; auto. split; auto. split; [eapply kext_trans; eauto|]. split; auto. split; [|lia].
  destruct (fst r); auto. destruct Hr as (m & Hm & E). exists m. split; auto. lia.
Qed.
Lemma cpost_inv L k i p r j s' k' : cpost L k i p (r, j) s' k' -> s' = s /\ kinv k' /\ kext L k k' /\ fits k' W /\ (i <= j)%nat /\
  match r with Some z => hinv k' (z :: L) /\ Denotes k' z p | None => exists m, hinv k' L /\ (i <= m < j)%nat /\ h m = false end.
Proof. intros (-> & K & Hi & X1 & F & Hr & Hj). cbn in *. split; auto. split; auto. split; auto. split; auto. split; auto. destruct r; auto. destruct Hr as (m & A & B). eauto. Qed.
Lemma kext_tl z L k k' : kext (z :: L) k k' -> kext L k k'.
Proof. apply kext_incl. intros x Hx; right; auto. Qed.
Lemma compOps_ok n o : o = BAnd \/ o = BOr -> forall ts ops, Forall2 (csat n) ts ops -> forall L k res i p, kinv k -> hinv k (res :: L) -> fits k W -> Denotes k res p ->
  cwp (compOps h (compile cf h n) o ops res i) (cpost L k i (fun b => fold_left (bsem o) (map (fun t => tfun t b) ts) (p b))) s k.
Proof.
  intros Ho ts ops HF. induction HF as [|t f ts ops Hf HF IH]; intros L k res i p K H F D; cbn [compOps].
  - apply cwp_ret. apply cpost_some; auto. apply kext_refl.
  - eapply cwp_bind'; [apply (Hf (res :: L)); auto|]. intros [r j] s' k1 P. apply cpost_inv in P as (-> & K1 & X1 & F1 & Hj & Hr).
    destruct r as [z|].
    + destruct Hr as [H2 D2]. pose proof (Denotes_ext _ _ _ res p X1 (or_introl eq_refl) D) as D1. apply kext_tl in X1.
      eapply binary_end with (L := L); eauto.
      intros y k2 K2 H2' X2 F2 Hy. destruct y as [y|].
      * destruct Hy as [Hy Dy]. eapply cwp_conseq; [eapply (IH L); eauto|]. intros r' s' k3 P. eapply cpost_trans; [| |exact P]; [eapply kext_trans; eauto|lia].
      * apply cwp_ret. apply (cpost_none _ _ _ _ j); auto. eapply kext_trans; eauto.
    + destruct Hr as (m & Hm & Hr & Em). apply cwp_ret. apply (cpost_none _ _ _ _ m); auto; [eapply hinv_tl; eauto|eapply kext_tl; eauto].
Qed.
Lemma fold_and l : forall b, fold_left (bsem BAnd) l b = b && forallb (fun x => x) l.
Proof. induction l as [|x l IH]; intros b; cbn; [rewrite andb_true_r; auto|]. rewrite IH. cbn. rewrite andb_assoc. auto. Qed.
Lemma fold_or l : forall b, fold_left (bsem BOr) l b = b || existsb (fun x => x) l.
Proof. induction l as [|x l IH]; intros b; cbn; [rewrite orb_false_r; auto|]. rewrite IH. cbn. rewrite orb_assoc. auto. Qed.
Lemma forallb_id {A} (g : A -> bool) l : forallb (fun x => x) (map g l) = forallb g l. Proof. induction l; cbn; congruence. Qed.
Lemma existsb_id {A} (g : A -> bool) l : existsb (fun x => x) (map g l) = existsb g l. Proof. induction l; cbn; congruence. Qed.

Lemma cpost_eq L k i p q r s' k' : (forall b, p b = q b) -> cpost L k i p r s' k' -> cpost L k i q r s' k'.
Proof.
  intros E (A1 & A2 & A3 & A4 & A5 & A6 & A7). repeat (split; auto). destruct (fst r); auto. destruct A6 as [B1 B2]. split; auto. eapply Denotes_eq; eauto.
Qed.
Lemma nary_ok n o ts ops : o = BAnd \/ o = BOr -> ops <> [] -> Forall2 (csat n) ts ops -> forall L k i, kinv k -> hinv k L -> fits k W ->
  cwp (match ops with
      | [] => fun _ _ => CPanic
      | g :: r => p <== compile cf h n g i ;; match p with (None, i) => cret (None, i) | (Some res, i) => compOps h (compile cf h n) o r res i end
      end) (cpost L k i (fun b => match o with BAnd => forallb (fun t => tfun t b) ts | _ => existsb (fun t => tfun t b) ts end)) s k.
Proof.
  intros Ho Ne HF L k i K H F. destruct HF as [|t f ts ops Hf HF]; [congruence|].
  eapply cwp_bind'; [apply (Hf L); auto|]. intros [r j] s' k1 P. apply cpost_inv in P as (-> & K1 & X1 & F1 & Hj & Hr).
  destruct r as [z|].
  - destruct Hr as [H2 D2]. eapply cwp_conseq; [apply (compOps_ok n o Ho ts ops HF L) with (p := tfun t); eauto|].
    intros r' s' k3 P. eapply cpost_trans; [exact X1|exact Hj|]. eapply cpost_eq; [|exact P].
    intros b. destruct Ho as [-> | ->]; cbn; [rewrite fold_and, forallb_id|rewrite fold_or, existsb_id]; auto.
  - destruct Hr as (m & Hm & Hr & Em). apply cwp_ret. eapply cpost_none; eauto.
Qed.
Lemma binop_ok n o t1 t2 f1 f2 : csat n t1 f1 -> csat n t2 f2 -> forall L k i, kinv k -> hinv k L -> fits k W ->
  cwp (p <== compile cf h n f1 i ;;
      match p with
      | (None, i) => cret (None, i)
      | (Some lft, i) =>
        q <== compile cf h n f2 i ;;
        match q with
        | (None, i) => cret (None, i)
        | (Some rgt, i) =>
          z <== onK (apply lft rgt o) ;; x <== onK (addRef z (h i)) ;;
          _ <== onK (delRef lft) ;; _ <== onK (delRef rgt) ;; cret (x, S i)
        end
      end) (cpost L k i (fun b => bsem o (tfun t1 b) (tfun t2 b))) s k.
Proof.
  intros H1 H2 L k i K H F. eapply cwp_bind'; [apply (H1 L); auto|]. intros [r j] s' k1 P. apply cpost_inv in P as (-> & K1 & X1 & F1 & Hj & Hr).
  destruct r as [l|]; [|destruct Hr as (m & Hm & Hr & Em); apply cwp_ret; apply (cpost_none _ _ _ _ m); auto].
  destruct Hr as [Hl Dl]. eapply cwp_bind'; [apply (H2 (l :: L)); auto|]. intros [r j'] s' k2 P. apply cpost_inv in P as (-> & K2 & X2 & F2 & Hj' & Hr).
  assert (X : kext L k k2) by (eapply kext_trans; [exact X1|eapply kext_tl; eauto]).
  destruct r as [r|]; [|destruct Hr as (m & Hm & Hr & Em); apply cwp_ret; apply (cpost_none _ _ _ _ m); auto; [eapply hinv_tl; eauto|lia]].
  destruct Hr as [Hr Dr]. eapply binary_end with (L := L); [exact K2|exact Hr|exact F2|eapply Denotes_ext; [exact X2|left; reflexivity|exact Dl]|exact Dr|].
  intros z k3 K3 H3 X3 F3 Hz. apply cwp_ret. destruct z as [z|].
  - destruct Hz as [Hz Dz]. apply cpost_some; auto; [eapply kext_trans; eauto|lia].
  - apply (cpost_none _ _ _ _ j'); auto; [eapply kext_trans; eauto|lia].
Qed.
Lemma nary_nonempty f ts : (Den s f (TAnd ts) \/ Den s f (TOr ts)) -> opNary f s <> [].
Proof.
  pose proof Wf as [Wn Wt]. intros [D|D] E.
  - pose proof (opNary_and _ _ _ Wf D) as F. rewrite E in F. inversion F; subst. apply Den_and_inv in D as (l & Nl & Fl). inversion Fl; subst. pose proof (w_ok _ Wn _ _ Nl) as (_ & X & _). cbn in X. lia.
  - pose proof (opNary_or _ _ _ Wf D) as F. rewrite E in F. inversion F; subst. apply Den_or_inv in D as (l & Nl & Fl). inversion Fl; subst. pose proof (w_ok _ Wn _ _ Nl) as (_ & X & _). cbn in X. lia.
Qed.
Lemma Forall2_flip' {A B} (P : A -> B -> Prop) l l' : Forall2 (fun b a => P a b) l' l -> Forall2 P l l'.
Proof. induction 1; constructor; auto. Qed.
Lemma Forall2_in_impl {A B} (P Q : A -> B -> Prop) l l' : (forall a b, In b l' -> P a b -> Q a b) -> Forall2 P l l' -> Forall2 Q l l'.
Proof. intros H F. induction F as [|a b l l' Hab F IH]; constructor; [apply H; auto; left; auto|apply IH; intros; apply H; auto; right; auto]. Qed.
Lemma occurs_list x ts : (exists t, In t ts /\ occurs x t) -> occurs x (TAnd ts).
Proof. intros (t & I & O). cbn. induction ts as [|u ts IH]; [destruct I|]. destruct I as [->|I]; [left; auto|right; apply IH; auto]. Qed.
Lemma occurs_list' x ts : (exists t, In t ts /\ occurs x t) -> occurs x (TOr ts).
Proof. exact (occurs_list x ts). Qed.
Theorem compile_ok : forall t, pbfree t = true -> fuses t -> forall n f, (tdep t <= n)%nat -> Den s f t -> csat n t f.
Proof.
  induction t using tree_ind'; intros Hp Hu n f Hn D L k0 i K Hi F; (destruct n as [|n]; [cbn in Hn; lia|]); cbn [compile]; pose proof (Den_sort _ _ _ D) as Es; rewrite Es; cbn [pbfree] in Hp; try discriminate.
  - apply cwp_ret. apply cpost_some; auto; [apply hinv_const; auto|apply kext_refl|]. exists (Lf false). split; [constructor|auto].
  - apply cwp_ret. apply cpost_some; auto; [apply hinv_const; auto|apply kext_refl|]. exists (Lf true). split; [constructor|auto].
  - destruct l as [x p]. apply Den_litt_inv in D. destruct (lit_var _ _ _ _ Wf D) as [Ev _]. destruct (Hu x) as (v & Ev' & Iv); [reflexivity|]. rewrite Ev in Ev'. injection Ev' as <-.
    eapply cwp_bindK; [eapply (litNode_den W L); eauto|]. intros z k1 (K1 & H1 & X1 & F1 & D1). apply cwp_ret. apply cpost_some; auto.
  - apply cwp_get. pose proof (opNot_den _ _ _ Wf D) as D1. assert (Hn' : (tdep t <= n)%nat) by (cbn in Hn; lia). eapply cwp_bind'; [exact (IHt Hp Hu n _ Hn' D1 L k0 i K Hi F)|].
    intros [r j] s' k1 P. apply cpost_inv in P as (-> & K1 & X1 & F1 & Hj & Hr). destruct r as [z|].
    + destruct Hr as [H2 D2]. destruct D2 as (tz & Rz & Sz). eapply cwp_bindK; [apply (bnot_ok (z :: L)); eauto; left; auto|].
      intros y k2 O. pose proof O as (K2 & H3 & X2 & Ev & ty & Ry & Sy).
      assert (Dy : Denotes k2 y (tfun (TNot t))) by (eapply opres_Denotes; [exact O|]; intros x b A; cbn; rewrite (Sz x b A); auto). clear O.
      assert (F2 : fits k2 W) by (destruct F1 as (Q1 & Q2 & Q3); split; [auto|split; [rewrite Ev; auto|rewrite (x_num _ _ _ X2); auto]]). apply kext_tl in X2.
      eapply cwp_bindK; [eapply addRef_ok; eauto|]. intros x k3 (K3 & S3 & H4 & Hb).
      assert (X3 : kext L k0 k3) by (eapply kext_trans; [exact X1|]; eapply kext_trans; [exact X2|apply sameR_kext; auto]).
      assert (F3 : fits k3 W) by (destruct S3 as (? & ->); exact F2).
      destruct (h j) eqn:Eh.
      * destruct Hb as [-> Hb]. eapply cwp_bindK; [apply (delRef_ok (y :: L)); auto; apply hinv_swap; auto|]. intros [] k4 (K4 & S4 & H5). apply cwp_ret.
        apply cpost_some; auto; [eapply kext_trans; [exact X3|apply sameR_kext; auto]|destruct S4 as (? & ->); exact F3|]. eapply Denotes_sameR; [exact S4|]. eapply Denotes_sameR; [exact S3|]. auto.
      * subst x. eapply cwp_bindK; [apply (delRef_ok L); auto|]. intros [] k4 (K4 & S4 & H5). apply cwp_ret.
        apply (cpost_none _ _ _ _ j); auto; [eapply kext_trans; [exact X3|apply sameR_kext; auto]|destruct S4 as (? & ->); exact F3].
    + destruct Hr as (m & Hm & Hr & Em). apply cwp_ret. apply (cpost_none _ _ _ _ m); auto.
  - apply cwp_get. pose proof (opNary_and _ _ _ Wf D) as D1. eapply cwp_conseq; [apply (nary_ok n BAnd ts (opNary f s)) with (L := L); auto|].
    + apply (nary_nonempty f ts); auto.
    + apply Forall2_flip'. eapply Forall2_in_impl; [|exact D1]. intros g u Iu Du. rewrite Forall_forall in H. rewrite forallb_forall in Hp. apply H; auto.
      * intros x Hx. apply Hu. apply occurs_list. eauto.
      * cbn in Hn. pose proof (tdep_in _ _ Iu). lia.
    + intros r s' k' P. eapply cpost_eq; [|exact P]. auto.
  - apply cwp_get. pose proof (opNary_or _ _ _ Wf D) as D1. eapply cwp_conseq; [apply (nary_ok n BOr ts (opNary f s)) with (L := L); auto|].
    + apply (nary_nonempty f ts); auto.
    + apply Forall2_flip'. eapply Forall2_in_impl; [|exact D1]. intros g u Iu Du. rewrite Forall_forall in H. rewrite forallb_forall in Hp. apply H; auto.
      * intros x Hx. apply Hu. apply occurs_list'. eauto.
      * cbn in Hn. pose proof (tdep_in _ _ Iu). lia.
    + intros r s' k' P. eapply cpost_eq; [|exact P]. auto.
  - apply cwp_get. destruct (opBin_impl _ _ _ _ Wf D) as [D1 D2]. apply andb_true_iff in Hp as [Hp1 Hp2]. cbn [tdep] in Hn. eapply cwp_conseq; [apply (binop_ok n BImp t1 t2) with (L := L); auto|].
    + apply IHt1; auto; [intros x Hx; apply Hu; cbn; auto|lia].
    + apply IHt2; auto; [intros x Hx; apply Hu; cbn; auto|lia].
    + intros r s' k' P. eapply cpost_eq; [|exact P]. auto.
  - apply cwp_get. destruct (opBin_equiv _ _ _ _ Wf D) as [D1 D2]. apply andb_true_iff in Hp as [Hp1 Hp2]. cbn [tdep] in Hn. eapply cwp_conseq; [apply (binop_ok n BEquiv t1 t2) with (L := L); auto|].
    + apply IHt1; auto; [intros x Hx; apply Hu; cbn; auto|lia].
    + apply IHt2; auto; [intros x Hx; apply Hu; cbn; auto|lia].
    + intros r s' k' P. eapply cpost_eq; [|exact P]. intros b. cbn. auto.
Qed.
End Compile.
