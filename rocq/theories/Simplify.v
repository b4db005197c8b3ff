(** * Model of package simplification: Distribute, FactorOut, MinimizeNegations and subsumption *)
From Coq Require Import String Ascii List Bool ZArith NArith.
From Verif Require Import Spec Factory Assign NormalForm.
Import ListNotations.
Local Open Scope N_scope.

(** ** Sorted contents of sets *)

(** formula/formula.go:169-178, 232-234: a formula is the number [sort * 2^28 + id]. *)
Definition sortIx (k : fsort) : N :=
  match k with
  | SFalse => 0 | STrue => 1 | SLit => 2 | SNot => 3 | SAnd => 4 | SOr => 5
  | SImpl => 6 | SEquiv => 7 | SCC => 8 | SPBC => 9
  end.
Definition fleb (f g : formula) : bool :=
  (sortIx (srt f) <? sortIx (srt g)) || ((sortIx (srt f) =? sortIx (srt g)) && (fid f <=? fid g)).
Fixpoint insF (f : formula) (l : list formula) : list formula :=
  match l with
  | [] => [f]
  | g :: r => if fleb f g then f :: l else g :: insF f r
  end.
(** formula/set.go:124-129, 180-190 [Content], [setContent]: the elements of a set in ascending order *)
Definition content (l : list formula) : list formula := fold_right insF [] l.

(** ** distribution.go *)

(** distribution.go:45, 51-55: the map [part2Operands]; the first entry of a part counts *)
Definition pmap := list (formula * list formula).
Definition partSet (m : pmap) (p : formula) : list formula :=
  match find (fun q => feqb p (fst q)) m with Some q => snd q | None => [] end.
(** distribution.go:51-60: one part of one operand; the state holds the map, [mostCommon] and
    [mostCommonAmount] *)
Definition distrPart (op : formula) (st : pmap * formula * nat) (part : formula) : pmap * formula * nat :=
  let '(m, mc, amount) := st in
  let set := addSet (partSet m part) op in
  let m' := (part, set) :: m in
  if Nat.ltb amount (length set) then (m', part, length set) else (m', mc, amount).
(** distribution.go:46-63 *)
Definition distrParts (inner : fsort) (operands : list formula) (s : state) : pmap * formula * nat :=
  fold_left (fun st op => if fsort_eqb (srt op) inner then fold_left (distrPart op) (Operands op s) st else st)
    operands ([], ffalse, 0%nat).

(** distribution.go:36-86 [distributeNary] *)
Definition distributeNary (rec : formula -> M formula) (f : formula) : M formula :=
  let outer := srt f in
  let inner := flipSort outer in
  ops <- get (opNary f) ;;
  ds <- mapM rec ops ;;
  let operands := content (addAll [] ds) in
  st <- get (distrParts inner operands) ;;
  let '(m, mc, amount) := st in
  if feqb mc ffalse || Nat.eqb amount 1 then naryOp outer operands
  else
    let set := partSet m mc in
    let rest := filter (fun op => negb (memF op set)) operands in
    rel <- mapM (fun g => parts <- get (Operands g) ;;
                          naryOp inner (filter (fun p => negb (feqb p mc)) parts)) (content set) ;;
    o <- naryOp outer rel ;;
    i <- naryOp inner [mc; o] ;;
    naryOp outer (content (addSet rest i)).

(** distribution.go:13-34 [Distribute] *)
Fixpoint distributeS (n : nat) (f : formula) : M formula :=
  match n with
  | O => fail
  | S n' =>
    c <- get (lookupTrans TransDistr f) ;;
    match c with
    | Some g => ret g
    | None =>
      g <- match srt f with
           | SFalse | STrue | SLit | SCC | SPBC => ret f
           | SNot => op <- get (opNot f) ;; d <- distributeS n' op ;; up (Not d)
           | SImpl | SEquiv =>
             q <- get (opBin f) ;;
             l <- distributeS n' (fst q) ;; r <- distributeS n' (snd q) ;; binOp (srt f) l r
           | SOr | SAnd => distributeNary (distributeS n') f
           end ;;
      _ <- put (setTrans TransDistr f g) ;; ret g
    end
  end.

(** ** factor_out.go *)

(** factor_out.go:108-124: the formulas that are counted, in the order in which they are *)
Definition counted (s : state) (operand : formula) : list formula :=
  match srt operand with
  | SLit => [operand]
  | SAnd | SOr => Operands operand s
  | _ => []
  end.
(** factor_out.go:110-114, 117-121; the counts are a function from formulas *)
Definition countStep (st : (formula -> nat) * formula * nat) (g : formula) : (formula -> nat) * formula * nat :=
  let '(c, mf, mx) := st in
  let k := Nat.succ (c g) in
  let c' := upd feqb c g k in
  if Nat.ltb mx k then (c', g, k) else (c', mf, mx).
(** factor_out.go:104-129 [computeMaxOccurringSubformula] *)
Definition maxOccurring (f : formula) (s : state) : option formula :=
  let '(_, mf, mx) := fold_left countStep (flat_map (counted s) (Operands f s)) (fun _ => 0%nat, ffalse, 0%nat) in
  if Nat.ltb mx 2 then None else Some mf.

(** factor_out.go:68-94: one operand; [true] if it goes to [formulasWithRemoved] *)
Definition splitOperand (k : fsort) (mf operand : formula) : M (bool * formula) :=
  match srt operand with
  | SLit => ret (if feqb operand mf then (true, if fsort_eqb k SOr then ftrue else ffalse) else (false, operand))
  | SAnd | SOr =>
    ops <- get (opNary operand) ;;
    app <- naryOp (srt operand) (filter (fun op => negb (feqb op mf)) ops) ;;
    ret (memF mf ops, app)
  | _ => ret (false, operand)
  end.
(** factor_out.go:61-102 [factorOut] *)
Definition factorOutStep (f : formula) : M (option formula) :=
  r <- get (maxOccurring f) ;;
  match r with
  | None => ret None
  | Some mf =>
    let k := srt f in
    ops <- get (Operands f) ;;
    qs <- mapM (splitOperand k mf) ops ;;
    unchanged <- naryOp k (map snd (filter (fun q => negb (fst q)) qs)) ;;
    removed <- naryOp k (map snd (filter fst qs)) ;;
    fo <- naryOp (flipSort k) [mf; removed] ;;
    g <- naryOp k [unchanged; fo] ;;
    ret (Some g)
  end.
(** A rating function enters only through the comparison [rf(f) < rf(g)], which may be any
    relation (ratings are floating point numbers) and may depend on the factory. *)
Definition rating := state -> formula -> formula -> bool.
(** factor_out.go:50-59 [factorOutSimplify] *)
Definition factorOutSimplify (less : rating) (f : formula) : M formula :=
  r <- factorOutStep f ;;
  match r with
  | None => ret f
  | Some g => b <- get (fun s => less s f g) ;; ret (if b then f else g)
  end.
(** factor_out.go:18-24: the loop of [FactorOut] *)
Fixpoint factorLoop (rec : formula -> M formula) (n : nat) (f : formula) : M formula :=
  match n with
  | O => fail
  | S n' => g <- rec f ;; if feqb g f then ret g else factorLoop rec n' g
  end.
(** factor_out.go:27-48 [factorOutRec] *)
Fixpoint factorOutRec (less : rating) (n : nat) (f : formula) : M formula :=
  match n with
  | O => fail
  | S n' =>
    match srt f with
    | SOr | SAnd =>
      ops <- get (opNary f) ;;
      nops <- mapM (factorLoop (factorOutRec less n') n') ops ;;
      g <- naryOp (srt f) nops ;;
      match srt g with
      | SAnd | SOr => factorOutSimplify less g
      | _ => ret g
      end
    | SNot => op <- get (opNot f) ;; g <- factorLoop (factorOutRec less n') n' op ;; up (Not g)
    | _ => ret f
    end
  end.
(** factor_out.go:13-25 [FactorOut] *)
Definition factorOut (less : rating) (n : nat) (f : formula) : M formula := factorLoop (factorOutRec less n) n f.

(** ** negation_simplifier.go *)

(** negation_simplifier.go:95-101 [formattedLength]; the length of the printed formula is any
    function [len] of the formula. *)
Definition formattedLength (len : formula -> N) (top : bool) (f : formula) : N :=
  if negb top && fsort_eqb (srt f) SOr then len f + 2 else len f.
(** negation_simplifier.go:83-93 [getSmallestFormula] *)
Definition smallest (len : formula -> N) (top : bool) (f : formula) (l : list formula) : formula :=
  fold_left (fun cur g => if formattedLength len top g <? formattedLength len top cur then g else cur) l f.

(** negation_simplifier.go:52-72 [findSmallestPositive]; [rs] holds the pairs of results *)
Definition findSmallestPositive (len : formula -> N) (k : fsort) (rs : list (formula * formula)) (top : bool) : M formula :=
  allPositive <- naryOp k (map fst rs) ;;
  let smaller q := formattedLength len false (fst q) <? formattedLength len false (snd q) in
  p <- naryOp k (map fst (filter smaller rs)) ;;
  m <- naryOp (flipSort k) (map snd (filter (fun q => negb (smaller q)) rs)) ;;
  nm <- up (Not m) ;;
  partialNegative <- naryOp k [p; nm] ;;
  ret (smallest len top allPositive [partialNegative]).
(** negation_simplifier.go:74-81 [findSmallestNegative] *)
Definition findSmallestNegative (len : formula -> N) (k : fsort) (rs : list (formula * formula)) (sp : formula) (top : bool) : M formula :=
  negation <- up (Not sp) ;;
  flipped <- naryOp (flipSort k) (map snd rs) ;;
  ret (smallest len top negation [flipped]).
(** negation_simplifier.go:26-50 [negationMinimize]; [fail] is the panic *)
Fixpoint negationMinimize (len : formula -> N) (n : nat) (f : formula) (top : bool) : M (formula * formula) :=
  match n with
  | O => fail
  | S n' =>
    match srt f with
    | SLit => g <- up (Not f) ;; ret (f, g)
    | SOr | SAnd =>
      ops <- get (opNary f) ;;
      rs <- mapM (fun op => negationMinimize len n' op false) ops ;;
      sp <- findSmallestPositive len (srt f) rs top ;;
      sn <- findSmallestNegative len (srt f) rs sp top ;;
      ret (sp, sn)
    | _ => fail
    end
  end.
(** formula/formula.go:278-281 [IsAtomic] *)
Definition isAtomic (f : formula) : bool :=
  match srt f with SFalse | STrue | SLit | SCC | SPBC => true | _ => false end.
(** negation_simplifier.go:17-24 [MinimizeNegations] *)
Definition minimizeNegations (len : formula -> N) (n : nat) (cf : encConfig) (f : formula) : M formula :=
  nnf <- NNF n cf f ;;
  if isAtomic nnf then ret (smallest len true f [nnf])
  else r <- negationMinimize len n nnf true ;; ret (smallest len true f [nnf; fst r]).

(** ** subsumption.go *)

(** subsumption.go:127-150 [ubnode]; a forest is the list of the values of the tree map in
    ascending order of their elements. *)
Inductive ubnode := UB (element : formula) (endSet : option (list formula)) (children : list ubnode).
Definition ubElem (n : ubnode) : formula := let (e, _, _) := n in e.
Definition ubEnd (n : ubnode) : option (list formula) := let (_, x, _) := n in x.
Definition ubKids (n : ubnode) : list ubnode := let (_, _, c) := n in c.

(** subsumption.go:152-169 [addSet]; [full] is the set, [set] the elements that remain *)
Fixpoint ubAdd (full set : list formula) (forest : list ubnode) : list ubnode :=
  match set with
  | [] => forest
  | e :: r =>
    let reach n := UB e (match r with [] => Some full | _ => ubEnd n end) (ubAdd full r (ubKids n)) in
    (fix ins (l : list ubnode) : list ubnode :=
       match l with
       | [] => [reach (UB e None [])]
       | n :: l' => if fid e =? fid (ubElem n) then reach n :: l'
                    else if fid e <? fid (ubElem n) then reach (UB e None []) :: l
                    else n :: ins l'
       end) forest
  end.
(** subsumption.go:171-177, 188-220 [firstSubset], [firstSubsetRec], [getAllNodesContainingElements] *)
Fixpoint ubFirst (set : list formula) (forest : list ubnode) : option (list formula) :=
  match set with
  | [] => None
  | _ :: rest =>
    (fix go (es : list formula) : option (list formula) :=
       match es with
       | [] => None
       | e :: es' =>
         match find (fun n => fid e =? fid (ubElem n)) forest with
         | None => go es'
         | Some n =>
           match ubEnd n with
           | Some x => Some x
           | None => match ubFirst rest (ubKids n) with Some x => Some x | None => go es' end
           end
         end
       end) set
  end.
(** subsumption.go:179-186, 222-236 [allSets], [getAllEndOfPathNodesRec] *)
Fixpoint ubSets (n : ubnode) : list (list formula) :=
  match n with
  | UB _ x c => match x with Some l => [l] | None => [] end ++ flat_map ubSets c
  end.

(** subsumption.go:94-103: the tree map from sizes to lists, in ascending order of the sizes and
    within a size in order of insertion *)
Fixpoint insSize (x : list formula) (l : list (list formula)) : list (list formula) :=
  match l with
  | [] => [x]
  | y :: r => if Nat.ltb (length x) (length y) then x :: l else y :: insSize x r
  end.
Definition bySize (l : list (list formula)) : list (list formula) := fold_left (fun a x => insSize x a) l [].

(** event/event.go: the events of a subsumption; a handler is a step function on its state *)
Inductive sevent := SubsumptionStarting | SubsumptionAdded.
Definition shandler (St : Type) := sevent -> St -> bool * St.
Definition nopSub : shandler unit := fun _ h => (true, h).

(** subsumption.go:107-120: the loop over the sets; the third component says whether no event was
    cancelled.  [convertSet] sorts the elements.  An empty forest has no subset. *)
Definition ubStep {St} (hd : shandler St) (st : list ubnode * St * bool) (set : list formula) : list ubnode * St * bool :=
  let '(forest, h, ok) := st in
  match ubFirst (content set) forest with
  | Some _ => st
  | None =>
    let (b, h') := hd SubsumptionAdded h in
    (ubAdd (content set) (content set) forest, h', ok && b)
  end.
(** subsumption.go:93-125 [generateSubsumedUBTree]; [None] is a cancelation *)
Definition generateUBTree {St} (hd : shandler St) (n : nat) (f : formula) (h : St) : M (option (list ubnode) * St) :=
  ops <- get (Operands f) ;;
  sets <- mapM (literalsOf n) ops ;;
  let (b, h0) := hd SubsumptionStarting h in
  if b then
    let '(forest, h', ok) := fold_left (ubStep hd) (bySize sets) ([], h0, true) in
    ret (if ok then Some forest else None, h')
  else ret (None, h0).

(** Outcome of a subsumption *)
Inductive subResult := SubError | SubCancelled | SubOk (g : formula).
(** subsumption.go:32-47, 65-80 [CNFSubsumptionWithHandler] ([cnf] true), [DNFSubsumptionWithHandler],
    82-91 [combine] *)
Definition subsumption {St} (hd : shandler St) (cnf : bool) (n : nat) (f : formula) (h : St) : M (subResult * St) :=
  let k := if cnf then SAnd else SOr in
  b <- (if cnf then isCNF f else isDNF f) ;;
  if negb b then ret (SubError, h)
  else if match srt f with SFalse | STrue | SLit => true | _ => fsort_eqb (srt f) (flipSort k) end then ret (SubOk f, h)
  else
    r <- generateUBTree hd n f h ;;
    match fst r with
    | None => ret (SubCancelled, snd r)
    | Some forest =>
      clauses <- mapM (fun set => naryOp (flipSort k) set) (flat_map ubSets forest) ;;
      g <- naryOp k clauses ;;
      ret (SubOk g, snd r)
    end.
