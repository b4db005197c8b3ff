(** * Model of the core SAT solver (sat/core.go, sat/datastructures.go)

    Simplifications:
    - A solver literal 2 * v + s (core.go 112-144) is the pair (v, s) of variable and sign; the order of
      the integers is the lexicographic order of the pairs. -1 (LitUndef) is [None].
    - Variables, clauses and watch lists are maps. Clauses are identified by the number of their creation.
    - What only guides the search is left open: the activities, the literal block distances and the
      restart counters. Every decision based on them is taken by an [oracle], any function of
      a counter of the decisions taken so far. So every theorem about all oracles covers the values these
      heuristics compute. The order heap is a list of variables; the oracle picks the position of
      the variable removeMin returns (that heap.go keeps this set is C47).
    - The trace for unsat cores (ProofGeneration) is not recorded.
    - Loops without evident bound use a recursion depth; [Stuck] means it is exhausted. [Panic] is a
      run time panic of the Go code. *)
From Coq Require Import List Bool Arith Lia ZArith.
Import ListNotations.

Definition slit : Type := nat * bool.
(** core.go 124-126 *)
Definition neg (l : slit) : slit := (fst l, negb (snd l)).
Definition slit_eqb (l m : slit) : bool := (fst l =? fst m) && Bool.eqb (snd l) (snd m).
(** the order of 2 * v + s *)
Definition slit_leb (l m : slit) : bool := (fst l <? fst m) || ((fst l =? fst m) && (negb (snd l) || snd m)).

(** datastructures.go 11-40; [c_w] is atMostWatchers *)
Record clause := Clause { c_lits : list slit; c_atm : bool; c_w : nat; c_st : Z }.
Record sat := Sat {
  ok : bool; qhead : nat; units : list slit; clauses : list nat; learnts : list nat;
  db : nat -> clause; nextc : nat;
  wat : slit -> list (nat * option slit); wbin : slit -> list (nat * slit);
  nvars : nat; val_ : nat -> option bool; lvl : nat -> nat; rsn : nat -> option nat; pol : nat -> bool; dec : nat -> bool;
  heap : list nat; trail : list slit; tlim : list nat; seen : nat -> bool;
  model : list bool; conflict : list slit; assumps : list slit;
  tick : nat; ev : nat; stateId : Z; validStates : list Z }.
Definition upd {A} (m : nat -> A) (i : nat) (a : A) : nat -> A := fun j => if j =? i then a else m j.
Definition updl {A} (m : slit -> A) (i : slit) (a : A) : slit -> A := fun j => if slit_eqb j i then a else m j.
Definition with_ok x s := Sat x (qhead s) (units s) (clauses s) (learnts s) (db s) (nextc s) (wat s) (wbin s) (nvars s) (val_ s) (lvl s) (rsn s) (pol s) (dec s) (heap s) (trail s) (tlim s) (seen s) (model s) (conflict s) (assumps s) (tick s) (ev s) (stateId s) (validStates s).
Definition with_qhead x s := Sat (ok s) x (units s) (clauses s) (learnts s) (db s) (nextc s) (wat s) (wbin s) (nvars s) (val_ s) (lvl s) (rsn s) (pol s) (dec s) (heap s) (trail s) (tlim s) (seen s) (model s) (conflict s) (assumps s) (tick s) (ev s) (stateId s) (validStates s).
Definition with_units x s := Sat (ok s) (qhead s) x (clauses s) (learnts s) (db s) (nextc s) (wat s) (wbin s) (nvars s) (val_ s) (lvl s) (rsn s) (pol s) (dec s) (heap s) (trail s) (tlim s) (seen s) (model s) (conflict s) (assumps s) (tick s) (ev s) (stateId s) (validStates s).
Definition with_clauses x s := Sat (ok s) (qhead s) (units s) x (learnts s) (db s) (nextc s) (wat s) (wbin s) (nvars s) (val_ s) (lvl s) (rsn s) (pol s) (dec s) (heap s) (trail s) (tlim s) (seen s) (model s) (conflict s) (assumps s) (tick s) (ev s) (stateId s) (validStates s).
Definition with_learnts x s := Sat (ok s) (qhead s) (units s) (clauses s) x (db s) (nextc s) (wat s) (wbin s) (nvars s) (val_ s) (lvl s) (rsn s) (pol s) (dec s) (heap s) (trail s) (tlim s) (seen s) (model s) (conflict s) (assumps s) (tick s) (ev s) (stateId s) (validStates s).
Definition with_db x s := Sat (ok s) (qhead s) (units s) (clauses s) (learnts s) x (nextc s) (wat s) (wbin s) (nvars s) (val_ s) (lvl s) (rsn s) (pol s) (dec s) (heap s) (trail s) (tlim s) (seen s) (model s) (conflict s) (assumps s) (tick s) (ev s) (stateId s) (validStates s).
Definition with_nextc x s := Sat (ok s) (qhead s) (units s) (clauses s) (learnts s) (db s) x (wat s) (wbin s) (nvars s) (val_ s) (lvl s) (rsn s) (pol s) (dec s) (heap s) (trail s) (tlim s) (seen s) (model s) (conflict s) (assumps s) (tick s) (ev s) (stateId s) (validStates s).
Definition with_wat x s := Sat (ok s) (qhead s) (units s) (clauses s) (learnts s) (db s) (nextc s) x (wbin s) (nvars s) (val_ s) (lvl s) (rsn s) (pol s) (dec s) (heap s) (trail s) (tlim s) (seen s) (model s) (conflict s) (assumps s) (tick s) (ev s) (stateId s) (validStates s).
Definition with_wbin x s := Sat (ok s) (qhead s) (units s) (clauses s) (learnts s) (db s) (nextc s) (wat s) x (nvars s) (val_ s) (lvl s) (rsn s) (pol s) (dec s) (heap s) (trail s) (tlim s) (seen s) (model s) (conflict s) (assumps s) (tick s) (ev s) (stateId s) (validStates s).
Definition with_nvars x s := Sat (ok s) (qhead s) (units s) (clauses s) (learnts s) (db s) (nextc s) (wat s) (wbin s) x (val_ s) (lvl s) (rsn s) (pol s) (dec s) (heap s) (trail s) (tlim s) (seen s) (model s) (conflict s) (assumps s) (tick s) (ev s) (stateId s) (validStates s).
Definition with_val x s := Sat (ok s) (qhead s) (units s) (clauses s) (learnts s) (db s) (nextc s) (wat s) (wbin s) (nvars s) x (lvl s) (rsn s) (pol s) (dec s) (heap s) (trail s) (tlim s) (seen s) (model s) (conflict s) (assumps s) (tick s) (ev s) (stateId s) (validStates s).
Definition with_lvl x s := Sat (ok s) (qhead s) (units s) (clauses s) (learnts s) (db s) (nextc s) (wat s) (wbin s) (nvars s) (val_ s) x (rsn s) (pol s) (dec s) (heap s) (trail s) (tlim s) (seen s) (model s) (conflict s) (assumps s) (tick s) (ev s) (stateId s) (validStates s).
Definition with_rsn x s := Sat (ok s) (qhead s) (units s) (clauses s) (learnts s) (db s) (nextc s) (wat s) (wbin s) (nvars s) (val_ s) (lvl s) x (pol s) (dec s) (heap s) (trail s) (tlim s) (seen s) (model s) (conflict s) (assumps s) (tick s) (ev s) (stateId s) (validStates s).
Definition with_pol x s := Sat (ok s) (qhead s) (units s) (clauses s) (learnts s) (db s) (nextc s) (wat s) (wbin s) (nvars s) (val_ s) (lvl s) (rsn s) x (dec s) (heap s) (trail s) (tlim s) (seen s) (model s) (conflict s) (assumps s) (tick s) (ev s) (stateId s) (validStates s).
Definition with_dec x s := Sat (ok s) (qhead s) (units s) (clauses s) (learnts s) (db s) (nextc s) (wat s) (wbin s) (nvars s) (val_ s) (lvl s) (rsn s) (pol s) x (heap s) (trail s) (tlim s) (seen s) (model s) (conflict s) (assumps s) (tick s) (ev s) (stateId s) (validStates s).
Definition with_heap x s := Sat (ok s) (qhead s) (units s) (clauses s) (learnts s) (db s) (nextc s) (wat s) (wbin s) (nvars s) (val_ s) (lvl s) (rsn s) (pol s) (dec s) x (trail s) (tlim s) (seen s) (model s) (conflict s) (assumps s) (tick s) (ev s) (stateId s) (validStates s).
Definition with_trail x s := Sat (ok s) (qhead s) (units s) (clauses s) (learnts s) (db s) (nextc s) (wat s) (wbin s) (nvars s) (val_ s) (lvl s) (rsn s) (pol s) (dec s) (heap s) x (tlim s) (seen s) (model s) (conflict s) (assumps s) (tick s) (ev s) (stateId s) (validStates s).
Definition with_tlim x s := Sat (ok s) (qhead s) (units s) (clauses s) (learnts s) (db s) (nextc s) (wat s) (wbin s) (nvars s) (val_ s) (lvl s) (rsn s) (pol s) (dec s) (heap s) (trail s) x (seen s) (model s) (conflict s) (assumps s) (tick s) (ev s) (stateId s) (validStates s).
Definition with_seen x s := Sat (ok s) (qhead s) (units s) (clauses s) (learnts s) (db s) (nextc s) (wat s) (wbin s) (nvars s) (val_ s) (lvl s) (rsn s) (pol s) (dec s) (heap s) (trail s) (tlim s) x (model s) (conflict s) (assumps s) (tick s) (ev s) (stateId s) (validStates s).
Definition with_model x s := Sat (ok s) (qhead s) (units s) (clauses s) (learnts s) (db s) (nextc s) (wat s) (wbin s) (nvars s) (val_ s) (lvl s) (rsn s) (pol s) (dec s) (heap s) (trail s) (tlim s) (seen s) x (conflict s) (assumps s) (tick s) (ev s) (stateId s) (validStates s).
Definition with_conflict x s := Sat (ok s) (qhead s) (units s) (clauses s) (learnts s) (db s) (nextc s) (wat s) (wbin s) (nvars s) (val_ s) (lvl s) (rsn s) (pol s) (dec s) (heap s) (trail s) (tlim s) (seen s) (model s) x (assumps s) (tick s) (ev s) (stateId s) (validStates s).
Definition with_assumps x s := Sat (ok s) (qhead s) (units s) (clauses s) (learnts s) (db s) (nextc s) (wat s) (wbin s) (nvars s) (val_ s) (lvl s) (rsn s) (pol s) (dec s) (heap s) (trail s) (tlim s) (seen s) (model s) (conflict s) x (tick s) (ev s) (stateId s) (validStates s).
Definition with_tick x s := Sat (ok s) (qhead s) (units s) (clauses s) (learnts s) (db s) (nextc s) (wat s) (wbin s) (nvars s) (val_ s) (lvl s) (rsn s) (pol s) (dec s) (heap s) (trail s) (tlim s) (seen s) (model s) (conflict s) (assumps s) x (ev s) (stateId s) (validStates s).
Definition with_ev x s := Sat (ok s) (qhead s) (units s) (clauses s) (learnts s) (db s) (nextc s) (wat s) (wbin s) (nvars s) (val_ s) (lvl s) (rsn s) (pol s) (dec s) (heap s) (trail s) (tlim s) (seen s) (model s) (conflict s) (assumps s) (tick s) x (stateId s) (validStates s).
Definition with_stateId x s := Sat (ok s) (qhead s) (units s) (clauses s) (learnts s) (db s) (nextc s) (wat s) (wbin s) (nvars s) (val_ s) (lvl s) (rsn s) (pol s) (dec s) (heap s) (trail s) (tlim s) (seen s) (model s) (conflict s) (assumps s) (tick s) (ev s) x (validStates s).
Definition with_validStates x s := Sat (ok s) (qhead s) (units s) (clauses s) (learnts s) (db s) (nextc s) (wat s) (wbin s) (nvars s) (val_ s) (lvl s) (rsn s) (pol s) (dec s) (heap s) (trail s) (tlim s) (seen s) (model s) (conflict s) (assumps s) (tick s) (ev s) (stateId s) x.

Inductive res (A : Type) := Ret (a : A) (s : sat) | Panic | Stuck.
Arguments Ret {A} _ _. Arguments Panic {A}. Arguments Stuck {A}.
Definition S_ A := sat -> res A.
Definition ret {A} (a : A) : S_ A := fun s => Ret a s.
Definition bind {A B} (m : S_ A) (f : A -> S_ B) : S_ B := fun s => match m s with Ret a s' => f a s' | Panic => Panic | Stuck => Stuck end.
Definition gets {A} (f : sat -> A) : S_ A := fun s => Ret (f s) s.
Definition modify (f : sat -> sat) : S_ unit := fun s => Ret tt (f s).
Definition panic {A} : S_ A := fun _ => Panic.
Definition stuck {A} : S_ A := fun _ => Stuck.
Notation "x <-- m ;; f" := (bind m (fun x => f)) (at level 60, m at level 59, right associativity).
Notation "m ;;; f" := (bind m (fun _ => f)) (at level 60, right associativity).
Fixpoint each {A} (l : list A) (f : A -> S_ unit) : S_ unit := match l with [] => ret tt | a :: r => f a ;;; each r f end.

Inductive clauseMin := MinNone | MinBasic | MinDeep.
(** the decisions of the heuristics and of the handler (false: cancel); every call gets another number *)
Record oracle := Oracle {
  o_pick : nat -> nat;                    (* removeMin: position in the heap *)
  o_pol : nat -> bool -> bool;            (* core.go 670: the sign for a saved polarity; while a backbone is computed, cancelUntil resets the polarities *)
  o_restart : nat -> bool;                (* core.go 480-481 *)
  o_reduce : nat -> bool;                 (* core.go 486 *)
  o_sort : nat -> list nat -> list nat;   (* core.go 1272 *)
  o_del : nat -> bool;                    (* core.go 1283: lbd, canBeDel and position *)
  o_bin : nat -> bool;                    (* core.go 1084, 1116 *)
  o_conf : nat -> bool;                   (* the handler on a conflict *)
  o_hdl : nat -> bool }.                  (* the handler at start and end of a call *)

(** the value of a literal, core.go 218-223 *)
Definition val (s : sat) (l : slit) : option bool := match val_ s (fst l) with Some b => Some (xorb b (snd l)) | None => None end.
Definition isT (s : sat) (l : slit) : bool := match val s l with Some true => true | _ => false end.
Definition isF (s : sat) (l : slit) : bool := match val s l with Some false => true | _ => false end.
Definition isU (s : sat) (l : slit) : bool := match val s l with None => true | _ => false end.
(** core.go 651-653 *)
Definition dl (s : sat) : nat := length (tlim s).
(** the level of the variable of a literal *)
Definition lev (s : sat) (l : slit) : nat := lvl s (fst l).

(** core.go 102-110 UncheckedEnqueue *)
Definition enq (l : slit) (r : option nat) (s : sat) : sat :=
  with_trail (trail s ++ [l]) (with_lvl (upd (lvl s) (fst l) (dl s)) (with_rsn (upd (rsn s) (fst l) r) (with_val (upd (val_ s) (fst l) (Some (negb (snd l)))) s))).
Definition enqueue (l : slit) (r : option nat) : S_ unit := modify (enq l r).
Fixpoint inN (x : nat) (l : list nat) : bool := match l with [] => false | y :: r => (x =? y) || inN x r end.
Fixpoint inL (x : slit) (l : list slit) : bool := match l with [] => false | y :: r => slit_eqb x y || inL x r end.
(** core.go 659-663 *)
Definition insertVarOrder (x : nat) (s : sat) : sat := if negb (inN x (heap s)) && dec s x then with_heap (x :: heap s) s else s.
(** core.go 242-254 NewVar; the level -1 of a new variable is 1 here, it is not read before the variable is assigned *)
Definition newVar (sign dvar : bool) : S_ nat := fun s =>
  let v := nvars s in
  Ret v (insertVarOrder v
    (with_nvars (S v) (with_val (upd (val_ s) v None) (with_lvl (upd (lvl s) v 1) (with_rsn (upd (rsn s) v None) (with_pol (upd (pol s) v sign) (with_dec (upd (dec s) v dvar)
    (with_seen (upd (seen s) v false) (with_wat (updl (updl (wat s) (v, false) []) (v, true) []) (with_wbin (updl (updl (wbin s) (v, false) []) (v, true) []) s)))))))))).

(** core.go 716-737 attachClause *)
Definition addW (p : slit) (e : nat * option slit) (s : sat) : sat := with_wat (updl (wat s) p (wat s p ++ [e])) s.
Definition addB (p : slit) (e : nat * slit) (s : sat) : sat := with_wbin (updl (wbin s) p (wbin s p ++ [e])) s.
Definition hd0 (l : list slit) : slit := nth 0 l (0, false).
Definition hd1 (l : list slit) : slit := nth 1 l (0, false).
Definition attach (c : nat) : S_ unit := fun s =>
  let d := db s c in let ls := c_lits d in
  if c_atm d then Ret tt (fold_left (fun s l => addW l (c, None) s) (firstn (c_w d) ls) s)
  else if length ls =? 2 then Ret tt (addB (neg (hd1 ls)) (c, hd0 ls) (addB (neg (hd0 ls)) (c, hd1 ls) s))
  else Ret tt (addW (neg (hd1 ls)) (c, Some (hd0 ls)) (addW (neg (hd0 ls)) (c, Some (hd1 ls)) s)).
(** a new clause object, datastructures.go 23-40 *)
Definition newClause (d : clause) : S_ nat := fun s => Ret (nextc s) (with_nextc (S (nextc s)) (with_db (upd (db s) (nextc s) d) s)).
Definition setLits (c : nat) (ls : list slit) : S_ unit := modify (fun s => with_db (upd (db s) c (Clause ls (c_atm (db s c)) (c_w (db s c)) (c_st (db s c)))) s).
(** core.go 757-763 removeWatcher. The Go loop goes wrong if the clause is found twice; then the model panics. *)
Fixpoint occ {A} (c : nat) (l : list (nat * A)) : nat := match l with [] => 0 | (d, _) :: r => (if d =? c then 1 else 0) + occ c r end.
Definition remW {A} (c : nat) (l : list (nat * A)) : option (list (nat * A)) := if occ c l <=? 1 then Some (filter (fun e => negb (fst e =? c)) l) else None.
Definition removeWat (p : slit) (c : nat) : S_ unit := fun s => match remW c (wat s p) with Some l => Ret tt (with_wat (updl (wat s) p l) s) | None => Panic end.
Definition removeBin (p : slit) (c : nat) : S_ unit := fun s => match remW c (wbin s p) with Some l => Ret tt (with_wbin (updl (wbin s) p l) s) | None => Panic end.
(** core.go 627-639 simpleRemoveClause *)
Definition simpleRemove (c : nat) : S_ unit := fun s =>
  let d := db s c in let ls := c_lits d in
  (if c_atm d then each (firstn (c_w d) ls) (fun l => removeWat l c)
   else if length ls =? 2 then removeBin (neg (hd0 ls)) c ;;; removeBin (neg (hd1 ls)) c
   else removeWat (neg (hd0 ls)) c ;;; removeWat (neg (hd1 ls)) c) s.

(** exchanging the elements at positions [i] and [j] *)
Fixpoint setn {A} (l : list A) (i : nat) (a : A) : list A := match l, i with [], _ => [] | _ :: r, 0 => a :: r | x :: r, S i => x :: setn r i a end.
Definition swapn (l : list slit) (i j : nat) : list slit := setn (setn l i (nth j l (0, false))) j (nth i l (0, false)).

(** ** propagate, core.go 795-931 *)
Inductive newWatch := NwUndef | NwError | NwKeep | NwNew (l : slit) (ls : list slit).
(** the position of a literal that is not true among the ones that are not watched, core.go 917-924 *)
Fixpoint findNext (s : sat) (ls : list slit) (i : nat) : option nat := match ls with [] => None | l :: r => if isT s l then findNext s r (S i) else Some i end.
(** core.go 898-931 findNewWatchForAtMostClause; [q]: position, [ws]: the watched literals from [q] *)
Fixpoint findNew (s : sat) (d : clause) (p : slit) (ws : list slit) (q nf nt : nat) : newWatch :=
  match ws with
  | [] => if 1 <? nt then NwError else NwUndef
  | l :: r =>
      match val s l with
      | None => findNew s d p r (S q) nf nt
      | Some false => if c_w d - 1 <=? S nf then NwKeep else findNew s d p r (S q) (S nf) nt
      | Some true =>
          if length (c_lits d) - c_w d + 1 <? S nt then NwError else
          if slit_eqb l p then
            match findNext s (skipn (c_w d) (c_lits d)) (c_w d) with
            | Some nx => NwNew (nth nx (c_lits d) (0, false)) (swapn (c_lits d) q nx)
            | None => findNew s d p r (S q) nf (S nt)
            end
          else findNew s d p r (S q) nf (S nt)
      end
  end.
(** core.go 802-812: the binary clauses *)
Fixpoint propBin (ws : list (nat * slit)) : S_ (option nat) :=
  match ws with
  | [] => ret None
  | (c, imp) :: r => fun s => match val s imp with
      | Some false => Ret (Some c) s
      | None => (enqueue imp (Some c) ;;; propBin r) s
      | Some true => propBin r s
      end
  end.
Definition setWat (p : slit) (l : list (nat * option slit)) : S_ unit := modify (fun s => with_wat (updl (wat s) p l) s).
Definition qToEnd : S_ unit := modify (fun s => with_qhead (length (trail s)) s).
Fixpoint enqAtMost (c : nat) (p : slit) (ls : list slit) : S_ unit :=
  match ls with
  | [] => ret tt
  | l :: r => fun s => if negb (slit_eqb l p) && negb (isF s l) then (enqueue (neg l) (Some c) ;;; enqAtMost c p r) s else enqAtMost c p r s
  end.
(** core.go 870-877: the position of a literal that is not false *)
Fixpoint findW (s : sat) (ls : list slit) (i : nat) : option nat := match ls with [] => None | l :: r => if isF s l then findW s r (S i) else Some i end.
(** core.go 813-891: the other clauses watched by [p]; [kept]: the entries before jInd *)
Fixpoint propWat (p : slit) (ws kept : list (nat * option slit)) : S_ (option nat) :=
  match ws with
  | [] => ret None
  | (c, b) :: r => fun s =>
      if match b with Some b => isT s b | None => false end then propWat p r (kept ++ [(c, b)]) s else
      let d := db s c in
      if c_atm d then
        match findNew s d p (firstn (c_w d) (c_lits d)) 0 0 0 with
        | NwUndef => (enqAtMost c p (firstn (c_w d) (c_lits d)) ;;; propWat p r (kept ++ [(c, b)])) s
        | NwError => (qToEnd ;;; ret (Some c)) s
        | NwKeep => propWat p r (kept ++ [(c, b)]) s
        | NwNew l ls => (setLits c ls ;;; setWat p (kept ++ r) ;;; modify (addW l (c, None)) ;;; propWat p r kept) s
        end
      else
        let fl := neg p in
        let ls := if slit_eqb (hd0 (c_lits d)) fl then setn (setn (c_lits d) 0 (hd1 (c_lits d))) 1 fl else c_lits d in
        (setLits c ls ;;; fun s =>
         let first := hd0 ls in
         if negb match b with Some b => slit_eqb first b | None => false end && isT s first then
           (setWat p (kept ++ (c, Some first) :: r) ;;; propWat p r (kept ++ [(c, Some first)])) s
         else match findW s (skipn 2 ls) 2 with
              | Some k => (setLits c (setn (setn ls 1 (nth k ls (0, false))) k fl) ;;; setWat p (kept ++ r) ;;;
                           modify (addW (neg (nth k ls (0, false))) (c, Some first)) ;;; propWat p r kept) s
              | None => (setWat p (kept ++ (c, Some first) :: r) ;;; fun s =>
                         if isF s first then (qToEnd ;;; ret (Some c)) s
                         else (enqueue first (Some c) ;;; propWat p r (kept ++ [(c, Some first)])) s) s
              end) s
  end.
Fixpoint propagate (n : nat) : S_ (option nat) :=
  match n with
  | 0 => stuck
  | S n => fun s =>
      match nth_error (trail s) (qhead s) with
      | None => Ret None s
      | Some p => (modify (with_qhead (S (qhead s))) ;;;
                   c <-- propBin (wbin s p) ;;
                   match c with
                   | Some c => ret (Some c)
                   | None => fun s => (c <-- propWat p (wat s p) [] ;; match c with Some c => ret (Some c) | None => propagate n end) s
                   end) s
      end
  end.

(** ** Adding constraints *)
Fixpoint insertL (l : slit) (ls : list slit) : list slit := match ls with [] => [l] | m :: r => if slit_leb l m then l :: ls else m :: insertL l r end.
Fixpoint sortL (ls : list slit) : list slit := match ls with [] => [] | l :: r => insertL l (sortL r) end.
(** core.go 292-304; [None]: the clause is satisfied *)
Fixpoint simplifyNew (s : sat) (ls : list slit) (p : option slit) : option (list slit) :=
  match ls with
  | [] => Some []
  | l :: r => if isT s l || match p with Some p => slit_eqb l (neg p) | None => false end then None
              else if negb (isF s l) && negb match p with Some p => slit_eqb l p | None => false end then option_map (cons l) (simplifyNew s r (Some l))
              else simplifyNew s r p
  end.
(** core.go 260-337 AddClause *)
Definition addClause (n : nat) (ps : list slit) : S_ bool := fun s =>
  if negb (ok s) then Ret false s else
  match simplifyNew s (sortL ps) None with
  | None => Ret true s
  | Some [] => Ret false (with_ok false s)
  | Some [l] => (enqueue l None ;;; c <-- propagate n ;;
                 modify (with_ok (match c with Some _ => false | None => true end)) ;;; modify (fun s => with_units (units s ++ [l]) s) ;;; gets ok) s
  | Some ls => (c <-- newClause (Clause ls false 0 (-1)) ;; modify (fun s => with_clauses (clauses s ++ [c]) s) ;;; attach c ;;; ret true) s
  end.
(** core.go 345-362: the remaining literals and the decrease of the bound *)
Fixpoint simplifyAtMost (s : sat) (ls : list slit) (p : option slit) (acc : list slit) (k : Z) : list slit * Z :=
  match ls with
  | [] => (acc, k)
  | l :: r => if isT s l then simplifyAtMost s r p acc (k - 1)
              else if match p with Some p => slit_eqb l (neg p) | None => false end then simplifyAtMost s r (Some l) (removelast acc) (k - 1)
              else if negb (isF s l) then simplifyAtMost s r (Some l) (acc ++ [l]) k
              else simplifyAtMost s r p acc k
  end.
(** core.go 339-382 addAtMost *)
Definition addAtMost (n : nat) (ps : list slit) (rhs : Z) : S_ unit := fun s =>
  if negb (ok s) then Ret tt s else
  let (ls, k) := simplifyAtMost s (sortL ps) None [] rhs in
  if (Z.of_nat (length ls) <=? k)%Z then Ret tt s else
  if (k <? 0)%Z then Ret tt (with_ok false s) else
  if (k =? 0)%Z then
    (each ls (fun l => enqueue (neg l) None ;;; modify (fun s => with_units (units s ++ [neg l]) s)) ;;;
     c <-- propagate n ;; modify (with_ok (match c with Some _ => false | None => true end))) s
  else (c <-- newClause (Clause ls true (length ls - Z.to_nat k + 1) (-1)) ;; modify (fun s => with_clauses (clauses s ++ [c]) s) ;;; attach c) s.

(** ** Conflict analysis, core.go 933-1240 *)
(** core.go 945-956 and 985-999 for one literal [q]; the result: 1 if [q] is of the current level, and the literals of lower levels *)
Definition look (q : slit) (pc : nat) (out : list slit) : S_ (nat * list slit) := fun s =>
  if negb (seen s (fst q)) && (0 <? lev s q) then
    let s' := with_seen (upd (seen s) (fst q) true) s in
    if dl s <=? lev s q then Ret (S pc, out) s' else Ret (pc, out ++ [q]) s'
  else Ret (pc, out) s.
Fixpoint looks (qs : list slit) (pc : nat) (out : list slit) : S_ (nat * list slit) :=
  match qs with [] => ret (pc, out) | q :: r => x <-- look q pc out ;; looks r (fst x) (snd x) end.
(** core.go 958-962 and 1169-1173: the true literal of a binary clause comes first *)
Definition turn (c : nat) : S_ unit := fun s =>
  let ls := c_lits (db s c) in
  if (length ls =? 2) && isF s (hd0 ls) then setLits c [hd1 ls; hd0 ls] s else Ret tt s.
(** the literals of the conflict or reason [c], core.go 940-1001 *)
Definition antecedents (c : nat) (first : bool) : S_ (list slit) := fun s =>
  let d := db s c in
  if c_atm d then Ret (map neg (filter (isT s) (c_lits d))) s
  else if first then Ret (c_lits d) s
  else (turn c ;;; gets (fun s => skipn 1 (c_lits (db s c)))) s.
(** core.go 1004-1006: the last position up to [i] (exclusive) of a literal that was seen *)
Fixpoint lastSeen (s : sat) (i : nat) : option nat :=
  match i with 0 => None | S i => if match nth_error (trail s) i with Some l => seen s (fst l) | None => false end then Some i else lastSeen s i end.
Fixpoint analyzeLoop (n : nat) (c : nat) (first : bool) (i pc : nat) (out : list slit) : S_ (slit * list slit) :=
  match n with
  | 0 => stuck
  | S n =>
      qs <-- antecedents c first ;; x <-- looks qs pc out ;; fun s =>
      match lastSeen s i with
      | None => Panic
      | Some j =>
          let p := nth j (trail s) (0, false) in
          let s' := with_seen (upd (seen s) (fst p) false) s in
          match fst x with
          | 0 => Panic (* not reached: one literal of the current level was seen *)
          | 1 => Ret (p, snd x) s'
          | S pc => match rsn s (fst p) with Some c => analyzeLoop n c false (S j) pc (snd x) s' | None => Panic end
          end
      end
  end.
(** core.go 1145-1200 litRedundant. [abs]: the levels modulo 32, core.go 655-657; [clear]: analyzeToClear from top on *)
Definition absLevel (s : sat) (l : slit) : nat := lev s l mod 32.
Fixpoint redLits (abs : list nat) (qs stack clear : list slit) : S_ (option (list slit * list slit)) :=
  match qs with
  | [] => ret (Some (stack, clear))
  | q :: r => fun s =>
      if negb (seen s (fst q)) && (0 <? lev s q) then
        if match rsn s (fst q) with Some _ => inN (absLevel s q) abs | None => false end
        then redLits abs r (q :: stack) (clear ++ [q]) (with_seen (upd (seen s) (fst q) true) s)
        else Ret None (fold_left (fun s l => with_seen (upd (seen s) (fst l) false) s) clear s)
      else redLits abs r stack clear s
  end.
Fixpoint redLoop (n : nat) (abs : list nat) (stack clear : list slit) : S_ (option (list slit)) :=
  match stack with
  | [] => ret (Some clear)
  | p :: stack =>
      match n with
      | 0 => stuck
      | S n => fun s =>
          match rsn s (fst p) with
          | None => Panic
          | Some c => (qs <-- antecedents c false ;; x <-- redLits abs qs stack clear ;; match x with Some (st, cl) => redLoop n abs st cl | None => ret None end) s
          end
      end
  end.
(** core.go 1045-1052 *)
Fixpoint minDeep (n : nat) (abs : list nat) (out kept clear : list slit) : S_ (list slit * list slit) :=
  match out with
  | [] => ret (kept, clear)
  | q :: r => fun s =>
      match rsn s (fst q) with
      | None => minDeep n abs r (kept ++ [q]) clear s
      | Some _ => (x <-- redLoop n abs [q] [] ;; match x with Some cl => minDeep n abs r kept (clear ++ cl) | None => minDeep n abs r (kept ++ [q]) clear end) s
      end
  end.
(** core.go 1053-1076 *)
Definition minBasic (s : sat) (out : list slit) : list slit :=
  filter (fun q => match rsn s (fst q) with
                   | None => true
                   | Some c => let ls := c_lits (db s c) in existsb (fun l => negb (seen s (fst l)) && (0 <? lev s l)) (if length ls =? 2 then ls else skipn 1 ls)
                   end) out.
(** core.go 1113-1143 minimisationWithBinaryResolution: the literals whose negation follows from the first
    one by a binary clause are removed. Simplified: the remaining ones stay in order. *)
Definition minBinary (s : sat) (out : list slit) : list slit :=
  match out with
  | [] => []
  | l :: r => l :: filter (fun q => negb (existsb (fun e => (fst (snd e) =? fst q) && isT s (snd e)) (wbin s (neg l)))) r
  end.
(** core.go 1087-1098: the position from 1 on of the literal with the highest level *)
Fixpoint maxPos (s : sat) (ls : list slit) (i best : nat) (bl : nat) : nat :=
  match ls with [] => best | l :: r => if bl <? lev s l then maxPos s r (S i) i (lev s l) else maxPos s r (S i) best bl end.
Definition toSecond (s : sat) (out : list slit) : list slit * nat :=
  match out with
  | _ :: m :: r => let k := maxPos s r 2 1 (lev s m) in (swapn out 1 k, lev s (nth k out (0, false)))
  | _ => (out, 0)
  end.
Section Solver.
Variables (o : oracle) (cm : clauseMin).
Definition ask {A} (f : nat -> A) : S_ A := fun s => Ret (f (tick s)) (with_tick (S (tick s)) s).
(** core.go 1037-1111 simplifyClause; the result: the learnt clause and the level to go back to *)
Definition simplifyClause (n : nat) (out : list slit) : S_ (list slit * nat) :=
  x <-- (fun s => match cm, out with
          | MinDeep, l :: r => (y <-- minDeep n (map (absLevel s) r) r [] [] ;; ret (l :: fst y, out ++ snd y)) s
          | MinBasic, l :: r => Ret (l :: minBasic s r, out) s
          | _, _ => Ret (out, out) s
          end) ;;
  b <-- ask (o_bin o) ;; fun s =>
  let (out', bt) := toSecond s (if b then minBinary s (fst x) else fst x) in
  Ret (out', bt) (fold_left (fun s l => with_seen (upd (seen s) (fst l) false) s) (snd x) s).
Definition analyze (n : nat) (c : nat) : S_ (list slit * nat) := fun s =>
  (x <-- analyzeLoop n c true (length (trail s)) 0 [] ;; simplifyClause n (neg (fst x) :: snd x)) s.
(** core.go 1202-1240 analyzeFinal *)
Fixpoint finalLoop (m i : nat) : S_ unit :=
  match i with
  | 0 => ret tt
  | S i => fun s =>
      if i <? m then Ret tt s else
      let l := nth i (trail s) (0, false) in
      if seen s (fst l) then
        ((match rsn s (fst l) with
         | None => modify (fun s => with_conflict (conflict s ++ [neg l]) s)
         | Some c =>
             let d := db s c in
             let qs := if c_atm d then filter (isT s) (c_lits d) else if length (c_lits d) =? 2 then c_lits d else skipn 1 (c_lits d) in
             each qs (fun q s => Ret tt (if 0 <? lev s q then with_seen (upd (seen s) (fst q) true) s else s))
         end) ;;; modify (fun s => with_seen (upd (seen s) (fst l) false) s) ;;; finalLoop m i) s
      else finalLoop m i s
  end.
Definition analyzeFinal (p : slit) : S_ unit := fun s =>
  let s := with_conflict [p] s in
  match tlim s with
  | [] => Ret tt s
  | m :: _ => (modify (fun s => with_seen (upd (seen s) (fst p) true) s) ;;; finalLoop m (length (trail s)) ;;; modify (fun s => with_seen (upd (seen s) (fst p) false) s)) s
  end.
(** core.go 1242-1269 cancelUntil, not while a backbone is computed *)
Definition unassign (l : slit) (s : sat) : sat := insertVarOrder (fst l) (with_pol (upd (pol s) (fst l) (snd l)) (with_val (upd (val_ s) (fst l) None) s)).
Definition cancelUntil (level : nat) (s : sat) : sat :=
  match nth_error (tlim s) level with
  | None => s
  | Some m => let s' := fold_right unassign s (skipn m (trail s)) in with_tlim (firstn level (tlim s)) (with_trail (firstn m (trail s)) (with_qhead m s'))
  end.
(** core.go 702-704 *)
Definition locked (s : sat) (c : nat) : bool := let l := hd0 (c_lits (db s c)) in isT s l && match rsn s (fst l) with Some d => d =? c | None => false end.
(** core.go 1271-1302 reduceDB *)
Fixpoint reduce (cs kept : list nat) : S_ unit :=
  match cs with
  | [] => modify (with_learnts kept)
  | c :: r => b <-- ask (o_del o) ;; fun s =>
      if b && (2 <? length (c_lits (db s c))) && negb (locked s c) then (simpleRemove c ;;; reduce r kept) s else reduce r (kept ++ [c]) s
  end.
Definition reduceDB : S_ unit := srt <-- ask (o_sort o) ;; fun s => reduce (srt (learnts s)) [] s.
(** core.go 665-674 pickBranchLit *)
Fixpoint remove1 (x : nat) (l : list nat) : list nat := match l with [] => [] | y :: r => if x =? y then r else y :: remove1 x r end.
Fixpoint pickBranch (n : nat) : S_ (option slit) :=
  match n with
  | 0 => ret None
  | S n => i <-- ask (o_pick o) ;; fun s =>
      match heap s with
      | [] => Ret None s
      | h :: _ => let x := nth (i mod length (heap s)) (heap s) h in
          let s := with_heap (remove1 x (heap s)) s in
          match val_ s x with None => if dec s x then Ret (Some (x, o_pol o (tick s) (pol s x))) s else pickBranch n s | Some _ => pickBranch n s end
      end
  end.
Inductive status := StTrue | StFalse | StUndef.
Definition newLevel : S_ unit := modify (fun s => with_tlim (tlim s ++ [length (trail s)]) s).
(** core.go 490-515: the next assumption that is not yet true; [inl]: one is false *)
Fixpoint nextAssumption (ps : list slit) : S_ (slit + option slit) :=
  match ps with
  | [] => ret (inr None)
  | p :: r => fun s => match val s p with Some true => (newLevel ;;; nextAssumption r) s | Some false => Ret (inl p) s | None => Ret (inr (Some p)) s end
  end.
(** core.go 445-475 *)
Definition learn (n : nat) (c : nat) : S_ unit :=
  x <-- analyze n c ;; modify (cancelUntil (snd x)) ;;;
  match fst x with
  | [l] => enqueue l None ;;; modify (fun s => with_units (units s ++ [l]) s)
  | ls => fun s => (d <-- newClause (Clause ls false 0 (stateId s)) ;; modify (fun s => with_learnts (learnts s ++ [d]) s) ;;; attach d ;;; enqueue (hd0 ls) (Some d)) s
  end.
(** core.go 432-529 search; event numbers count the calls of the handler *)
Definition resume (h : nat -> bool) : S_ bool := fun s => Ret (h (ev s)) (with_ev (S (ev s)) s).
Fixpoint searchLoop (n : nat) : S_ status :=
  match n with
  | 0 => stuck
  | S m =>
      c <-- propagate n ;;
      match c with
      | Some c => b <-- resume (o_conf o) ;; if negb b then ret StUndef else fun s => match tlim s with [] => Ret StFalse s | _ => (learn n c ;;; searchLoop m) s end
      | None =>
          b <-- ask (o_restart o) ;;
          if b then modify (cancelUntil 0) ;;; ret StUndef else
          b <-- ask (o_reduce o) ;;
          (if b then fun s => match learnts s with [] => Ret tt s | _ => reduceDB s end else ret tt) ;;; fun s =>
          (a <-- nextAssumption (skipn (dl s) (assumps s)) ;;
           match a with
           | inl p => analyzeFinal (neg p) ;;; ret StFalse
           | inr (Some p) => newLevel ;;; enqueue p None ;;; searchLoop m
           | inr None => fun s => (p <-- pickBranch (S (length (heap s))) ;;
                          match p with None => ret StTrue | Some p => newLevel ;;; enqueue p None ;;; searchLoop m end) s
           end) s
      end
  end.
Definition search (n : nat) : S_ status := fun s => if ok s then searchLoop n s else Ret StFalse s.
Fixpoint searches (k n : nat) : S_ status :=
  match k with 0 => stuck | S k => r <-- search n ;; match r with StUndef => searches k n | _ => ret r end end.
(** core.go 386-418 Solve; [None]: cancelled *)
Definition solve (n : nat) : S_ (option bool) :=
  b <-- resume (o_hdl o) ;; if negb b then ret None else
  modify (with_model []) ;;; modify (with_conflict []) ;;; fun s =>
  if negb (ok s) then Ret (Some false) s else
  (r <-- searches n n ;;
   (match r with
    | StTrue => modify (fun s => with_model (map (fun v => match val_ s v with Some b => b | None => false end) (seq 0 (nvars s))) s)
    | _ => fun s => match conflict s with [] => Ret tt (with_ok false s) | _ => Ret tt s end
    end) ;;; modify (cancelUntil 0) ;;;
   b <-- resume (o_hdl o) ;; ret (if b then Some (match r with StTrue => true | _ => false end) else None)) s.
(** core.go 422-430 SolveWithAssumptions *)
Definition solveWith (n : nat) (ps : list slit) : S_ (option bool) := modify (with_assumps ps) ;;; r <-- solve n ;; modify (with_assumps []) ;;; ret r.
End Solver.

(** ** Saved states, core.go 531-625 *)
Record saved := Saved { s_id : Z; s_ok : bool; s_vars : nat; s_clauses : nat; s_units : nat }.
Definition saveState : S_ saved := fun s =>
  Ret (Saved (stateId s) (ok s) (nvars s) (length (clauses s)) (length (units s))) (with_stateId (stateId s + 1)%Z (with_validStates (validStates s ++ [stateId s]) s)).
(** core.go 611-625 *)
Definition completeBacktrack (s : sat) : sat :=
  with_qhead 0 (with_tlim [] (with_trail [] (fold_left (fun s v => let s := with_rsn (upd (rsn s) v None) (with_val (upd (val_ s) v None) s) in insertVarOrder v s) (seq 0 (nvars s)) s))).
Fixpoint lastIndex (x : Z) (l : list Z) (i : nat) : option nat :=
  match l with [] => None | y :: r => match lastIndex x r (S i) with Some j => Some j | None => if (x =? y)%Z then Some i else None end end.
Fixpoint dropLearnts (id : Z) (cs kept : list nat) : S_ unit :=
  match cs with
  | [] => modify (with_learnts kept)
  | c :: r => fun s => if (c_st (db s c) <=? id)%Z then dropLearnts id r (kept ++ [c]) s else (simpleRemove c ;;; dropLearnts id r kept) s
  end.
Fixpoint reUnits (n : nat) (us : list slit) : S_ unit :=
  match us with
  | [] => ret tt
  | u :: r => fun s => if ok s then (enqueue u None ;;; c <-- propagate n ;; modify (with_ok (match c with Some _ => false | None => true end)) ;;; reUnits n r) s else Ret tt s
  end.
(** the result: whether the state is valid *)
Definition loadState (n : nat) (x : saved) : S_ bool := fun s =>
  match lastIndex (s_id x) (validStates s) 0 with
  | None => Ret false s
  | Some i =>
      (modify (fun s => with_validStates (firstn (S i) (validStates s)) s) ;;; modify completeBacktrack ;;; modify (with_ok (s_ok x)) ;;; fun s =>
       let nv := min (s_vars x) (nvars s) in
       let nc := min (s_clauses x) (length (clauses s)) in
       (modify (with_heap (filter (fun v => v <? nv) (heap s))) ;;; modify (with_nvars nv) ;;;
        each (rev (skipn nc (clauses s))) simpleRemove ;;; modify (with_clauses (firstn nc (clauses s))) ;;;
        dropLearnts (s_id x) (learnts s) [] ;;; modify (fun s => with_units (firstn (s_units x) (units s)) s) ;;;
        (fun s => reUnits n (units s) s) ;;; ret true) s) s
  end.
(** core.go 141-199 initialize *)
Definition newSolver : sat :=
  Sat true 0 [] [] [] (fun _ => Clause [] false 0 (-1)) 0 (fun _ => []) (fun _ => []) 0 (fun _ => None) (fun _ => 0) (fun _ => None) (fun _ => false) (fun _ => false) [] [] [] (fun _ => false) [] [] [] 0 0 0%Z [].
