(** * Model of the backbone computation (sat/backbone.go) on the core solver of Sat.v

    Simplifications: the fields backboneCandidates, backboneAssumptions and backboneMap of the solver
    (initBackboneDS, 113-120) are the record [bbs], passed from call to call. A nil slice of a backbone is
    an empty list. The variable names are numbers, name2idx is a function. *)
From Coq Require Import List Bool Arith ZArith.
From Verif Require Import Sat.
Import ListNotations.

(** backbone.go 12-16 *)
Inductive bbSort := BBPos | BBNeg | BBBoth.
(** backbone.go 22-27 *)
Record backbone := BB { bb_sat : bool; bb_pos : list nat; bb_neg : list nat; bb_opt : list nat }.
(** backbone.go 275-285 *)
Definition isBothOrPositive (b : bbSort) : bool := match b with BBNeg => false | _ => true end.
Definition isBothOrNegative (b : bbSort) : bool := match b with BBPos => false | _ => true end.
Definition isBoth (b : bbSort) : bool := match b with BBBoth => true | _ => false end.

(** m.model[v]; in range for every variable of the solver after a satisfiable call *)
Definition mval (s : sat) (v : nat) : bool := nth v (model s) false.
(** backbone.go 221-223 *)
Definition isUpZeroLit (s : sat) (v : nat) : bool := lvl s v =? 0.
(** backbone.go 252-264: the loop over an at-most constraint; [k] cardinality, [cnt] countPos *)
Fixpoint unitAtMost (s : sat) (l : slit) (k cnt : nat) (ls : list slit) : bool :=
  match ls with
  | [] => false
  | x :: r => if negb (fst l =? fst x) && mval s (fst x) then (if S cnt =? k then true else unitAtMost s l k (S cnt) r) else unitAtMost s l k cnt r
  end.
(** backbone.go 242-264 isUnit; datastructures.go 66-68 cardinality *)
Definition isUnit (s : sat) (l : slit) (c : nat) : bool :=
  let d := db s c in
  if c_atm d then unitAtMost s l (length (c_lits d) - c_w d + 1) 0 (c_lits d)
  else forallb (fun x => negb (negb (slit_eqb l x) && negb (Bool.eqb (mval s (fst x)) (snd x)))) (c_lits d).
(** backbone.go 225-240 *)
Definition isRotatable (s : sat) (l : slit) : bool :=
  match rsn s (fst l) with
  | Some _ => false
  | None => negb (existsb (fun e => isUnit s l (fst e)) (wat s (neg l))) && negb (existsb (fun e => isUnit s l (fst e)) (wbin s (neg l)))
  end.

Record bbs := Bbs { b_cands : list slit; b_assm : list slit; b_map : nat -> option bool }.
(** backbone.go 266-273 *)
Definition addBackboneLiteral (l : slit) (b : bbs) : bbs := Bbs (b_cands b) (b_assm b ++ [l]) (upd (b_map b) (fst l) (Some (negb (snd l)))).
(** backbone.go 142-157; MkLit(v, !m.model[v]) is the literal that the model satisfies *)
Definition initialCandidate (sort : bbSort) (s : sat) (b : bbs) (v : nat) : bbs :=
  let l := (v, negb (mval s v)) in
  if isUpZeroLit s v then addBackboneLiteral l b
  else if (isBothOrNegative sort && negb (mval s v)) || (isBothOrPositive sort && mval s v) then
         if isRotatable s l then b else Bbs (b_cands b ++ [l]) (b_assm b) (b_map b)
       else b.
Definition createInitialCandidates (vars : list nat) (sort : bbSort) (s : sat) (b : bbs) : bbs := fold_left (initialCandidate sort s) vars b.
(** backbone.go 287-294 removeFromSlice *)
Fixpoint removeLit (l : slit) (ls : list slit) : list slit := match ls with [] => [] | x :: r => if slit_eqb x l then r else x :: removeLit l r end.
Definition removeCand (l : slit) (b : bbs) : bbs := Bbs (removeLit l (b_cands b)) (b_assm b) (b_map b).
(** backbone.go 159-173 *)
Definition refineOne (s : sat) (b : bbs) (l : slit) : bbs :=
  if isUpZeroLit s (fst l) then addBackboneLiteral l (removeCand l b)
  else if Bool.eqb (mval s (fst l)) (snd l) then removeCand l b
  else if isRotatable s l then removeCand l b else b.
Definition refineUpperBound (s : sat) (b : bbs) : bbs := fold_left (refineOne s) (b_cands b) b.

Section Compute.
Variables (o : oracle) (cm : clauseMin) (n : nat).
(** backbone.go 126-139: the loop of computeBackboneInternal, with solveWithLit (175-180); [None]: cancelled.
    Every round takes a candidate away, so the number of candidates bounds the rounds. *)
Fixpoint bbLoop (k : nat) (b : bbs) : S_ (option bbs) :=
  match rev (b_cands b) with
  | [] => ret (Some b)
  | l :: r =>
      match k with
      | 0 => stuck
      | S k =>
          let b := Bbs (rev r) (b_assm b) (b_map b) in
          x <-- solveWith o cm n (b_assm b ++ [neg l]) ;;
          match x with
          | None => ret None
          | Some true => fun s => bbLoop k (refineUpperBound s b) s
          | Some false => bbLoop k (addBackboneLiteral l b)
          end
      end
  end.
(** backbone.go 122-140 *)
Definition computeInternal (vars : list nat) (sort : bbSort) : S_ (option bbs) := fun s =>
  let b := createInitialCandidates vars sort s (Bbs [] [] (fun _ => None)) in bbLoop (length (b_cands b)) b s.
(** backbone.go 101-111 *)
Definition relevant (idx : nat -> option nat) (vars : list nat) : list nat := flat_map (fun x => match idx x with Some v => [v] | None => [] end) vars.
(** backbone.go 182-219 buildBackbone; [phase] is the entry of the map of backbone literals *)
Definition phase (idx : nat -> option nat) (b : bbs) (x : nat) : option bool := match idx x with Some v => b_map b v | None => None end.
Definition buildBackbone (idx : nat -> option nat) (vars : list nat) (sort : bbSort) (b : bbs) : backbone :=
  let p := phase idx b in
  BB true (if isBothOrPositive sort then filter (fun x => match p x with Some true => true | _ => false end) vars else [])
          (if isBothOrNegative sort then filter (fun x => match p x with Some false => true | _ => false end) vars else [])
          (if isBoth sort then filter (fun x => match p x with None => true | _ => false end) vars else []).
(** backbone.go 64-99 ComputeBackboneWithHandler; [None]: cancelled *)
Definition computeBackbone (idx : nat -> option nat) (vars : list nat) (sort : bbSort) : S_ (option backbone) :=
  go <-- resume (o_hdl o) ;; if negb go then ret None else
  x <-- saveState ;;
  r <-- solve o cm n ;;
  bb <-- match r with
         | None => ret None
         | Some false => ret (Some (BB false [] [] []))
         | Some true => b <-- computeInternal (relevant idx vars) sort ;; ret (match b with Some b => Some (buildBackbone idx vars sort b) | None => None end)
         end ;;
  ok <-- loadState n x ;; if ok then ret bb else panic.
End Compute.

(** backbone.go 31-51: CompleteBackbone, the literals of ToFormula; a literal is a variable with a sign *)
Definition completeBackbone (b : backbone) : list (nat * bool) := if bb_sat b then map (fun v => (v, false)) (bb_pos b) ++ map (fun v => (v, true)) (bb_neg b) else [].
