(** * Model of the MaxSAT solver (maxsat/)

    The algorithms LinearSU, LinearUS, MSU3 and WBO with the cardinality encoding (totalizer), the encoding of
    weighted sums (sequential weight counter), saved states and the cached result of Solver.

    Simplifications:
    - The solver holds clauses over numbered variables; the translation of formulas to clauses
      (solver.go 248-270) and the maps between variables and numbers are not part of this model.
    - The SAT solver is the model Sat.v: a new solver has no variables; NewVar(true, true).
    - Integers are unbounded natural numbers. [None] is the weight math.MaxInt of computeCostModel, which means all weights.
    - Every SAT call gets its own [oracle] for the heuristics, and every question to the handler its own
      answer; both are indexed by the number of calls and questions so far.
    - The counters nbCores, nbSymmetryClauses and sumSizeCores are not read by these algorithms and left out. *)
From Coq Require Import List Bool Arith Lia.
From Verif Require Import SatSpec Sat MaxSpec.
Import ListNotations.

(** datastructures.go 12-17; [sc_asm] is assumptionVar, [None]: LitUndef *)
Record softc := Soft { sc_lits : list slit; sc_relax : list slit; sc_weight : nat; sc_asm : option slit }.
(** config.go 28-33 *)
Inductive incr := IncNone | IncIterative.
(** config.go 36-42 *)
Inductive wstrat := WeightNone | WeightNormal | WeightDiversify.
(** enc_totalizer.go 5-18: [t_cells] are totalizerIterativeLeft, Right, Output and Rhs, which always have the same length;
    the blocking literal is always LitUndef and ilits is only read by OLL *)
Record tot := Tot { t_cells : list ((list slit * list slit * list slit) * nat); t_outs : list slit; t_ins : list slit; t_inc : incr; t_rhs : nat; t_join : bool; t_has : bool }.
(** enc_swc.go 10-20, the fields that the non-incremental encoding uses *)
Record swc := Swc { w_outs : list slit; w_rhs : nat; w_has : bool }.
(** enc_totalizer.go 20-35, enc_swc.go 22-34, encoder.go 13-24 *)
Definition newTot : tot := Tot [] [] [] IncNone 0 false false.
Definition newSwc : swc := Swc [] 0 false.
(** algorithm.go 40-64 maxSatAlgorithm with the encoder and the SAT solver of the algorithms *)
Record mx := Mx {
  nbVars : nat; hard : list (list slit); soft : list softc; ubCost : nat; lbCost : nat; nbSat : nat; curW : nat; nbInit : nat; mdl : list bool; weighted : bool; tot_ : tot; swc_ : swc; slv : sat; time : nat; stId : nat; valid : list nat; orderW : list nat }.
Definition set_nbVars (v : nat) (x : mx) : mx := Mx v (hard x) (soft x) (ubCost x) (lbCost x) (nbSat x) (curW x) (nbInit x) (mdl x) (weighted x) (tot_ x) (swc_ x) (slv x) (time x) (stId x) (valid x) (orderW x).
Definition set_hard (v : list (list slit)) (x : mx) : mx := Mx (nbVars x) v (soft x) (ubCost x) (lbCost x) (nbSat x) (curW x) (nbInit x) (mdl x) (weighted x) (tot_ x) (swc_ x) (slv x) (time x) (stId x) (valid x) (orderW x).
Definition set_soft (v : list softc) (x : mx) : mx := Mx (nbVars x) (hard x) v (ubCost x) (lbCost x) (nbSat x) (curW x) (nbInit x) (mdl x) (weighted x) (tot_ x) (swc_ x) (slv x) (time x) (stId x) (valid x) (orderW x).
Definition set_ubCost (v : nat) (x : mx) : mx := Mx (nbVars x) (hard x) (soft x) v (lbCost x) (nbSat x) (curW x) (nbInit x) (mdl x) (weighted x) (tot_ x) (swc_ x) (slv x) (time x) (stId x) (valid x) (orderW x).
Definition set_lbCost (v : nat) (x : mx) : mx := Mx (nbVars x) (hard x) (soft x) (ubCost x) v (nbSat x) (curW x) (nbInit x) (mdl x) (weighted x) (tot_ x) (swc_ x) (slv x) (time x) (stId x) (valid x) (orderW x).
Definition set_nbSat (v : nat) (x : mx) : mx := Mx (nbVars x) (hard x) (soft x) (ubCost x) (lbCost x) v (curW x) (nbInit x) (mdl x) (weighted x) (tot_ x) (swc_ x) (slv x) (time x) (stId x) (valid x) (orderW x).
Definition set_curW (v : nat) (x : mx) : mx := Mx (nbVars x) (hard x) (soft x) (ubCost x) (lbCost x) (nbSat x) v (nbInit x) (mdl x) (weighted x) (tot_ x) (swc_ x) (slv x) (time x) (stId x) (valid x) (orderW x).
Definition set_nbInit (v : nat) (x : mx) : mx := Mx (nbVars x) (hard x) (soft x) (ubCost x) (lbCost x) (nbSat x) (curW x) v (mdl x) (weighted x) (tot_ x) (swc_ x) (slv x) (time x) (stId x) (valid x) (orderW x).
Definition set_mdl (v : list bool) (x : mx) : mx := Mx (nbVars x) (hard x) (soft x) (ubCost x) (lbCost x) (nbSat x) (curW x) (nbInit x) v (weighted x) (tot_ x) (swc_ x) (slv x) (time x) (stId x) (valid x) (orderW x).
Definition set_weighted (v : bool) (x : mx) : mx := Mx (nbVars x) (hard x) (soft x) (ubCost x) (lbCost x) (nbSat x) (curW x) (nbInit x) (mdl x) v (tot_ x) (swc_ x) (slv x) (time x) (stId x) (valid x) (orderW x).
Definition set_tot_ (v : tot) (x : mx) : mx := Mx (nbVars x) (hard x) (soft x) (ubCost x) (lbCost x) (nbSat x) (curW x) (nbInit x) (mdl x) (weighted x) v (swc_ x) (slv x) (time x) (stId x) (valid x) (orderW x).
Definition set_swc_ (v : swc) (x : mx) : mx := Mx (nbVars x) (hard x) (soft x) (ubCost x) (lbCost x) (nbSat x) (curW x) (nbInit x) (mdl x) (weighted x) (tot_ x) v (slv x) (time x) (stId x) (valid x) (orderW x).
Definition set_slv (v : sat) (x : mx) : mx := Mx (nbVars x) (hard x) (soft x) (ubCost x) (lbCost x) (nbSat x) (curW x) (nbInit x) (mdl x) (weighted x) (tot_ x) (swc_ x) v (time x) (stId x) (valid x) (orderW x).
Definition set_time (v : nat) (x : mx) : mx := Mx (nbVars x) (hard x) (soft x) (ubCost x) (lbCost x) (nbSat x) (curW x) (nbInit x) (mdl x) (weighted x) (tot_ x) (swc_ x) (slv x) v (stId x) (valid x) (orderW x).
Definition set_stId (v : nat) (x : mx) : mx := Mx (nbVars x) (hard x) (soft x) (ubCost x) (lbCost x) (nbSat x) (curW x) (nbInit x) (mdl x) (weighted x) (tot_ x) (swc_ x) (slv x) (time x) v (valid x) (orderW x).
Definition set_valid (v : list nat) (x : mx) : mx := Mx (nbVars x) (hard x) (soft x) (ubCost x) (lbCost x) (nbSat x) (curW x) (nbInit x) (mdl x) (weighted x) (tot_ x) (swc_ x) (slv x) (time x) (stId x) v (orderW x).
Definition set_orderW (v : list nat) (x : mx) : mx := Mx (nbVars x) (hard x) (soft x) (ubCost x) (lbCost x) (nbSat x) (curW x) (nbInit x) (mdl x) (weighted x) (tot_ x) (swc_ x) (slv x) (time x) (stId x) (valid x) v.

Inductive mres (A : Type) := MRet (a : A) (x : mx) | MPanic | MStuck.
Arguments MRet {A} _ _. Arguments MPanic {A}. Arguments MStuck {A}.
Definition M A := mx -> mres A.
Definition mret {A} (a : A) : M A := fun x => MRet a x.
Definition mbind {A B} (m : M A) (f : A -> M B) : M B := fun x => match m x with MRet a y => f a y | MPanic => MPanic | MStuck => MStuck end.
Definition mget {A} (f : mx -> A) : M A := fun x => MRet (f x) x.
Definition mdo (f : mx -> mx) : M unit := fun x => MRet tt (f x).
Definition mpanic {A} : M A := fun _ => MPanic.
Definition mstuck {A} : M A := fun _ => MStuck.
(** an operation of the SAT solver *)
Definition onSat {A} (m : S_ A) : M A := fun x => match m (slv x) with Ret a s => MRet a (set_slv s x) | Panic => MPanic | Stuck => MStuck end.
Notation "x <<- m ;; f" := (mbind m (fun x => f)) (at level 60, m at level 59, right associativity).
Notation "m ;;> f" := (mbind m (fun _ => f)) (at level 60, right associativity).
Fixpoint meach {A} (l : list A) (f : A -> M unit) : M unit := match l with [] => mret tt | a :: r => f a ;;> meach r f end.
Fixpoint mrep {A} (k : nat) (m : M A) : M (list A) := match k with 0 => mret [] | S k => a <<- m ;; r <<- mrep k m ;; mret (a :: r) end.

(** algorithm.go 66-81 *)
Definition newMax : mx := Mx 0 [] [] 0 0 0 1 0 [] false newTot newSwc newSolver 0 0 [] [].
(** algorithm.go 127-131, 145-147 newVar, newLiteral(false) *)
Definition newLiteral : M slit := fun x => MRet (nbVars x, false) (set_nbVars (S (nbVars x)) x).
(** algorithm.go 133-139, 149-159, 286-294 addClauseVec; the second with the weight, which is at least 1 *)
Definition addHard (ls : list slit) (x : mx) : mx := set_hard (hard x ++ [ls]) x.
Definition addSoft (w : nat) (ls : list slit) (x : mx) : mx :=
  set_soft (soft x ++ [Soft ls [] w None]) (set_ubCost (ubCost x + w) (set_curW (if curW x <? w then w else curW x) x)).

Section Search.
Variable os : nat -> oracle. (* the heuristics of the SAT solver *)
Variable hd : nat -> bool.   (* the handler *)
Variable n : nat.            (* recursion depth of the SAT solver *)

(** algorithm.go 83-95: a new variable, a clause, a call *)
Definition newSatVar : M slit := v <<- onSat (newVar true true) ;; mret (v, false).
Definition addC (ls : list slit) : M unit := onSat (addClause n ls) ;;> mret tt.
Definition call (ps : list slit) : M (option bool) := fun x => onSat (solveWith (os (time x)) MinDeep n ps) (set_time (S (time x)) x).
(** algorithm.go 237-251: a question to the handler *)
Definition goOn : M bool := fun x => MRet (hd (time x)) (set_time (S (time x)) x).

(** algorithm.go 165-192 computeCostModel, saveModel *)
Definition unsatIn (m : list bool) (w : option nat) (c : softc) : bool :=
  if match w with Some w => negb (sc_weight c =? w) | None => false end then match sc_lits c with [] => true | _ => false end
  else negb (existsb (fun l : slit => if snd l then negb (nth (fst l) m false) else nth (fst l) m false) (sc_lits c)).
Definition costModel (w : option nat) (x : mx) : nat := list_sum (map sc_weight (filter (unsatIn (model (slv x)) w) (soft x))).
Definition saveModel : M unit := mdo (fun x => set_mdl (firstn (nbInit x) (model (slv x))) x).
(** algorithm.go 388-390 *)
Definition optimum : M verdict := mget (fun x : mx => Optimum (ubCost x) (mdl x)).

(** ** enc_totalizer.go *)
(** the literals of the clause for [i] inputs of the left and [j] of the right side *)
Definition cellClause (lf rt out : list slit) (i j : nat) : list slit :=
  match i, j with
  | 0, 0 => []
  | 0, S j => [neg (nth j rt (0, false)); nth j out (0, false)]
  | S i, 0 => [neg (nth i lf (0, false)); nth i out (0, false)]
  | S i, S j => [neg (nth i lf (0, false)); neg (nth j rt (0, false)); nth (i + j + 1) out (0, false)]
  end.
(** the pairs of the two loops with [lo] < [i + j] <= [hi] *)
Definition cellPairs (lf rt : list slit) (lo hi : nat) : list (nat * nat) :=
  filter (fun p => (lo <? fst p + snd p) && (fst p + snd p <=? hi)) (list_prod (seq 0 (S (length lf))) (seq 0 (S (length rt)))).
Definition cellClauses (lf rt out : list slit) (lo hi : nat) : list (list slit) :=
  map (fun p => cellClause lf rt out (fst p) (snd p)) (cellPairs lf rt lo hi).
Definition getT {A} (f : tot -> A) : M A := mget (fun x => f (tot_ x)).
Definition setT (f : tot -> tot) : M unit := mdo (fun x => set_tot_ (f (tot_ x)) x).
Definition t_set_cells v (t : tot) := Tot v (t_outs t) (t_ins t) (t_inc t) (t_rhs t) (t_join t) (t_has t).
Definition t_set_outs v (t : tot) := Tot (t_cells t) v (t_ins t) (t_inc t) (t_rhs t) (t_join t) (t_has t).
Definition t_set_ins v (t : tot) := Tot (t_cells t) (t_outs t) v (t_inc t) (t_rhs t) (t_join t) (t_has t).
Definition t_set_inc v (t : tot) := Tot (t_cells t) (t_outs t) (t_ins t) v (t_rhs t) (t_join t) (t_has t).
Definition t_set_rhs v (t : tot) := Tot (t_cells t) (t_outs t) (t_ins t) (t_inc t) v (t_join t) (t_has t).
Definition t_set_join v (t : tot) := Tot (t_cells t) (t_outs t) (t_ins t) (t_inc t) (t_rhs t) v (t_has t).
Definition t_set_has v (t : tot) := Tot (t_cells t) (t_outs t) (t_ins t) (t_inc t) (t_rhs t) (t_join t) v.
(** 147-171 adder *)
Definition adder (lf rt out : list slit) : M unit :=
  inc <<- getT t_inc ;; rhs <<- getT t_rhs ;;
  (match inc with IncIterative => setT (fun t => t_set_cells (t_cells t ++ [((lf, rt, out), rhs)]) t) | IncNone => mret tt end) ;;>
  meach (cellClauses lf rt out 0 (rhs + 1)) addC.
(** 113-145 toCnf: one half of the outputs, new variables unless it is a single input, which is the last one left *)
Definition half (k : nat) : M (list slit) :=
  if k =? 1 then
    ins <<- getT t_ins ;;
    match rev ins with [] => mpanic | l :: r => setT (t_set_ins (rev r)) ;;> mret [l] end
  else mrep k newSatVar.
Fixpoint toCnf (d : nat) (out : list slit) : M unit :=
  match d with
  | 0 => mstuck
  | S d =>
      let split := Nat.div2 (length out) in
      lf <<- half split ;; rt <<- half (length out - split) ;;
      adder lf rt out ;;>
      (if 1 <? length lf then toCnf d lf else mret tt) ;;>
      (if 1 <? length rt then toCnf d rt else mret tt)
  end.
(** 81-111 build; the depth of the recursion is at most the number of literals *)
Definition build (ls : list slit) (rhs : nat) : M unit :=
  setT (t_set_outs []) ;;> setT (t_set_has false) ;;>
  if rhs =? 0 then meach ls (fun l => addC [neg l]) else
  inc <<- getT t_inc ;; j <<- getT t_join ;;
  if (rhs =? length ls) && (match inc with IncNone => true | IncIterative => negb j end) then mret tt else
  out <<- mrep (length ls) newSatVar ;;
  setT (t_set_outs out) ;;> setT (t_set_ins ls) ;;> setT (t_set_rhs rhs) ;;>
  toCnf (S (length ls)) out ;;> setT (t_set_join true) ;;> setT (t_set_has true).
(** 173-198 incremental *)
Fixpoint incCells (cells : list ((list slit * list slit * list slit) * nat)) (rhs : nat) : M unit :=
  match cells with
  | [] => mret tt
  | ((lf, rt, out), r) :: rest => meach (cellClauses lf rt out (r + 1) (rhs + 1)) addC ;;> incCells rest rhs
  end.
Definition incremental (rhs : nat) : M unit :=
  cells <<- getT t_cells ;; incCells cells rhs ;;> setT (fun t => t_set_cells (map (fun c => (fst c, rhs)) (t_cells t)) t).
(** 66-79 updateWithAssumptions; the result are the new assumptions, [None]: unchanged. The length of the slice of the
    assumptions must not be negative. *)
Definition updateWith (rhs : nat) : M (option (list slit)) :=
  inc <<- getT t_inc ;;
  match inc with
  | IncNone => out <<- getT t_outs ;; meach (skipn rhs out) (fun l => addC [neg l]) ;;> mret None
  | IncIterative => incremental rhs ;;> out <<- getT t_outs ;; if length out <? rhs then mpanic else mret (Some (map neg (skipn rhs out)))
  end.
(** 41-64 join *)
Definition join (ls : list slit) (rhs : nat) : M unit :=
  lf <<- getT t_outs ;; old <<- getT t_rhs ;;
  (match ls with [] => mpanic | [l] => setT (t_set_outs [l]) | _ => build ls (min rhs (length ls)) end) ;;>
  rt <<- getT t_outs ;;
  out <<- mrep (length lf + length rt) newSatVar ;;
  setT (t_set_outs out) ;;> setT (t_set_rhs rhs) ;;> adder lf rt out ;;> setT (t_set_rhs old).

(** ** encoder.go 30-50, 73-87 *)
Definition encodeCardinality (ls : list slit) (rhs : nat) : M unit :=
  build ls rhs ;;> h <<- getT t_has ;; if h : bool then updateWith rhs ;;> mret tt else mret tt.
Definition updateCardinality (rhs : nat) : M unit := updateWith rhs ;;> mret tt.
Definition incUpdateCardinality (jn : list slit) (rhs : nat) : M (option (list slit)) :=
  (match jn with [] => mret tt | _ => join jn rhs end) ;;> updateWith rhs.

(** ** enc_swc.go 43-105 encode, 209-214 update *)
Definition aux (base rhs i j : nat) : slit := (base + (i - 1) * rhs + (j - 1), false).
Definition swcRow (base rhs : nat) (i : nat) (l : slit) (wi : nat) : list (list slit) :=
  flat_map (fun j =>
    (if 2 <=? i then [[neg (aux base rhs (i - 1) j); aux base rhs i j]] else []) ++
    (if j <=? wi then [[neg l; aux base rhs i j]] else []) ++
    (if (2 <=? i) && (j + wi <=? rhs) then [[neg (aux base rhs (i - 1) j); neg l; aux base rhs i (j + wi)]] else [])) (seq 1 rhs) ++
  (if 2 <=? i then [[neg (aux base rhs (i - 1) (rhs + 1 - wi)); neg l]] else []).
Fixpoint swcRows (base rhs i : nat) (lc : list (slit * nat)) : list (list slit) :=
  match lc with [] => [] | (l, wi) :: r => swcRow base rhs i l wi ++ swcRows base rhs (S i) r end.
(** the result are the literals and coefficients that remain *)
Definition encodePB (lc : list (slit * nat)) (rhs : nat) : M (list (slit * nat)) :=
  mdo (fun x => set_swc_ (Swc (w_outs (swc_ x)) (w_rhs (swc_ x)) false) x) ;;>
  meach (filter (fun p => negb (snd p <=? rhs)) lc) (fun p => addC [neg (fst p)]) ;;>
  let rest := filter (fun p => snd p <=? rhs) lc in
  match rest with
  | [] => mret rest
  | [(l, _)] => addC [neg l] ;;> mret rest
  | _ =>
      base <<- mget (fun x => nvars (slv x)) ;;
      mrep (length rest * rhs) newSatVar ;;>
      meach (swcRows base rhs 1 rest) addC ;;>
      mdo (fun x => set_swc_ (Swc (w_outs (swc_ x) ++ map (fun j => aux base rhs (length rest) j) (seq 1 rhs)) rhs true) x) ;;>
      mret rest
  end.
Definition updatePB (rhs : nat) : M unit :=
  w <<- mget swc_ ;; meach (firstn (w_rhs w - rhs) (skipn rhs (w_outs w))) (fun l => addC [neg l]) ;;> mdo (fun x => set_swc_ (Swc (w_outs w) rhs (w_has w)) x).

(** ** alg_linear_su.go *)
(** 210-217 initRelaxation (sets no assumption variable), alg_linear_us.go 155-162 and alg_msu3.go 206-213 (set it) *)
Fixpoint initRelax (asm : bool) (cs : list softc) : M (list softc * list slit) :=
  match cs with
  | [] => mret ([], [])
  | c :: r => l <<- newLiteral ;; p <<- initRelax asm r ;; mret (Soft (sc_lits c) (sc_relax c ++ [l]) (sc_weight c) (if asm then Some l else sc_asm c) :: fst p, l :: snd p)
  end.
Definition initRelaxation (asm : bool) : M (list slit) :=
  cs <<- mget soft ;; p <<- initRelax asm cs ;; mdo (set_soft (fst p)) ;;> mret (snd p).
(** 172-192 rebuildSolver, alg_linear_us.go 138-153, alg_msu3.go 187-204 (these with minimal weight 0) *)
Definition rebuildSolver (minWeight : nat) : M unit :=
  mdo (set_slv newSolver) ;;> nv <<- mget nbVars ;; mrep nv newSatVar ;;>
  h <<- mget hard ;; meach h addC ;;>
  cs <<- mget soft ;; meach (filter (fun c => minWeight <=? sc_weight c) cs) (fun c => addC (sc_lits c ++ sc_relax c)).
(** 130-170 normalSearch, from the loop on *)
Fixpoint suLoop (k : nat) (obj : list slit) (oc : list (slit * nat)) : M verdict :=
  match k with
  | 0 => mstuck
  | S k =>
      r <<- call [] ;;
      match r with
      | None => mret Cancelled
      | Some true =>
          mdo (fun x => set_nbSat (S (nbSat x)) x) ;;>
          c <<- mget (costModel None) ;; saveModel ;;>
          if c =? 0 then mdo (set_ubCost c) ;;> optimum else
          w <<- mget weighted ;;
          oc <<- (if w : bool then
                    h <<- mget (fun x => w_has (swc_ x)) ;; if negb h then encodePB oc (c - 1) else updatePB (c - 1) ;;> mret oc
                  else
                    h <<- getT t_has ;; (if negb h then encodeCardinality obj (c - 1) else updateCardinality (c - 1)) ;;> mret oc) ;;
          mdo (set_ubCost c) ;;> b <<- goOn ;; if negb b then mret Cancelled else suLoop k obj oc
      | Some false => s <<- mget nbSat ;; if s =? 0 then mret Infeasible else optimum
      end
  end.
Definition suNormal (k : nat) : M verdict :=
  obj <<- initRelaxation false ;; cs <<- mget soft ;; rebuildSolver 1 ;;> suLoop k obj (combine obj (map sc_weight cs)).
(** 38-57 search, with BMO switched off or for a problem that is not BMO *)
Definition suSearch (k : nat) : M verdict :=
  mdo (set_tot_ newTot) ;;> mdo (set_swc_ newSwc) ;;> mdo (fun x => set_nbInit (nbVars x) x) ;;>
  mdo (fun x => if curW x =? 1 then set_weighted false x else x) ;;> suNormal k.

(** algorithm.go 194-231 isBmo(true): the different weights in descending order; that the map has no entry for a weight of an
    earlier search, which is a panic, does not occur since the weights of the earlier search are dropped or its soft clauses still there *)
Fixpoint insertD (w : nat) (l : list nat) : list nat := match l with [] => [w] | y :: r => if y <=? w then w :: l else y :: insertD w r end.
Definition sortD (l : list nat) : list nat := fold_right insertD [] l.
Definition nbWeight (cs : list softc) (w : nat) : nat := length (filter (fun c => sc_weight c =? w) cs).
Fixpoint bmoCheck (cs : list softc) (ws : list nat) (total : nat) : bool :=
  match ws with [] => true | w :: r => let total := total - w * nbWeight cs w in if w <? total then false else bmoCheck cs r total end.
Definition isBmo : M bool :=
  cs <<- mget soft ;; old <<- mget orderW ;;
  let ws := sortD (old ++ nodup Nat.eq_dec (map sc_weight cs)) in
  mdo (set_orderW ws) ;;> mret (bmoCheck cs ws (list_sum (map (fun w => w * nbWeight cs w) ws))).
(** 194-208 rebuildBMO; the result is the objective function *)
Definition relax0 (c : softc) : slit := nth 0 (sc_relax c) (0, false).
Definition rebuildBMO (fns : list (list slit * nat)) (w : nat) : M (list slit) :=
  rebuildSolver w ;;> cs <<- mget soft ;; meach fns (fun p => encodeCardinality (fst p) (snd p)) ;;>
  mret (map relax0 (filter (fun c => sc_weight c =? w) cs)).
(** 59-128 bmoSearch, from the loop on: [w] is currentWeight, [ws] are the weights after it, [mn] is minWeight; an index out of range is a panic *)
Fixpoint bmoLoop (k : nat) (mn w : nat) (ws : list nat) (obj : list slit) (fns : list (list slit * nat)) (localCost : nat) : M verdict :=
  match k with
  | 0 => mstuck
  | S k =>
      r <<- call [] ;;
      match r with
      | None => mret Cancelled
      | Some true =>
          mdo (fun x => set_nbSat (S (nbSat x)) x) ;;>
          c <<- mget (costModel (Some w)) ;;
          b <<- (if w =? mn then saveModel ;;> mdo (fun x => set_ubCost (c + lbCost x) x) ;;> (if 0 <? c then goOn else mret true) else mret true) ;;
          if negb b then mret Cancelled else
          if c =? 0 then
            if w =? mn then optimum else
            match ws with [] => mpanic | w' :: ws' => let fns := fns ++ [(obj, 0)] in obj <<- rebuildBMO fns w' ;; bmoLoop k mn w' ws' obj fns 0 end
          else
            (if localCost =? 0 then encodeCardinality obj (c / w - 1) else updateCardinality (c / w - 1)) ;;> bmoLoop k mn w ws obj fns c
      | Some false =>
          if w =? mn then s <<- mget nbSat ;; if s =? 0 then mret Infeasible else optimum else
          mdo (fun x => set_lbCost (lbCost x + localCost) x) ;;>
          match ws with
          | [] => mpanic
          | w' :: ws' =>
              b <<- goOn ;; if negb b then mret Cancelled else
              let fns := fns ++ [(obj, localCost / w)] in obj <<- rebuildBMO fns w' ;; bmoLoop k mn w' ws' obj fns 0
          end
      end
  end.
Definition bmoSearch (k : nat) : M verdict :=
  initRelaxation false ;;> ws <<- mget orderW ;;
  match ws with [] => mpanic | w :: ws' => obj <<- rebuildBMO [] w ;; mdo (set_ubCost 0) ;;> bmoLoop k (last ws 0) w ws' obj [] 0 end.
(** 38-57 search with BMO switched on *)
Definition suBmo (k : nat) : M verdict :=
  mdo (set_tot_ newTot) ;;> mdo (set_swc_ newSwc) ;;> mdo (fun x => set_nbInit (nbVars x) x) ;;>
  c <<- mget curW ;;
  b <<- (if c =? 1 then mdo (set_weighted false) ;;> mret false else isBmo) ;;
  w <<- mget weighted ;; if w && b then bmoSearch k else suNormal k.

(** ** alg_linear_us.go *)
(** 48-87 none, from the loop on *)
Fixpoint usNoneLoop (k : nat) (obj : list slit) : M verdict :=
  match k with
  | 0 => mstuck
  | S k =>
      r <<- call [] ;;
      match r with
      | None => mret Cancelled
      | Some true =>
          mdo (fun x => set_nbSat (S (nbSat x)) x) ;;>
          c <<- mget (costModel None) ;; saveModel ;;> mdo (set_ubCost c) ;;>
          s <<- mget nbSat ;;
          if s =? 1 then b <<- goOn ;; if negb b then mret Cancelled else encodeCardinality obj 0 ;;> usNoneLoop k obj
          else optimum
      | Some false =>
          mdo (fun x => set_lbCost (S (lbCost x)) x) ;;>
          s <<- mget nbSat ;; if s =? 0 then mret Infeasible else
          e <<- mget (fun x => lbCost x =? ubCost x) ;; if e : bool then optimum else
          b <<- goOn ;; if negb b then mret Cancelled else
          rebuildSolver 0 ;;> lb <<- mget lbCost ;; encodeCardinality obj lb ;;> usNoneLoop k obj
      end
  end.
(** 89-136 iterative, from the loop on *)
Fixpoint usIterLoop (k : nat) (obj assumptions : list slit) : M verdict :=
  match k with
  | 0 => mstuck
  | S k =>
      r <<- call assumptions ;;
      match r with
      | None => mret Cancelled
      | Some true =>
          mdo (fun x => set_nbSat (S (nbSat x)) x) ;;>
          c <<- mget (costModel None) ;; saveModel ;;> mdo (set_ubCost c) ;;>
          s <<- mget nbSat ;;
          if s =? 1 then b <<- goOn ;; if negb b then mret Cancelled else usIterLoop k obj (assumptions ++ map neg obj)
          else optimum
      | Some false =>
          mdo (fun x => set_lbCost (S (lbCost x)) x) ;;>
          s <<- mget nbSat ;; if s =? 0 then mret Infeasible else
          e <<- mget (fun x => lbCost x =? ubCost x) ;; if e : bool then optimum else
          b <<- goOn ;; if negb b then mret Cancelled else
          lb <<- mget lbCost ;; h <<- getT t_has ;;
          (if negb h then build obj lb else mret tt) ;;>
          a <<- incUpdateCardinality [] lb ;; usIterLoop k obj (match a with Some a => a | None => assumptions end)
      end
  end.
(** 31-46 search *)
Definition usSearch (inc : incr) (k : nat) : M verdict :=
  mdo (set_tot_ newTot) ;;> mdo (fun x => set_nbInit (nbVars x) x) ;;>
  obj <<- initRelaxation true ;; rebuildSolver 0 ;;> setT (t_set_inc inc) ;;>
  match inc with IncNone => usNoneLoop k obj | IncIterative => usIterLoop k obj [] end.

(** ** alg_msu3.go *)
(** coreMapping: the soft clauses with the assumption variable; the last one counts *)
Fixpoint coreIndex (l : slit) (cs : list softc) (i : nat) : option nat :=
  match cs with
  | [] => None
  | c :: r => match coreIndex l r (S i) with Some j => Some j | None => match sc_asm c with Some m => if slit_eqb l m then Some i else None | None => None end end
  end.
Definition mark (i : nat) (act : list bool) : list bool := firstn i act ++ (if i <? length act then true :: skipn (S i) act else []).
Definition asm0 (c : softc) : slit := match sc_asm c with Some l => l | None => (0, false) end.
(** the relaxation variables of the active soft clauses, and the negated assumption variables of the others *)
Definition activeObj (act : list bool) (cs : list softc) : list slit := map (fun p => relax0 (snd p)) (filter fst (combine act cs)).
Definition passiveAsm (act : list bool) (cs : list softc) : list slit := map (fun p => neg (asm0 (snd p))) (filter (fun p => negb (fst p)) (combine act cs)).
(** 48-106 none, from the loop on; a literal that is not in the map counts as the first soft clause *)
Fixpoint msNoneLoop (k : nat) (obj assumptions : list slit) (act : list bool) : M verdict :=
  match k with
  | 0 => mstuck
  | S k =>
      r <<- call assumptions ;;
      match r with
      | None => mret Cancelled
      | Some true =>
          mdo (fun x => set_nbSat (S (nbSat x)) x) ;;>
          c <<- mget (costModel None) ;; saveModel ;;> mdo (set_ubCost c) ;;>
          s <<- mget nbSat ;;
          if s =? 1 then b <<- goOn ;; if negb b then mret Cancelled else msNoneLoop k obj (assumptions ++ map neg obj) act
          else optimum
      | Some false =>
          mdo (fun x => set_lbCost (S (lbCost x)) x) ;;>
          s <<- mget nbSat ;; if s =? 0 then mret Infeasible else
          e <<- mget (fun x => lbCost x =? ubCost x) ;; if e : bool then optimum else
          b <<- goOn ;; if negb b then mret Cancelled else
          conf <<- mget (fun x => conflict (slv x)) ;; cs <<- mget soft ;;
          let act := fold_left (fun act l => mark (match coreIndex l cs 0 with Some i => i | None => 0 end) act) conf act in
          rebuildSolver 0 ;;> lb <<- mget lbCost ;; encodeCardinality (activeObj act cs) lb ;;> msNoneLoop k obj (passiveAsm act cs) act
      end
  end.
(** 108-185 iterative, from the loop on *)
Fixpoint msIterLoop (k : nat) (obj assumptions : list slit) (act : list bool) : M verdict :=
  match k with
  | 0 => mstuck
  | S k =>
      r <<- call assumptions ;;
      match r with
      | None => mret Cancelled
      | Some true =>
          mdo (fun x => set_nbSat (S (nbSat x)) x) ;;>
          c <<- mget (costModel None) ;; saveModel ;;> mdo (set_ubCost c) ;;>
          s <<- mget nbSat ;;
          if s =? 1 then b <<- goOn ;; if negb b then mret Cancelled else msIterLoop k obj (assumptions ++ map neg obj) act
          else optimum
      | Some false =>
          mdo (fun x => set_lbCost (S (lbCost x)) x) ;;>
          s <<- mget nbSat ;; if s =? 0 then mret Infeasible else
          e <<- mget (fun x => lbCost x =? ubCost x) ;; if e : bool then optimum else
          conf <<- mget (fun x => conflict (slv x)) ;; cs <<- mget soft ;;
          if match conf with [] => true | _ => false end then mret Infeasible else
          b <<- goOn ;; if negb b then mret Cancelled else
          let hits := flat_map (fun l => match coreIndex l cs 0 with Some i => [i] | None => [] end) conf in
          let act := fold_left (fun act i => mark i act) hits act in
          let jn := map (fun i => match nth_error cs i with Some c => relax0 c | None => (0, false) end) hits in
          let cur := activeObj act cs in
          lb <<- mget lbCost ;; h <<- getT t_has ;;
          a <<- (if negb h then if negb (lb =? length cur) then build cur lb ;;> incUpdateCardinality [] lb else mret None
                 else incUpdateCardinality jn lb) ;;
          msIterLoop k obj (passiveAsm act cs ++ match a with Some a => a | None => [] end) act
      end
  end.
(** 31-46 search *)
Definition msSearch (inc : incr) (k : nat) : M verdict :=
  mdo (set_tot_ newTot) ;;> mdo (fun x => set_nbInit (nbVars x) x) ;;>
  obj <<- initRelaxation true ;; rebuildSolver 0 ;;> setT (t_set_inc inc) ;;> ns <<- mget (fun x => length (soft x)) ;;
  match inc with IncNone => msNoneLoop k obj [] (repeat false ns) | IncIterative => msIterLoop k obj [] (repeat false ns) end.
End Search.

(** ** alg_wbo.go, with the weight strategy WeightNone, as in the default configuration, with and without symmetry breaking
    - The limit of symmetry breaking clauses is that of the default configuration, math.MaxInt, and never reached.
    - [softMapping] and [relaxationMapping] always have the same lengths; they are one list of lists of pairs.
    - [coreMapping] is read off the assumption variables of the soft clauses; a literal without entry counts as the first soft clause.
    - The fields of the search that only the loop reads are arguments of the loop. *)
(** what the loop keeps: nbCores, assumptions, the two mappings, indexSoftCore and duplicatedSymmetryClauses *)
Record wst := Wst { wb_cores : nat; wb_asm : list slit; wb_map : list (list (nat * slit)); wb_idx : list nat; wb_dup : list (nat * nat) }.

Fixpoint updAt {A} (i : nat) (f : A -> A) (l : list A) : list A :=
  match l, i with [], _ => [] | a :: r, 0 => f a :: r | a :: r, S i => a :: updAt i f r end.
(** 171-238 symmetryBreaking. [sy_in] and [sy_cur] are coreIntersection and coreIntersectionCurrent, [sy_list] is coreList *)
Record sym := Sym { sy_in : list (list slit); sy_cur : list (list slit); sy_list : list nat; sy_dup : list (nat * nat); sy_out : list (list slit) }.
Definition symPair (a b : slit) : nat * nat := if fst b <? fst a then (fst b, fst a) else (fst a, fst b).
Definition pair_eqb (p q : nat * nat) : bool := (fst p =? fst q) && (snd p =? snd q).
(** one pair of the inner loops *)
Definition symAdd (y : sym) (a b : slit) : sym :=
  if existsb (pair_eqb (symPair a b)) (sy_dup y) then y
  else Sym (sy_in y) (sy_cur y) (sy_list y) (symPair a b :: sy_dup y) (sy_out y ++ [[neg a; neg b]]).
Definition symCore (y : sym) (core : nat) : sym :=
  let xs := nth core (sy_in y) [] in let cs := nth core (sy_cur y) [] in
  fold_left (fun y n => fold_left (fun y j => symAdd y (nth n xs (0, false)) (nth j cs (0, false))) (seq (S n) (length cs - S n)) y) (seq 0 (length xs)) y.
(** one soft clause of indexSoftCore *)
Definition symSoft (m : list (list (nat * slit))) (y : sym) (p : nat) : sym :=
  let e := nth p m [] in let old := removelast e in let cur := snd (last e (0, (0, false))) in
  let y := fold_left (fun y (cl : nat * slit) =>
    let lst := match nth (fst cl) (sy_in y) [] with [] => sy_list y ++ [fst cl] | _ => sy_list y end in
    Sym (updAt (fst cl) (fun l => l ++ [snd cl]) (sy_in y)) (sy_cur y) lst (sy_dup y) (sy_out y)) old y in
  let y := fold_left (fun y (cl : nat * slit) => Sym (sy_in y) (updAt (fst cl) (fun l => l ++ [cur]) (sy_cur y)) (sy_list y) (sy_dup y) (sy_out y)) old y in
  fold_left symCore (sy_list y) y.
Definition symBreak (w : wst) : sym :=
  fold_left (symSoft (wb_map w)) (wb_idx w) (Sym (repeat [] (wb_cores w)) (repeat [] (wb_cores w)) [] (wb_dup w) []).

Section Wbo.
Variable os : nat -> oracle.
Variable hd : nat -> bool.
Variable n : nat.
Variable symm : bool. (* symmetryStrategy *)

(** 128-137 rebuildHardSolver *)
Definition rebuildHard : M unit := mdo (set_slv newSolver) ;;> nv <<- mget nbVars ;; mrep nv newSatVar ;;> h <<- mget hard ;; meach h (addC n).
Definition lastLit (o : option slit) : list slit := match o with Some l => [l] | None => [] end.
(** 148-169 rebuildSolver and, for the soft clauses of weight [mw] and more, 425-450 rebuildWeightSolver ([mw] is 0 in rebuildSolver):
    the clauses of symmetryBreaking go to the hard clauses after these were added to the new SAT solver *)
Definition rebuildWbo (mw : nat) (w : wst) : M wst :=
  rebuildHard ;;>
  let y := if symm then symBreak w else Sym [] [] [] (wb_dup w) [] in
  mdo (fun x => set_hard (hard x ++ sy_out y) x) ;;>
  cs <<- mget soft ;; meach (filter (fun c => mw <=? sc_weight c) cs) (fun c => addC n (sc_lits c ++ sc_relax c ++ lastLit (sc_asm c))) ;;>
  mret (Wst (wb_cores w) (wb_asm w) (wb_map w) (if symm then [] else wb_idx w) (sy_dup y)).
(** 139-146 initAssumptions *)
Fixpoint initAsm (cs : list softc) : M (list softc * list slit) :=
  match cs with
  | [] => mret ([], [])
  | c :: r => l <<- newLiteral ;; p <<- initAsm r ;; mret (Soft (sc_lits c) (sc_relax c) (sc_weight c) (Some l) :: fst p, neg l :: snd p)
  end.
(** 240-252 computeCostCore; [None]: the conflict is empty, the cost math.MaxInt *)
Definition costCore (conf : list slit) (x : mx) : option nat :=
  if weighted x then
    match map (fun l => sc_weight (nth (match coreIndex l (soft x) 0 with Some i => i | None => 0 end) (soft x) (Soft [] [] 0 None))) conf with
    | [] => None | w :: ws => Some (fold_left Nat.min ws w) end
  else Some 1.
(** 288-302 symmetryLog *)
Definition symLog (p : nat) (rl : slit) (w : wst) : wst :=
  if symm then
    let m := updAt p (fun e => e ++ [(wb_cores w, rl)]) (wb_map w ++ repeat [] (S p - length (wb_map w))) in
    Wst (wb_cores w) (wb_asm w) m (if 1 <? length (nth p m []) then wb_idx w ++ [p] else wb_idx w) (wb_dup w)
  else w.
(** 254-286 relaxCore, the loop; the result are the new relaxation variables *)
Fixpoint relaxCore (conf : list slit) (wc : nat) (w : wst) : M (list slit * wst) :=
  match conf with
  | [] => mret ([], w)
  | l :: r =>
      cs <<- mget soft ;; let i := match coreIndex l cs 0 with Some i => i | None => 0 end in
      match nth_error cs i with
      | None => mpanic
      | Some c =>
          if sc_weight c =? wc then
            p <<- newLiteral ;; mdo (set_soft (updAt i (fun c => Soft (sc_lits c) (sc_relax c ++ [p]) (sc_weight c) (sc_asm c)) cs)) ;;>
            q <<- relaxCore r wc (symLog i p w) ;; mret (p :: fst q, snd q)
          else
            p <<- newLiteral ;; a <<- newLiteral ;;
            mdo (set_soft (updAt i (fun c => Soft (sc_lits c) (sc_relax c) (sc_weight c - wc) (sc_asm c)) cs ++ [Soft (sc_lits c) (sc_relax c ++ [p]) wc (Some a)])) ;;>
            q <<- relaxCore r wc (symLog (length cs) p (Wst (wb_cores w) (wb_asm w ++ [neg a]) (wb_map w) (wb_idx w) (wb_dup w))) ;; mret (p :: fst q, snd q)
      end
  end.
(** 304-329 encodeEO: exactly one; [pre] is the auxiliary variable before, [None] for the first literal *)
Fixpoint eoClauses (pre : option slit) (ls aux : list slit) : list (list slit) :=
  match ls, aux with
  | [], _ => []
  | l :: _, [] => match pre with Some b => [[l; b]; [neg l; neg b]] | None => [[l]] end
  | l :: ls, a :: aux =>
      (match pre with
       | None => [[l; neg a]; [neg l; a]]
       | Some b => [[neg b; a]; [l; neg a; b]; [neg l; a]; [neg l; neg b]]
       end) ++ eoClauses (Some a) ls aux
  end.
Definition encodeEO (ls : list slit) : M unit :=
  match ls with
  | [] => mpanic
  | _ => aux <<- mrep (length ls - 1) newLiteral ;; mdo (fun x => set_hard (hard x ++ eoClauses None ls aux) x)
  end.
(** 76-108 normalSearch, from the loop on *)
Fixpoint wboLoop (k : nat) (w : wst) : M verdict :=
  match k with
  | 0 => mstuck
  | S k =>
      r <<- call os n (wb_asm w) ;;
      match r with
      | None => mret Cancelled
      | Some false =>
          conf <<- mget (fun x => conflict (slv x)) ;; c <<- mget (costCore conf) ;;
          match c with
          | None => b <<- goOn hd ;; if negb b then mret Cancelled else mpanic
          | Some c =>
              mdo (fun x => set_lbCost (lbCost x + c) x) ;;>
              e <<- mget (fun x => lbCost x =? ubCost x) ;; if e : bool then optimum else
              b <<- goOn hd ;; if negb b then mret Cancelled else
              q <<- relaxCore conf c (Wst (S (wb_cores w)) (wb_asm w) (wb_map w) (wb_idx w) (wb_dup w)) ;;
              encodeEO (fst q) ;;> w <<- rebuildWbo 0 (snd q) ;; wboLoop k w
          end
      | Some true =>
          mdo (fun x => set_nbSat (S (nbSat x)) x) ;;>
          c <<- mget (costModel None) ;; mdo (set_ubCost c) ;;> saveModel ;;> optimum
      end
  end.
(** 388-396 findNextWeight *)
Definition nextWeight (cs : list softc) (w : nat) : nat := fold_left (fun nw c => if (nw <? sc_weight c) && (sc_weight c <? w) then sc_weight c else nw) cs 1.
(** 398-423 findNextWeightDiversity; the quotient of floats is compared with 5/4 as integers *)
Fixpoint divWeight (k sat : nat) (cs : list softc) (nw : nat) (fnd : bool) : option nat :=
  match k with
  | 0 => None
  | S k =>
      let nw := if (1 <? sat) || fnd then nextWeight cs nw else nw in
      let big := filter (fun c => nw <=? sc_weight c) cs in
      if (5 * length (nodup Nat.eq_dec (map sc_weight big)) <? 4 * length big) || (length big =? length cs) then Some nw
      else divWeight k sat cs nw (fnd || (sat =? 1))
  end.
(** 379-386 updateCurrentWeight; the result is the new current weight *)
Definition updateWeight (ws : wstrat) : M nat :=
  cs <<- mget soft ;; cw <<- mget curW ;; s <<- mget nbSat ;;
  match (match ws with WeightNone => Some cw | WeightNormal => Some (nextWeight cs cw) | WeightDiversify => divWeight n s cs cw false end) with
  | None => mstuck
  | Some nw => mdo (set_curW nw) ;;> mret nw
  end.
(** 329-377 weightSearch, from the loop on; [mw] is currentWeight and nbCurrentSoft is the number of soft clauses of weight [mw] and more,
    as both only change together with the SAT solver *)
Fixpoint weightLoop (ws : wstrat) (k mw : nat) (w : wst) : M verdict :=
  match k with
  | 0 => mstuck
  | S k =>
      r <<- call os n (wb_asm w) ;;
      match r with
      | None => mret Cancelled
      | Some false =>
          conf <<- mget (fun x => conflict (slv x)) ;; c <<- mget (costCore conf) ;;
          match c with
          | None => b <<- goOn hd ;; if negb b then mret Cancelled else mpanic
          | Some c =>
              mdo (fun x => set_lbCost (lbCost x + c) x) ;;>
              b <<- goOn hd ;; if negb b then mret Cancelled else
              q <<- relaxCore conf c (Wst (S (wb_cores w)) (wb_asm w) (wb_map w) (wb_idx w) (wb_dup w)) ;;
              encodeEO (fst q) ;;> w <<- rebuildWbo mw (snd q) ;; weightLoop ws k mw w
          end
      | Some true =>
          mdo (fun x => set_nbSat (S (nbSat x)) x) ;;> cs <<- mget soft ;;
          if length (filter (fun c => mw <=? sc_weight c) cs) =? length cs then
            b <<- mget (fun x => lbCost x <? ubCost x) ;;
            (if b : bool then mdo (fun x => set_ubCost (lbCost x) x) ;;> saveModel else mret tt) ;;> optimum
          else
            nw <<- updateWeight ws ;; c <<- mget (costModel None) ;;
            b <<- mget (fun x => c <? ubCost x) ;; (if b : bool then mdo (set_ubCost c) ;;> saveModel else mret tt) ;;>
            e <<- mget (fun x => lbCost x =? ubCost x) ;; if e : bool then optimum else
            b <<- goOn hd ;; if negb b then mret Cancelled else
            w <<- rebuildWbo nw w ;; weightLoop ws k nw w
      end
  end.
(** 44-69 search, 76-83, 110-126 and 329-339: the first call is on the hard clauses only; if these have no solution, the result has Satisfiable = false.
    A search on an unweighted problem also resets weightStrategy of later searches to WeightNone (line 55); here it is fixed. *)
Definition wboSearch (ws : wstrat) (k : nat) : M verdict :=
  mdo (fun x => set_nbInit (nbVars x) x) ;;> mdo (fun x => if curW x =? 1 then set_weighted false x else x) ;;>
  rebuildHard ;;> r <<- call os n [] ;;
  match r with
  | None => mret Cancelled
  | Some false => mret Infeasible
  | Some true =>
      mdo (fun x => set_nbSat (S (nbSat x)) x) ;;> c <<- mget (costModel None) ;; mdo (set_ubCost c) ;;> saveModel ;;>
      cs <<- mget soft ;; p <<- initAsm cs ;; mdo (set_soft (fst p)) ;;> wt <<- mget weighted ;;
      let w0 := Wst 0 (snd p) (if symm then repeat [] (length cs) else []) [] [] in
      match ws, wt with
      | WeightNone, _ | _, false => w <<- rebuildWbo 0 w0 ;; wboLoop k w
      | _, true => mw <<- updateWeight ws ;; w <<- rebuildWbo mw w0 ;; weightLoop ws k mw w
      end
  end.
End Wbo.

(** ** Saved states, algorithm.go 310-365 *)
Record mstate := MState { ms_id : nat; ms_vars : nat; ms_hard : nat; ms_soft : nat; ms_ub : nat; ms_curW : nat; ms_weights : list nat }.
Definition msave : M mstate := fun x =>
  MRet (MState (stId x) (nbVars x) (length (hard x)) (length (soft x)) (ubCost x) (curW x) (map sc_weight (soft x)))
    (set_stId (S (stId x)) (set_valid (valid x ++ [stId x]) x)).
Fixpoint lastPos (v : nat) (l : list nat) (i : nat) : option nat :=
  match l with [] => None | y :: r => match lastPos v r (S i) with Some j => Some j | None => if v =? y then Some i else None end end.
(** [false]: the state is not valid; a missing weight is an index out of range *)
Definition mload (st : mstate) : M bool := fun x =>
  match lastPos (ms_id st) (valid x) 0 with
  | None => MRet false x
  | Some i =>
      let cs := firstn (ms_soft st) (soft x) in
      if length (ms_weights st) <? length cs then MPanic else
      MRet true (Mx (ms_vars st) (firstn (ms_hard st) (hard x)) (map (fun p => Soft (sc_lits (fst p)) [] (snd p) None) (combine cs (ms_weights st)))
        (ms_ub st) 0 0 (ms_curW st) (nbInit x) [] (weighted x) (tot_ x) (swc_ x) (slv x) (time x) (stId x) (firstn (S i) (valid x)) [])
  end.
(** algorithm.go 97-113 innerSearch *)
Definition innerSearch (hd : nat -> bool) (search : M verdict) : M verdict :=
  b <<- goOn hd ;; if negb b then mret Cancelled else
  st <<- msave ;; r <<- search ;;
  b <<- goOn hd ;; if negb b then mret Cancelled else
  mload st ;;> mret r.

(** ** Solver, solver.go 47-56 *)
(** config.go 49-56 with the algorithm: [LinearBMO] is LinearSU with the field BMO set, as in the default configuration *)
Inductive algo := LinearSU | LinearBMO | LinearUS (i : incr) | MSU3 (i : incr) | WBO (symm : bool) (ws : wstrat).
Definition runAlgo (os : nat -> oracle) (hd : nat -> bool) (n : nat) (a : algo) : M verdict :=
  match a with
  | LinearSU => innerSearch hd (suSearch os hd n n)
  | LinearBMO => innerSearch hd (suBmo os hd n n)
  | LinearUS i => w <<- mget weighted ;; if w : bool then mpanic else innerSearch hd (usSearch os hd n i n)
  | MSU3 i => w <<- mget weighted ;; if w : bool then mpanic else innerSearch hd (msSearch os hd n i n)
  | WBO symm ws => innerSearch hd (wboSearch os hd n symm ws n)
  end.
(** the algorithm state and the cached result, if the field ok is set *)
Record msolver := MSolver { m_alg : mx; m_result : option verdict }.
Definition newSolverM : msolver := MSolver newMax None.
(** 169-187, 248-270, for clauses; 245: a formula drops the result even if it has no clauses; a variable is created while a clause is added, which has dropped the result before *)
Definition sDrop (s : msolver) : msolver := MSolver (m_alg s) None.
Definition sVar (s : msolver) : msolver := MSolver (set_nbVars (S (nbVars (m_alg s))) (m_alg s)) None.
Definition sHard (ls : list slit) (s : msolver) : msolver := MSolver (addHard ls (m_alg s)) None.
Definition sSoft (w : nat) (ls : list slit) (s : msolver) : msolver := MSolver (addSoft w ls (m_alg s)) None.
(** 223-236 SolveWithHandler *)
Definition sSolve (os : nat -> oracle) (hd : nat -> bool) (n : nat) (a : algo) (s : msolver) : option (verdict * msolver) :=
  match m_result s with
  | Some r => Some (r, s)
  | None =>
      match runAlgo os hd n a (set_weighted (negb (curW (m_alg s) =? 1)) (m_alg s)) with
      | MRet r x => Some (r, MSolver x (Some r))
      | _ => None
      end
  end.
(** 190-192 SaveState, 201-211 LoadState *)
Definition sSave (s : msolver) : option (mstate * msolver) := match msave (m_alg s) with MRet st x => Some (st, MSolver x (m_result s)) | _ => None end.
Definition sLoad (st : mstate) (s : msolver) : option (bool * msolver) := match mload st (m_alg s) with MRet b x => Some (b, MSolver x None) | _ => None end.
