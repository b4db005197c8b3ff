(** * Model of a solver that records proofs, and of the unsat core of a call:
      the parts of sat/core.go and sat/call.go under ProofGeneration, sat/unsat_core.go

    Simplifications:
    - A proposition is a number, its identity; [None] is nil.  What it means is left to the theorems.
    - A client adds clauses over variables of the core solver, each with its proposition.
    - The records of a clause and the lines of the proof hold literals of the core solver instead of numbers with a sign.
    - The formula of a clause is represented by its sorted literals without duplicates, [None] for Verum.
    - The propositions of a core are not sorted (f.PropComparator). *)
From Coq Require Import List Bool Arith ZArith.
From Verif Require Import Sat Drup.
Import ListNotations.

(** proofs.go:10-13 proofInformation: a clause with its proposition *)
Definition info : Type := list slit * option nat.
(** core.go:50-60: the solver with pgOriginalClauses, pgProof (a line: deleted or not, the literals; the line 0 is the
    empty clause) and assumptionProps *)
Record tsat := Tsat { t_s : sat; t_orig : list info; t_proof : list (bool * list slit); t_props : list nat }.
Inductive tres (A : Type) := TRet (a : A) (t : tsat) | TPanic | TStuck.
Arguments TRet {A} _ _. Arguments TPanic {A}. Arguments TStuck {A}.
Definition T (A : Type) : Type := tsat -> tres A.
Definition tret {A} (a : A) : T A := fun t => TRet a t.
Definition tpanic {A} : T A := fun _ => TPanic.
Definition tstuck {A} : T A := fun _ => TStuck.
Definition tbind {A B} (m : T A) (k : A -> T B) : T B := fun t => match m t with TRet a u => k a u | TPanic => TPanic | TStuck => TStuck end.
Definition lift {A} (m : S_ A) : T A := fun t =>
  match m (t_s t) with Ret a s => TRet a (Tsat s (t_orig t) (t_proof t) (t_props t)) | Panic => TPanic | Stuck => TStuck end.
Definition tget {A} (g : tsat -> A) : T A := fun t => TRet (g t) t.
Definition record (i : info) : T unit := fun t => TRet tt (Tsat (t_s t) (t_orig t ++ [i]) (t_proof t) (t_props t)).
Definition line (p : bool * list slit) : T unit := fun t => TRet tt (Tsat (t_s t) (t_orig t) (t_proof t ++ [p]) (t_props t)).
Definition setProps (ps : list nat) : T unit := fun t => TRet tt (Tsat (t_s t) (t_orig t) (t_proof t) ps).
Notation "a <=| m ;; k" := (tbind m (fun a => k)) (at level 61, m at next level, right associativity).

(** core.go:260-337 AddClause: a clause with a literal that has a value is replaced by the rest in the proof *)
Definition tAddClause (n : nat) (ps : list slit) (p : option nat) : T bool :=
  _ <=| record (ps, p) ;;
  s <=| tget t_s ;;
  if negb (ok s) then tret false else
  match simplifyNew s (sortL ps) None with
  | None => lift (addClause n ps)
  | Some ls =>
      _ <=| (if existsb (fun l => negb (isU s l)) ps then _ <=| line (false, ls) ;; line (true, sortL ps) else tret tt) ;;
      b <=| lift (addClause n ps) ;;
      _ <=| (match ls with [] | [_] => if b : bool then tret tt else line (false, []) | _ => tret tt end) ;;
      tret b
  end.
Definition tAddAtMost (n : nat) (ps : list slit) (k : Z) : T unit := lift (addAtMost n ps k).
Definition tNewVar (sign dvar : bool) : T nat := lift (newVar sign dvar).

Section Solver.
Variables (o : oracle) (cm : clauseMin).
(** core.go:1271-1302 reduceDB with the line of removeClause, core.go:780-787 *)
Fixpoint tReduce (cs kept : list nat) : T unit :=
  match cs with
  | [] => lift (modify (with_learnts kept))
  | c :: r =>
      b <=| lift (ask (o_del o)) ;;
      s <=| tget t_s ;;
      if b && (2 <? length (c_lits (db s c))) && negb (locked s c)
      then _ <=| line (true, c_lits (db s c)) ;; _ <=| lift (simpleRemove c) ;; tReduce r kept
      else tReduce r (kept ++ [c])
  end.
Definition tReduceDB : T unit := srt <=| lift (ask (o_sort o)) ;; s <=| tget t_s ;; tReduce (srt (learnts s)) [].
(** core.go:490-515 with the records of the assumptions *)
Definition recordAssumption (p : slit) : T unit :=
  s <=| tget t_s ;; ps <=| tget t_props ;;
  match nth_error ps (dl s) with Some q => record ([p], Some q) | None => tpanic end.
Fixpoint tNextAssumption (ps : list slit) : T (slit + option slit) :=
  match ps with
  | [] => tret (inr None)
  | p :: r =>
      s <=| tget t_s ;;
      match val s p with
      | Some true => _ <=| lift newLevel ;; tNextAssumption r
      | Some false => _ <=| recordAssumption p ;; tret (inl p)
      | None => _ <=| recordAssumption p ;; tret (inr (Some p))
      end
  end.
(** core.go:445-475 with the line of the learnt clause *)
Definition tLearn (n c : nat) : T unit :=
  x <=| lift (analyze o cm n c) ;; _ <=| lift (modify (cancelUntil (snd x))) ;; _ <=| line (false, fst x) ;;
  lift (match fst x with
        | [l] => enqueue l None ;;; modify (fun s => with_units (units s ++ [l]) s)
        | ls => fun s => (d <-- newClause (Clause ls false 0 (stateId s)) ;; modify (fun s => with_learnts (learnts s ++ [d]) s) ;;; attach d ;;; enqueue (hd0 ls) (Some d)) s
        end).
(** core.go:432-529 search *)
Fixpoint tSearchLoop (n : nat) : T status :=
  match n with
  | 0 => tstuck
  | S m =>
      c <=| lift (propagate n) ;;
      match c with
      | Some c => b <=| lift (resume (o_conf o)) ;; if negb b then tret StUndef else
                  s <=| tget t_s ;; match tlim s with [] => tret StFalse | _ => _ <=| tLearn n c ;; tSearchLoop m end
      | None =>
          b <=| lift (ask (o_restart o)) ;;
          if b then _ <=| lift (modify (cancelUntil 0)) ;; tret StUndef else
          b <=| lift (ask (o_reduce o)) ;;
          s <=| tget t_s ;;
          _ <=| (if b then match learnts s with [] => tret tt | _ => tReduceDB end else tret tt) ;;
          s <=| tget t_s ;;
          a <=| tNextAssumption (skipn (dl s) (assumps s)) ;;
          match a with
          | inl p => _ <=| lift (analyzeFinal (neg p)) ;; tret StFalse
          | inr (Some p) => _ <=| lift newLevel ;; _ <=| lift (enqueue p None) ;; tSearchLoop m
          | inr None =>
              s <=| tget t_s ;;
              p <=| lift (pickBranch o (S (length (heap s)))) ;;
              match p with None => tret StTrue | Some p => _ <=| lift newLevel ;; _ <=| lift (enqueue p None) ;; tSearchLoop m end
          end
      end
  end.
Definition tSearch (n : nat) : T status := s <=| tget t_s ;; if ok s then tSearchLoop n else tret StFalse.
Fixpoint tSearches (k n : nat) : T status :=
  match k with 0 => tstuck | S k => r <=| tSearch n ;; match r with StUndef => tSearches k n | _ => tret r end end.
(** core.go:386-418 Solve: without assumptions, the proof of an unsatisfiable problem ends with the empty clause *)
Definition tSolve (n : nat) : T (option bool) :=
  b <=| lift (resume (o_hdl o)) ;; if negb b then tret None else
  _ <=| lift (modify (with_model [])) ;; _ <=| lift (modify (with_conflict [])) ;;
  s <=| tget t_s ;;
  if negb (ok s) then tret (Some false) else
  r <=| tSearches n n ;;
  s <=| tget t_s ;;
  _ <=| match r, assumps s with StFalse, [] => line (false, []) | _, _ => tret tt end ;;
  _ <=| lift (match r with
    | StTrue => modify (fun s => with_model (map (fun v => match val_ s v with Some b => b | None => false end) (seq 0 (nvars s))) s)
    | _ => fun s => match conflict s with [] => Ret tt (with_ok false s) | _ => Ret tt s end
    end) ;;
  _ <=| lift (modify (cancelUntil 0)) ;;
  b <=| lift (resume (o_hdl o)) ;;
  tret (if b then Some (match r with StTrue => true | _ => false end) else None).
End Solver.

(** ** Saved states, core.go:531-609 *)
Record tsaved := Tsaved { ts_core : saved; ts_orig : nat; ts_proof : nat }.
Definition tSave : T tsaved := t <=| tget (fun t => t) ;; x <=| lift saveState ;; tret (Tsaved x (length (t_orig t)) (length (t_proof t))).
Definition shrinkOrig (k : nat) : T unit := fun t => TRet tt (Tsat (t_s t) (firstn k (t_orig t)) (t_proof t) (t_props t)).
Definition tLoad (n : nat) (x : tsaved) : T bool :=
  b <=| lift (loadState n (ts_core x)) ;;
  _ <=| (if b : bool then fun t => TRet tt (Tsat (t_s t) (firstn (ts_orig x) (t_orig t)) (firstn (ts_proof x) (t_proof t)) (t_props t)) else tret tt) ;;
  tret b.

(** ** The unsat core, unsat_core.go *)

(** a proposition of a core: a given one, or a new one (f.NewStandardProposition) for a clause without one *)
Inductive cprop := Given (p : nat) | OfClause (ls : list slit).
Fixpoint lits_eqb (ls ms : list slit) : bool :=
  match ls, ms with [], [] => true | l :: ls, m :: ms => slit_eqb l m && lits_eqb ls ms | _, _ => false end.
Definition cprop_eqb (p q : cprop) : bool :=
  match p, q with Given p, Given q => p =? q | OfClause ls, OfClause ms => lits_eqb ls ms | _, _ => false end.
Fixpoint addProp (p : cprop) (l : list cprop) : list cprop := match l with [] => [p] | q :: r => if cprop_eqb p q then l else q :: addProp p r end.
(** the literals in the order of their numbers, -n < ... < -1 < 1 < ... < n.  The code sorts the recorded clause itself;
    since every use sorts again, this has no effect outside. *)
Definition num (l : slit) : Z := let n := (Z.of_nat (fst l) + 1)%Z in if snd l then (- n)%Z else n.
Fixpoint insertN (l : slit) (ls : list slit) : list slit := match ls with [] => [l] | m :: r => if (num l <=? num m)%Z then l :: ls else m :: insertN l r end.
Fixpoint sortN (ls : list slit) : list slit := match ls with [] => [] | l :: r => insertN l (sortN r) end.
(** unsat_core.go:49-58 getFormulaForVector *)
Fixpoint dedupN (ls : list slit) : list slit := match ls with [] => [] | l :: r => if inL l r then dedupN r else l :: dedupN r end.
Definition formulaOf (ls : list slit) : option (list slit) :=
  if existsb (fun l => inL (neg l) ls) ls then None else Some (dedupN (sortN ls)).
Definition form_eqb (f g : option (list slit)) : bool := match f, g with None, None => true | Some ls, Some ms => lits_eqb ls ms | _, _ => false end.
Definition propOf (i : info) : cprop := match snd i with Some p => Given p | None => OfClause (sortN (fst i)) end.
(** unsat_core.go:13-23: the map from clauses to propositions; the last record counts *)
Fixpoint lookupF (f : option (list slit)) (is : list info) (r : option cprop) : option cprop :=
  match is with [] => r | i :: is => lookupF f is (if form_eqb (formulaOf (fst i)) f then Some (propOf i) else r) end.
(** unsat_core.go:60-67 containsEmptyClause *)
Definition containsEmpty (is : list info) : bool := existsb (fun i => match fst i with [] => true | _ => false end) is.
(** unsat_core.go:69-98 handleTrivialCase *)
Definition opposite (i j : info) : bool := match fst i, fst j with [l], [m] => slit_eqb m (neg l) | _, _ => false end.
Fixpoint trivialCore (is : list info) : option (list cprop) :=
  match is with
  | [] => None
  | i :: r => match find (opposite i) r with Some j => Some (addProp (propOf j) [propOf i]) | None => trivialCore r end
  end.
Fixpoint coreProps (cs : list (list slit)) (is : list info) (acc : list cprop) : option (list cprop) :=
  match cs with
  | [] => Some acc
  | c :: r => match lookupF (formulaOf c) is None with Some p => coreProps r is (addProp p acc) | None => None end
  end.
(** unsat_core.go:12-47 computeUnsatCore *)
Definition computeCore (hash : list slit -> Z) (n : nat) : T (list cprop) := fun t =>
  let is := t_orig t in
  if containsEmpty is then match lookupF (Some []) is None with Some p => TRet [p] t | None => TPanic end else
  match drupCompute hash n (map (fun i => sortN (fst i)) is) (t_proof t) with
  | DTrivial => match trivialCore is with Some ps => TRet ps t | None => TPanic end
  | DCore cs => match coreProps cs is [] with Some ps => TRet ps t | None => TPanic end
  | DPanic => TPanic
  | DStuck => TStuck
  end.

(** ** A call with an unsat core, call.go:198-224, 233-284 *)
(** generateClauseVector, solver.go:148-163, sorts the literals by their numbers [key] in the formula factory *)
Fixpoint insertK (key : slit -> nat) (l : slit) (ls : list slit) : list slit := match ls with [] => [l] | m :: r => if key l <=? key m then l :: ls else m :: insertK key l r end.
Fixpoint sortK (key : slit -> nat) (ls : list slit) : list slit := match ls with [] => [] | l :: r => insertK key l (sortK key r) end.
Fixpoint tAdds (n : nat) (cs : list info) : T unit := match cs with [] => tret tt | c :: r => _ <=| tAddClause n (fst c) (snd c) ;; tAdds n r end.
(** [lits]: the additional propositions that are literals; [props]: the other ones with their clauses *)
Definition clausesOf (props : list (nat * list (list slit))) : list info := concat (map (fun p => map (fun c => (c, Some (fst p))) (snd p)) props).
Definition tCall (o : oracle) (cm : clauseMin) (hash : list slit -> Z) (key : slit -> nat) (n : nat)
    (lits : list (slit * nat)) (props : list (nat * list (list slit))) : T (option bool * option (list cprop)) :=
  before <=| tget (fun t => length (t_orig t)) ;;
  _ <=| lift (modify (with_assumps (sortK key (map fst lits)))) ;;
  _ <=| setProps (map snd lits) ;;
  st <=| match props with [] => tret None | _ => x <=| tSave ;; _ <=| tAdds n (clausesOf props) ;; tret (Some x) end ;;
  r <=| tSolve o cm n ;;
  core <=| match r with Some false => c <=| computeCore hash n ;; tret (Some c) | _ => tret None end ;;
  _ <=| lift (modify (with_assumps [])) ;;
  _ <=| setProps [] ;;
  _ <=| shrinkOrig before ;;
  _ <=| match st with Some x => b <=| tLoad n x ;; if b : bool then tret tt else tpanic | None => tret tt end ;;
  tret (r, core).

(** a new solver that records proofs *)
Definition tNew : tsat := Tsat newSolver [] [] [].
