(** * Model of the DNNF compiler: dnnf/{compiler,dtree,dtree_generator}.go, sat/dnnf_solver.go

    The compiler runs on the core solver of Sat.v.  Simplifications:
    - The answers of the two calls of the full solver, [PropagateBackbone]'s backbone and
      [IsSatisfiable] (right by C37, C50 and C53), are arguments.
    - The handler never cancels ([Compile]).
    - Bit sets are lists of numbers (BitSet.v models bitset.go); two cache keys are equal if they have the
      same elements.  Beyond 64 bits the Go code can take equal sets of different capacity for
      different ones, and computes the entry again.
    - The scratch memory localCacheKeys, localOccurrences, localLeftVarSet and localRightVarSet
      is not modelled, nor is currentShannons, which only addresses it.
    - The array assignment of the solver repeats the values of the variables.
    - Activities are not modelled: this solver does not choose its decisions.
    - A panic and an exhausted recursion depth are both [fail]. *)
From Coq Require Import String List Bool Arith NArith ZArith.
From Verif Require Sat.
From Verif Require Import Spec Factory Assign EncApi NormalForm Simplify Dnnf.
Import ListNotations.

Notation slit := Sat.slit (only parsing).

(** ** The solver: sat/dnnf_solver.go *)

(** dnnf_solver.go:26-34 [DnnfSolver], compiler.go:41-51 the cache of the compiler.  [d_last]: lastLearnt;
    after AssertCdLiteral it shares its memory with the new clause, and is the number of the
    clause here.  [d_lvl]: assertionLevel, [None] is -1.  The name at position i is the one of variable i. *)
Record dst := Dst {
  d_sat : Sat.sat; d_names : list string; d_dirty : bool; d_lvl : option nat; d_last : list slit + nat;
  d_cache : list (list nat * formula) }.
Definition D (A : Type) : Type := dst -> M (A * dst).
Definition dret {A} (a : A) : D A := fun d => ret (a, d).
Definition dfail {A} : D A := fun _ => fail.
Definition dbind {A B} (m : D A) (k : A -> D B) : D B := fun d s =>
  match m d s with Some ((a, d'), s') => k a d' s' | None => None end.
Notation "x <~ m ;; k" := (dbind m (fun x => k)) (at level 61, m at next level, right associativity).
Definition fac {A} (m : M A) : D A := fun d s => match m s with Some (a, s') => Some ((a, d), s') | None => None end.
Definition core {A} (m : Sat.S_ A) : D A := fun d s =>
  match m (d_sat d) with
  | Sat.Ret a c => Some ((a, Dst c (d_names d) (d_dirty d) (d_lvl d) (d_last d) (d_cache d)), s)
  | _ => None
  end.
Definition dget {A} (g : dst -> A) : D A := fun d s => Some ((g d, d), s).
Definition dput (g : dst -> dst) : D unit := fun d s => Some ((tt, g d), s).
Fixpoint dmap {A B} (h : A -> D B) (l : list A) : D (list B) :=
  match l with [] => dret [] | x :: r => y <~ h x ;; ys <~ dmap h r ;; dret (y :: ys) end.
Definition setDirty (b : bool) : D unit := dput (fun d => Dst (d_sat d) (d_names d) b (d_lvl d) (d_last d) (d_cache d)).
Definition setLearnt (l : option nat) (ls : list slit + nat) : D unit :=
  dput (fun d => Dst (d_sat d) (d_names d) (d_dirty d) l ls (d_cache d)).

(** dnnf_solver.go:36-48 [NewDnnfSolver] *)
Definition newDnnfSolver : dst := Dst Sat.newSolver [] false None (inl []) [].

(** core.go 1300-1306 IdxForName *)
Fixpoint indexOf (x : string) (l : list string) : option nat :=
  match l with [] => None | y :: r => if String.eqb y x then Some 0 else match indexOf x r with Some i => Some (S i) | None => None end end.
Definition litName (l : formula) : M (string * bool) :=
  get (fun s => match literals s l with Some np => np | None => (EmptyString, false) end).
(** dnnf_solver.go:166-183: the solver literal of a literal; new names get a new variable *)
Definition addLiteral (l : formula) : D slit :=
  np <~ fac (litName l) ;;
  i <~ dget (fun d => indexOf (fst np) (d_names d)) ;;
  v <~ match i with
       | Some v => dret v
       | None => v <~ core (Sat.newVar false true) ;;
                 _ <~ dput (fun d => Dst (d_sat d) (d_names d ++ [fst np]) (d_dirty d) (d_lvl d) (d_last d) (d_cache d)) ;; dret v
       end ;;
  dret (v, negb (snd np)).
(** dnnf_solver.go:162-186 [generateClauseVector], and AddClause *)
Definition addClauseF (n : nat) (f : formula) : D unit :=
  ls <~ fac (literalsOf n f) ;; ps <~ dmap addLiteral (content ls) ;; _ <~ core (Sat.addClause n ps) ;; dret tt.
(** dnnf_solver.go:72-84 [Add] on a formula in conjunctive normal form, for which normalform.CNF is the identity *)
Definition dnnfAdd (n : nat) (f : formula) : D unit :=
  match srt f with
  | SFalse | SLit | SOr => addClauseF n f
  | SAnd => ops <~ fac (get (Operands f)) ;; _ <~ dmap (addClauseF n) ops ;; dret tt
  | _ => dret tt
  end.

(** core.go 1013-1031 computeLBD with ReduceOnSize off (config.go:143): the number of levels *)
Definition lbd (s : Sat.sat) (ls : list slit) : nat := length (nodup Nat.eq_dec (map (Sat.lev s) ls)).
(** core.go 1132-1142: elements that are not kept are overwritten by the last ones *)
Fixpoint binShrink (n : nat) (keep : slit -> bool) (ls : list slit) : list slit :=
  match n, ls with
  | S n, l :: r => if keep l then l :: binShrink n keep r
                   else match r with [] => [] | _ => binShrink n keep (last r l :: removelast r) end
  | _, _ => []
  end.
(** core.go 1113-1143 minimisationWithBinaryResolution *)
Definition minBin (s : Sat.sat) (out : list slit) : list slit :=
  match out with
  | [] => []
  | l :: r => if lbd s out <=? 6 then
      l :: binShrink (S (length r)) (fun q => negb (existsb (fun e => (fst (snd e) =? fst q) && Sat.isT s (snd e)) (Sat.wbin s (Sat.neg l)))) r
    else out
  end.
Definition clearSeen (ls : list slit) (s : Sat.sat) : Sat.sat :=
  fold_left (fun s l => Sat.with_seen (Sat.upd (Sat.seen s) (fst l) false) s) ls s.
(** core.go 933-1111 analyze and simplifyClause with the default configuration; the result: the
    learnt clause and the level to go back to *)
Definition analyze (n : nat) (c : nat) : Sat.S_ (list slit * nat) := fun s =>
  match Sat.analyzeLoop n c true (length (Sat.trail s)) 0 [] s with
  | Sat.Ret (p, r) s1 =>
      match Sat.minDeep n (map (Sat.absLevel s1) r) r [] [] s1 with
      | Sat.Ret (kept, cl) s2 =>
          let out := Sat.neg p :: kept in
          let out := if length out <=? 30 then minBin s2 out else out in
          Sat.Ret (Sat.toSecond s2 out) (clearSeen ((Sat.neg p :: r) ++ cl) s2)
      | Sat.Panic => Sat.Panic | Sat.Stuck => Sat.Stuck
      end
  | Sat.Panic => Sat.Panic | Sat.Stuck => Sat.Stuck
  end.

(** dnnf_solver.go:142-160 [cancelUntilDnnf] is the one of the core solver *)
(** dnnf_solver.go:197-207 [handleConflict] *)
Definition handleConflict (n : nat) (c : nat) : D unit :=
  l <~ dget (fun d => Sat.dl (d_sat d)) ;;
  if 0 <? l then x <~ core (analyze n c) ;; setLearnt (Some (snd x)) (inl (fst x))
  else setLearnt None (inl []).
(** dnnf_solver.go:188-195 [propagateAfterDecide] *)
Definition propagateAfter (n : nat) : D bool :=
  c <~ core (Sat.propagate n) ;;
  match c with Some c => _ <~ handleConflict n c ;; dret false | None => dret true end.
(** dnnf_solver.go:50-53 [Start] *)
Definition start (n : nat) : D bool :=
  _ <~ setDirty true ;; c <~ core (Sat.propagate n) ;; dret match c with Some _ => false | None => true end.
(** dnnf_solver.go:86-92 [Decide] *)
Definition decide (n : nat) (v : nat) (phase : bool) : D bool :=
  _ <~ setDirty true ;; _ <~ core Sat.newLevel ;; _ <~ core (Sat.enqueue (v, negb phase) None) ;; propagateAfter n.
(** dnnf_solver.go:94-97 [UndoDecide] *)
Definition undoDecide (v : nat) : D unit :=
  _ <~ setDirty false ;; core (Sat.modify (fun s => Sat.cancelUntil (Sat.lvl s v - 1) s)).
(** dnnf_solver.go:99-101 [AtAssertionLevel] *)
Definition atAssertionLevel : D bool :=
  dget (fun d => match d_lvl d with Some l => Sat.dl (d_sat d) =? l | None => false end).
(** the literals of lastLearnt *)
Definition lastLits (d : dst) : list slit :=
  match d_last d with inl ls => ls | inr c => Sat.c_lits (Sat.db (d_sat d) c) end.
(** dnnf_solver.go:103-118 [AssertCdLiteral].  Simplified: a clause that is asserted a second time
    does not share its memory with the first one. *)
Definition assertCd (n : nat) : D bool :=
  _ <~ setDirty true ;;
  b <~ atAssertionLevel ;; if negb b then dfail else
  ls <~ dget lastLits ;;
  _ <~ match ls with
       | [] => dfail
       | [l] => _ <~ core (Sat.enqueue l None) ;; core (Sat.modify (fun s => Sat.with_units (Sat.units s ++ [l]) s))
       | l :: _ =>
           c <~ core (fun s => Sat.newClause (Sat.Clause ls false 0 (Sat.stateId s)) s) ;;
           _ <~ core (Sat.modify (fun s => Sat.with_learnts (Sat.learnts s ++ [c]) s)) ;;
           _ <~ core (Sat.attach c) ;; _ <~ core (Sat.enqueue l (Some c)) ;;
           dput (fun d => Dst (d_sat d) (d_names d) (d_dirty d) (d_lvl d) (inr c) (d_cache d))
       end ;;
  propagateAfter n.
(** dnnf_solver.go:63-66 [LitForIdx], 209-212 [intToLiteral] *)
Definition nameOf (d : dst) (v : nat) : string := nth v (d_names d) EmptyString.
Definition intToLiteral (l : slit) : D formula :=
  x <~ dget (fun d => nameOf d (fst l)) ;; fac (up (Lit x (negb (snd l)))).
(** dnnf_solver.go:120-140 [NewlyImplied]: the literals behind the last decision, the last one first *)
Definition newlyImplied (known : list nat) : D formula :=
  dirty <~ dget d_dirty ;;
  ls <~ (if dirty : bool then dget (fun d =>
           let s := d_sat d in
           let from := match rev (Sat.tlim s) with [] => 0 | m :: _ => S m end in
           filter (fun l => Sat.inN (fst l) known) (rev (skipn from (Sat.trail s))))
         else dret []) ;;
  fs <~ dmap intToLiteral ls ;;
  _ <~ setDirty false ;; fac (up (And fs)).

(** ** The dtree: dtree.go, dtree_generator.go *)

(** dtree.go:24-36 [dtreeLeaf]; [l_lits] are the literals in the order of [Content] with their solver
    literals, which [initialize] (71-83) computes later *)
Record leaf := Leaf { l_id : nat; l_clause : formula; l_vars : list formula; l_lits : list (formula * slit) }.
Inductive dtree := DLeaf (l : leaf) | DNode (l r : dtree).
(** dtree.go:92, 191-195 [leaves]; every leaf has more than one literal, so [excludeUnitLeaves] (222-230)
    keeps all *)
Fixpoint leaves (t : dtree) : list leaf := match t with DLeaf l => [l] | DNode a b => leaves a ++ leaves b end.
(** dtree.go:94-96, 173-175 [staticVariableSet] *)
Definition treeHas (t : dtree) (v : formula) : bool := existsb (fun l => memF v (l_vars l)) (leaves t).
(** dtree.go:72-80, 150-152: the solver variables of a tree *)
Definition leafVars (l : leaf) : list nat := map (fun p => fst (snd p)) (l_lits l).
Definition treeIdx (t : dtree) : list nat := flat_map leafVars (leaves t).
(** dtree.go:62-70 [newDtreeLeaf], 71-83 [initialize] *)
Definition newLeaf (n : nat) (id : nat) (clause : formula) : D leaf :=
  vs <~ fac (variables n clause) ;; ls <~ fac (literalsOf n clause) ;;
  ps <~ dmap (fun l => np <~ fac (litName l) ;; i <~ dget (fun d => indexOf (fst np) (d_names d)) ;;
                       match i with Some v => dret (l, (v, negb (snd np))) | None => dfail end) (content ls) ;;
  dret (Leaf id clause vs ps).
(** dtree_generator.go:64-71 [compose] *)
Fixpoint compose (n : nat) (ts : list dtree) : option dtree :=
  match n, ts with
  | _, [t] => Some t
  | S n, _ :: _ =>
      let h := length ts / 2 in
      match compose n (firstn h ts), compose n (skipn h ts) with
      | Some a, Some b => Some (DNode a b)
      | _, _ => None
      end
  | _, _ => None
  end.
(** dtree_generator.go:48-61 *)
Fixpoint eliminate (order : list formula) (sigma : list dtree) : option (list dtree) :=
  match order with
  | [] => Some sigma
  | v :: r =>
      let gamma := filter (fun t => treeHas t v) sigma in
      let rest := filter (fun t => negb (treeHas t v)) sigma in
      match gamma with
      | [] => eliminate r rest
      | _ => match compose (length gamma) gamma with Some t => eliminate r (rest ++ [t]) | None => None end
      end
  end.
(** dtree_generator.go:80-122 [newGraph].  Edges are a list of pairs of vertices, here the variables themselves;
    the order of the neighbours of a vertex, which is random in Go, is not used. *)
Definition edges := list (formula * formula).
Definition adj (g : edges) (u v : formula) : bool :=
  existsb (fun e => (feqb (fst e) u && feqb (snd e) v) || (feqb (fst e) v && feqb (snd e) u)) g.
Fixpoint pairs {A} (l : list A) : list (A * A) := match l with [] => [] | x :: r => map (pair x) r ++ pairs r end.
(** dtree_generator.go:139-155, 167-184: the edges that the elimination of [v] adds *)
Definition fill (g : edges) (open : list formula) (v : formula) : edges :=
  filter (fun e => negb (adj g (fst e) (snd e))) (pairs (filter (fun u => negb (feqb u v) && adj g v u) open)).
(** dtree_generator.go:130-165: the first vertex with the fewest new edges *)
Fixpoint bestVertex (g : edges) (open vs : list formula) (best : option (formula * nat)) : option (formula * nat) :=
  match vs with
  | [] => best
  | v :: r => let k := length (fill g open v) in
              bestVertex g open r match best with Some (_, m) => if k <? m then Some (v, k) else best | None => Some (v, k) end
  end.
(** dtree_generator.go:124-190 [getMinFillOrdering]; [open]: the vertices that are not processed *)
Fixpoint minFill (n : nat) (g : edges) (open : list formula) : list formula :=
  match n with
  | O => []
  | S n => match bestVertex g open open None with
           | None => []
           | Some (v, _) => v :: minFill n (fill g open v ++ g) (filter (fun u => negb (feqb u v)) open)
           end
  end.
(** dtree_generator.go:14-62 [generateMinFillDtree], [generateWithEliminatingOrder] on a formula that is not
    atomic *)
Definition generateDtree (n : nat) (cnf : formula) : D dtree :=
  b <~ fac (isCNF cnf) ;; if negb b then dfail else
  match srt cnf with
  | SAnd =>
    vs <~ fac (variables n cnf) ;;
    ops <~ fac (get (Operands cnf)) ;;
    cvs <~ dmap (fun c => ws <~ fac (variables n c) ;; dret (content ws)) ops ;;
    ls <~ dmap (fun p => newLeaf n (fst p) (snd p)) (combine (seq 0 (length ops)) ops) ;;
    match eliminate (minFill (length vs) (flat_map pairs cvs) (content vs)) (map DLeaf ls) with
    | Some sigma => match compose (length sigma) sigma with Some t => dret t | None => dfail end
    | None => dfail
    end
  | _ => l <~ newLeaf n 0 cnf ;; dret (DLeaf l)
  end.

(** ** The compiler: compiler.go *)

(** dtree.go:109-116 [isSubsumed] *)
Definition subsumed (s : Sat.sat) (l : leaf) : bool := existsb (fun p => Sat.isT s (snd p)) (l_lits l).
Definition openVars (s : Sat.sat) (l : leaf) : list nat :=
  map (fun p => fst (snd p)) (filter (fun p => Sat.isU s (snd p)) (l_lits l)).
(** sets of numbers as ascending lists *)
Fixpoint insN (x : nat) (l : list nat) : list nat :=
  match l with [] => [x] | y :: r => if x <? y then x :: l else if x =? y then l else y :: insN x r end.
Definition setN (l : list nat) : list nat := fold_right insN [] l.
(** dtree.go:272-293 [varSet] *)
Definition varSet (s : Sat.sat) (ls : list leaf) : list nat :=
  setN (flat_map (openVars s) (filter (fun l => negb (subsumed s l)) ls)).
(** dtree.go:90, 177-184 [dynamicSeparator] *)
Definition separator (s : Sat.sat) (t : dtree) : list nat :=
  match t with
  | DLeaf _ => []
  | DNode a b => let vb := varSet s (leaves b) in filter (fun v => Sat.inN v vb) (varSet s (leaves a))
  end.
(** dtree.go:98-107, 186-190 [countUnsubsumedOccurrences] *)
Definition occurrences (s : Sat.sat) (t : dtree) (v : nat) : nat :=
  length (filter (Nat.eqb v) (flat_map leafVars (filter (fun l => negb (subsumed s l)) (leaves t)))).
(** compiler.go:247-269 [chooseShannonVariable]: the first separator variable with the most occurrences *)
Fixpoint chooseVar (s : Sat.sat) (t : dtree) (vs : list nat) (best bo : nat) : nat :=
  match vs with
  | [] => best
  | v :: r => let k := occurrences s t v in if bo <? k then chooseVar s t r v k else chooseVar s t r best bo
  end.
Definition chooseShannon (s : Sat.sat) (t : dtree) (sep : list nat) : nat :=
  match sep with [] => 0 | v :: r => chooseVar s t r v (occurrences s t v) end.
(** dtree.go:197-220 [cacheKey], compiler.go:313-318 [computeCacheKey]: the numbers of the open clauses behind the ones of
    their open variables *)
Definition cacheKey (s : Sat.sat) (nv : nat) (t : dtree) : list nat :=
  let ls := filter (fun l => negb (subsumed s l)) (leaves t) in
  setN (map (fun l => l_id l + 2 + nv) ls ++ flat_map (openVars s) ls).
Definition lookupKey (k : list nat) (c : list (list nat * formula)) : option formula :=
  match find (fun e => if list_eq_dec Nat.eq_dec (fst e) k then true else false) c with Some e => Some (snd e) | None => None end.

(** compiler.go:320-341 [leaf2ddnnf]; [negs]: the negations of the open literals so far *)
Fixpoint leafLoop (s : Sat.sat) (ls : list (formula * slit)) (negs ops : list formula) : M formula :=
  match ls with
  | [] => up (Or ops)
  | (l, p) :: r =>
      match Sat.val s p with
      | Some true => ret ftrue
      | Some false => leafLoop s r negs ops
      | None => a <- up (And (negs ++ [l])) ;; np <- litName l ;; m <- up (Lit (fst np) (negb (snd np))) ;; leafLoop s r (negs ++ [m]) (ops ++ [a])
      end
  end.
Definition leaf2ddnnf (l : leaf) : D formula := s <~ dget d_sat ;; fac (leafLoop s (l_lits l) [] []).

(** compiler.go:181-245 [cnf2ddnnf], [cnf2ddnnfInner], 271-291 [conjoin], 293-311 [cnfAux].  [nv]: the number of variables;
    [known]: staticVarSet.  The set of a node is the one of its left child (dtree.go:150-151), to which the
    variables of the right child are added, so the left child has the set of its parent. *)
Fixpoint cnf2ddnnf (n : nat) (nv : nat) (known : list nat) (t : dtree) : D formula :=
  match n with
  | O => dfail
  | S m =>
    let aux (known : list nat) (u : dtree) : D formula :=
      match u with
      | DLeaf l => leaf2ddnnf l
      | DNode _ _ =>
        k <~ dget (fun d => cacheKey (d_sat d) nv u) ;;
        c <~ dget (fun d => lookupKey k (d_cache d)) ;;
        match c with
        | Some f => dret f
        | None =>
          f <~ cnf2ddnnf m nv known u ;;
          _ <~ (if isFalsum f then dret tt else
                dput (fun d => Dst (d_sat d) (d_names d) (d_dirty d) (d_lvl d) (d_last d) ((k, f) :: d_cache d))) ;;
          dret f
        end
      end in
    let again : D formula :=
      a <~ atAssertionLevel ;;
      if a then b <~ assertCd n ;; if b : bool then cnf2ddnnf m nv known t else dret ffalse
      else dret ffalse in
    let branch (v : nat) (phase : bool) : D formula :=
      b <~ decide n v phase ;;
      f <~ (if b : bool then cnf2ddnnf m nv known t else dret ffalse) ;;
      _ <~ undoDecide v ;; dret f in
    sep <~ dget (fun d => separator (d_sat d) t) ;;
    implied <~ newlyImplied known ;;
    match sep with
    | [] =>
      match t with
      | DLeaf l => f <~ leaf2ddnnf l ;; fac (up (And [implied; f]))
      | DNode a b =>
        if isFalsum implied then dret ffalse else
        f <~ aux known a ;; if isFalsum f then dret ffalse else
        g <~ aux (treeIdx b) b ;; if isFalsum g then dret ffalse else
        fac (up (And [implied; f; g]))
      end
    | _ =>
      v <~ dget (fun d => chooseShannon (d_sat d) t sep) ;;
      p <~ branch v true ;;
      if isFalsum p then again else
      q <~ branch v false ;;
      if isFalsum q then again else
      x <~ dget (fun d => nameOf d v) ;;
      l <~ fac (up (Var x)) ;;
      f <~ fac (up (And [l; p])) ;;
      nl <~ fac (up (Not l)) ;;
      g <~ fac (up (And [nl; q])) ;;
      h <~ fac (up (Or [f; g])) ;;
      fac (up (And [implied; h]))
    end
  end.

(** formula.go: IsAtomic *)
Definition isAtomic (f : formula) : bool := match srt f with SFalse | STrue | SLit | SCC | SPBC => true | _ => false end.
(** compiler.go:118-136 [initializeClauses] *)
Definition initializeClauses (f : formula) : M (formula * formula) :=
  ops <- get (Operands f) ;;
  let us := match srt f with SAnd => filter isAtomic ops | SOr => [] | _ => [f] end in
  let ns := match srt f with SAnd => filter (fun g => negb (isAtomic g)) ops | SOr => [f] | _ => [] end in
  u <- up (And us) ;; v <- up (And ns) ;; ret (u, v).

(** The answers of the solver calls: the backbone of the formula ([None]: unsatisfiable), its
    positive and negative variables; is it satisfiable? *)
Record answers := Ans { a_bb : option (list formula * list formula); a_sat : bool }.

(** simplification/backbone.go:13-35 [PropagateBackbone], sat/backbone.go:31-51 [ToFormula], [CompleteBackbone] *)
Definition propagateBackbone (n : nat) (bb : option (list formula * list formula)) (f : formula) : M formula :=
  match bb with
  | None => ret ffalse
  | Some (ps, ns) =>
    match ps, ns with
    | [], [] => ret f
    | _, _ =>
      nls <- mapM (fun v => np <- litName v ;; up (Lit (fst np) (negb (snd np)))) ns ;;
      b <- up (Minterm (ps ++ nls)) ;;
      match newAssignment (ps ++ nls) with
      | None => fail
      | Some a => r <- restrict n a f ;; up (And [b; r])
      end
    end
  end.
(** compiler.go:53-57 [simplifyFormula] *)
Definition simplifyFormula (n : nat) (bb : option (list formula * list formula)) (f : formula) : M formula :=
  g <- propagateBackbone n bb f ;;
  r <- subsumption nopSub true n g tt ;;
  match fst r with SubOk h => ret h | _ => fail end.
(** compiler.go:59-74 [newCompiler], 107-116 [compile], 138-149 [generateDtree], 151-169 [compileWithTree] *)
Definition compileCNF (n : nat) (sat : bool) (f : formula) : M formula :=
  vs <- variables n f ;;
  cs <- initializeClauses f ;;
  r <- (_ <~ dnnfAdd n f ;;
        if negb sat then dret ffalse else
        if isAtomic (snd cs) then dret f else
        t <~ generateDtree n (snd cs) ;;
        b <~ start n ;;
        if negb b then dret ffalse else
        g <~ cnf2ddnnf n (length vs) (treeIdx t) t ;;
        fac (up (And [fst cs; g]))) newDnnfSolver ;;
  ret (fst r).
(** compiler.go:19-38 [Compile]; the result: the DNNF and the original variables *)
Definition compile (n : nat) (cf : encConfig) (nf : cnfConfig) (ans : answers) (f : formula) : M (formula * list formula) :=
  vs <- variables n f ;;
  cnf <- CNF n cf nf f ;;
  ws <- variables n cnf ;;
  g <- simplifyFormula n (a_bb ans) cnf ;;
  d <- compileCNF n (a_sat ans) g ;;
  ret (d, content (vs ++ filter (fun w => negb (memF w vs)) ws)).
