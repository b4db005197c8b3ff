(** * Model of the caching formula factory: formula/factory.go, formula/formula.go

    Conventions of the model.
    - A Go [Formula] / [Literal] / [Variable] (a uint32: 4 bits sort, 28 bits id,
      formula/formula.go:9-28) is a pair of sort and id.  Ids are unbounded here; the
      packing into 32 bits is [code] (formula/formula.go:232) and is treated in
      [FactoryProps.v].
    - A Go map is a function into [option]; reading a missing key yields the Go
      zero value ([fzero], []), as in Go.
    - Go's 64-bit [int] is [Z]; hash values are computed modulo 2^64.
    - Print symbols, configurations and statistics are not part of the state. *)
From Coq Require Import String Ascii List Bool ZArith NArith DecimalString DecimalN.
From Verif Require Import Spec.
Import ListNotations.
Local Open Scope N_scope.

(** formula/formula.go:166-179 *)
Inductive fsort := SFalse | STrue | SLit | SNot | SAnd | SOr | SImpl | SEquiv | SCC | SPBC.

Definition fsort_eqb (a b : fsort) : bool :=
  match a, b with
  | SFalse, SFalse | STrue, STrue | SLit, SLit | SNot, SNot | SAnd, SAnd | SOr, SOr
  | SImpl, SImpl | SEquiv, SEquiv | SCC, SCC | SPBC, SPBC => true
  | _, _ => false
  end.

(** numeric value of the iota constants, formula/formula.go:168-179 *)
Definition sortnum (s : fsort) : N :=
  match s with
  | SFalse => 0 | STrue => 1 | SLit => 2 | SNot => 3 | SAnd => 4 | SOr => 5
  | SImpl => 6 | SEquiv => 7 | SCC => 8 | SPBC => 9
  end.

(** formula/formula.go:14 (and 21, 28) *)
Record formula := F { srt : fsort; fid : N }.

Definition feqb (a b : formula) : bool := fsort_eqb (srt a) (srt b) && (fid a =? fid b).

(** formula/formula.go:232 EncodeFormula: the packed uint32 value *)
Definition code (f : formula) : N := N.lor (N.shiftl (sortnum (srt f)) 28) (N.land (fid f) 0x0FFFFFFF).

(** factory.go:124-125 *)
Definition ffalse := F SFalse 0.
Definition ftrue := F STrue 1.
(** zero value of Formula *)
Definition fzero := ffalse.

(** factory.go:1051-1056 *)
Record pbc := Pbc { p_lits : list formula; p_coeffs : list Z; p_rhs : Z; p_cmp : cmp }.

(** formula/transformation.go:18-27 *)
Inductive tsort := TransNNF | TransCNF | TransDNF | TransAIG | TransDistr | TransUnitProp | TransBDDCNF | TransBDDNF.
(** formula/predicate.go:10-15 *)
Inductive psort := PredNNF | PredCNF | PredDNF | PredAIG.
(** formula/function.go:10-18; the cached values are sets of literals / variables,
    lists of formulas, or numbers *)
Inductive fusort := FuncVariables | FuncLiterals | FuncDepth | FuncSubnodes | FuncAtoms | FuncNodes | FuncDNNFCount.
Inductive fuval := VSet (l : list formula) | VNum (n : Z).
(** formula/formula.go:299-305 *)
Inductive auxsort := AuxCNF | AuxCC | AuxPBC.

Scheme Equality for tsort.
Scheme Equality for psort.
Scheme Equality for fusort.
Scheme Equality for auxsort.

(** factory.go:79-112 *)
Record state := St {
  nid : N;
  literals : formula -> option (string * bool);
  nots : formula -> option formula;
  impls : formula -> option (formula * formula);
  equivs : formula -> option (formula * formula);
  ands : formula -> option (list formula);
  ors : formula -> option (list formula);
  ccs : formula -> option pbc;
  pbcs : formula -> option pbc;
  posLit : string -> option formula;
  negLit : string -> option formula;
  notC : formula -> option formula;
  implC : formula * formula -> option formula;
  equivC : formula * formula -> option formula;
  andC : N -> list formula;
  orC : N -> list formula;
  ccC : N -> list formula;
  pbcC : N -> list formula;
  transC : tsort -> formula -> option formula;
  predC : psort -> formula -> option bool;
  funcC : fusort -> formula -> option fuval;
  auxCtr : auxsort -> N;
  conserve : bool
}.

(** factory.go:122-153 NewFactory *)
Definition newFactory (cv : bool) : state :=
  St 2 (fun _ => None) (fun _ => None) (fun _ => None) (fun _ => None) (fun _ => None)
     (fun _ => None) (fun _ => None) (fun _ => None) (fun _ => None) (fun _ => None)
     (fun _ => None) (fun _ => None) (fun _ => None) (fun _ => []) (fun _ => [])
     (fun _ => []) (fun _ => []) (fun _ _ => None) (fun _ _ => None) (fun _ _ => None)
     (fun _ => 0) cv.

(** map updates *)
Definition upd {A B} (eqb : A -> A -> bool) (m : A -> B) (k : A) (v : B) : A -> B :=
  fun x => if eqb x k then v else m x.
Definition peqb (a b : formula * formula) : bool := feqb (fst a) (fst b) && feqb (snd a) (snd b).

Definition set_nid v s := St v (literals s) (nots s) (impls s) (equivs s) (ands s) (ors s) (ccs s) (pbcs s) (posLit s) (negLit s) (notC s) (implC s) (equivC s) (andC s) (orC s) (ccC s) (pbcC s) (transC s) (predC s) (funcC s) (auxCtr s) (conserve s).
Definition set_literals v s := St (nid s) v (nots s) (impls s) (equivs s) (ands s) (ors s) (ccs s) (pbcs s) (posLit s) (negLit s) (notC s) (implC s) (equivC s) (andC s) (orC s) (ccC s) (pbcC s) (transC s) (predC s) (funcC s) (auxCtr s) (conserve s).
Definition set_nots v s := St (nid s) (literals s) v (impls s) (equivs s) (ands s) (ors s) (ccs s) (pbcs s) (posLit s) (negLit s) (notC s) (implC s) (equivC s) (andC s) (orC s) (ccC s) (pbcC s) (transC s) (predC s) (funcC s) (auxCtr s) (conserve s).
Definition set_impls v s := St (nid s) (literals s) (nots s) v (equivs s) (ands s) (ors s) (ccs s) (pbcs s) (posLit s) (negLit s) (notC s) (implC s) (equivC s) (andC s) (orC s) (ccC s) (pbcC s) (transC s) (predC s) (funcC s) (auxCtr s) (conserve s).
Definition set_equivs v s := St (nid s) (literals s) (nots s) (impls s) v (ands s) (ors s) (ccs s) (pbcs s) (posLit s) (negLit s) (notC s) (implC s) (equivC s) (andC s) (orC s) (ccC s) (pbcC s) (transC s) (predC s) (funcC s) (auxCtr s) (conserve s).
Definition set_ands v s := St (nid s) (literals s) (nots s) (impls s) (equivs s) v (ors s) (ccs s) (pbcs s) (posLit s) (negLit s) (notC s) (implC s) (equivC s) (andC s) (orC s) (ccC s) (pbcC s) (transC s) (predC s) (funcC s) (auxCtr s) (conserve s).
Definition set_ors v s := St (nid s) (literals s) (nots s) (impls s) (equivs s) (ands s) v (ccs s) (pbcs s) (posLit s) (negLit s) (notC s) (implC s) (equivC s) (andC s) (orC s) (ccC s) (pbcC s) (transC s) (predC s) (funcC s) (auxCtr s) (conserve s).
Definition set_ccs v s := St (nid s) (literals s) (nots s) (impls s) (equivs s) (ands s) (ors s) v (pbcs s) (posLit s) (negLit s) (notC s) (implC s) (equivC s) (andC s) (orC s) (ccC s) (pbcC s) (transC s) (predC s) (funcC s) (auxCtr s) (conserve s).
Definition set_pbcs v s := St (nid s) (literals s) (nots s) (impls s) (equivs s) (ands s) (ors s) (ccs s) v (posLit s) (negLit s) (notC s) (implC s) (equivC s) (andC s) (orC s) (ccC s) (pbcC s) (transC s) (predC s) (funcC s) (auxCtr s) (conserve s).
Definition set_posLit v s := St (nid s) (literals s) (nots s) (impls s) (equivs s) (ands s) (ors s) (ccs s) (pbcs s) v (negLit s) (notC s) (implC s) (equivC s) (andC s) (orC s) (ccC s) (pbcC s) (transC s) (predC s) (funcC s) (auxCtr s) (conserve s).
Definition set_negLit v s := St (nid s) (literals s) (nots s) (impls s) (equivs s) (ands s) (ors s) (ccs s) (pbcs s) (posLit s) v (notC s) (implC s) (equivC s) (andC s) (orC s) (ccC s) (pbcC s) (transC s) (predC s) (funcC s) (auxCtr s) (conserve s).
Definition set_notC v s := St (nid s) (literals s) (nots s) (impls s) (equivs s) (ands s) (ors s) (ccs s) (pbcs s) (posLit s) (negLit s) v (implC s) (equivC s) (andC s) (orC s) (ccC s) (pbcC s) (transC s) (predC s) (funcC s) (auxCtr s) (conserve s).
Definition set_implC v s := St (nid s) (literals s) (nots s) (impls s) (equivs s) (ands s) (ors s) (ccs s) (pbcs s) (posLit s) (negLit s) (notC s) v (equivC s) (andC s) (orC s) (ccC s) (pbcC s) (transC s) (predC s) (funcC s) (auxCtr s) (conserve s).
Definition set_equivC v s := St (nid s) (literals s) (nots s) (impls s) (equivs s) (ands s) (ors s) (ccs s) (pbcs s) (posLit s) (negLit s) (notC s) (implC s) v (andC s) (orC s) (ccC s) (pbcC s) (transC s) (predC s) (funcC s) (auxCtr s) (conserve s).
Definition set_andC v s := St (nid s) (literals s) (nots s) (impls s) (equivs s) (ands s) (ors s) (ccs s) (pbcs s) (posLit s) (negLit s) (notC s) (implC s) (equivC s) v (orC s) (ccC s) (pbcC s) (transC s) (predC s) (funcC s) (auxCtr s) (conserve s).
Definition set_orC v s := St (nid s) (literals s) (nots s) (impls s) (equivs s) (ands s) (ors s) (ccs s) (pbcs s) (posLit s) (negLit s) (notC s) (implC s) (equivC s) (andC s) v (ccC s) (pbcC s) (transC s) (predC s) (funcC s) (auxCtr s) (conserve s).
Definition set_ccC v s := St (nid s) (literals s) (nots s) (impls s) (equivs s) (ands s) (ors s) (ccs s) (pbcs s) (posLit s) (negLit s) (notC s) (implC s) (equivC s) (andC s) (orC s) v (pbcC s) (transC s) (predC s) (funcC s) (auxCtr s) (conserve s).
Definition set_pbcC v s := St (nid s) (literals s) (nots s) (impls s) (equivs s) (ands s) (ors s) (ccs s) (pbcs s) (posLit s) (negLit s) (notC s) (implC s) (equivC s) (andC s) (orC s) (ccC s) v (transC s) (predC s) (funcC s) (auxCtr s) (conserve s).
Definition set_transC v s := St (nid s) (literals s) (nots s) (impls s) (equivs s) (ands s) (ors s) (ccs s) (pbcs s) (posLit s) (negLit s) (notC s) (implC s) (equivC s) (andC s) (orC s) (ccC s) (pbcC s) v (predC s) (funcC s) (auxCtr s) (conserve s).
Definition set_predC v s := St (nid s) (literals s) (nots s) (impls s) (equivs s) (ands s) (ors s) (ccs s) (pbcs s) (posLit s) (negLit s) (notC s) (implC s) (equivC s) (andC s) (orC s) (ccC s) (pbcC s) (transC s) v (funcC s) (auxCtr s) (conserve s).
Definition set_funcC v s := St (nid s) (literals s) (nots s) (impls s) (equivs s) (ands s) (ors s) (ccs s) (pbcs s) (posLit s) (negLit s) (notC s) (implC s) (equivC s) (andC s) (orC s) (ccC s) (pbcC s) (transC s) (predC s) v (auxCtr s) (conserve s).
Definition set_auxCtr v s := St (nid s) (literals s) (nots s) (impls s) (equivs s) (ands s) (ors s) (ccs s) (pbcs s) (posLit s) (negLit s) (notC s) (implC s) (equivC s) (andC s) (orC s) (ccC s) (pbcC s) (transC s) (predC s) (funcC s) v (conserve s).

(** Transformation, predicate and function caches: formula/transformation.go:34-43,
    formula/predicate.go:20-31, formula/function.go:25-34 *)
Definition lookupTrans (k : tsort) (f : formula) (s : state) : option formula := transC s k f.
Definition setTrans (k : tsort) (f v : formula) (s : state) : state :=
  set_transC (fun k' f' => if tsort_beq k' k && feqb f' f then Some v else transC s k' f') s.
Definition lookupPred (k : psort) (f : formula) (s : state) : option bool := predC s k f.
Definition setPred (k : psort) (f : formula) (v : bool) (s : state) : state :=
  set_predC (fun k' f' => if psort_beq k' k && feqb f' f then Some v else predC s k' f') s.
Definition lookupFunc (k : fusort) (f : formula) (s : state) : option fuval := funcC s k f.
Definition setFunc (k : fusort) (f : formula) (v : fuval) (s : state) : state :=
  set_funcC (fun k' f' => if fusort_beq k' k && feqb f' f then Some v else funcC s k' f') s.

(** factory.go:484 *)
Definition negId (i : N) : N := N.lxor i 1.

(** factory.go:488 nextPosId *)
Definition nextPosId (s : state) : N * state :=
  let i := if N.even (nid s) then nid s + 1 else nid s + 2 in
  (i, set_nid i s).

(** uint64 arithmetic *)
Definition w64 (n : N) : N := n mod (2 ^ 64).
Definition z64 (z : Z) : N := Z.to_N (z mod (2 ^ 64))%Z.

(** factory.go:497 hashOperands *)
Definition hashOperands (ops : list formula) : N :=
  fold_left (fun h op => w64 (w64 (N.shiftl h 5) + h + code op)) ops 4243.

Definition cmpnum (c : cmp) : N :=
  match c with EQ => 0 | LE => 1 | LT => 2 | GE => 3 | GT => 4 end.
Definition cmp_eqb (a b : cmp) : bool := cmpnum a =? cmpnum b.

(** factory.go:505 hashPbc *)
Definition hashPbc (p : pbc) : N :=
  let h := w64 (4243 * z64 (p_rhs p)) in
  let h := w64 (h * cmpnum (p_cmp p)) in
  let h := fold_left (fun h op => w64 (w64 (N.shiftl h 5) + h + code op)) (p_lits p) h in
  fold_left (fun h c => w64 (w64 (N.shiftl h 5) + h + z64 c)) (p_coeffs p) h.

(** factory.go:745 opsEquals *)
Fixpoint list_eqb {A} (eqb : A -> A -> bool) (a b : list A) : bool :=
  match a, b with
  | [], [] => true
  | x :: a', y :: b' => eqb x y && list_eqb eqb a' b'
  | _, _ => false
  end.
Definition opsEquals := list_eqb feqb.

(** factory.go:757 pbcsEquals *)
Definition pbcsEquals (p q : pbc) : bool :=
  cmp_eqb (p_cmp p) (p_cmp q) && Z.eqb (p_rhs p) (p_rhs q) &&
  opsEquals (p_lits p) (p_lits q) && list_eqb Z.eqb (p_coeffs p) (p_coeffs q).

(** Go map read with zero value *)
Definition getops (m : formula -> option (list formula)) (f : formula) : list formula :=
  match m f with Some l => l | None => [] end.
Definition pzero := Pbc [] [] 0%Z EQ.
Definition getpbc (m : formula -> option pbc) (f : formula) : pbc :=
  match m f with Some p => p | None => pzero end.

(** factory.go:626, 639, 652, 666 findAnd, findOr, findCC, findPBC *)
Definition findAnd (h : N) (ops : list formula) (s : state) : option formula :=
  find (fun a => opsEquals (getops (ands s) a) ops) (andC s h).
Definition findOr (h : N) (ops : list formula) (s : state) : option formula :=
  find (fun a => opsEquals (getops (ors s) a) ops) (orC s h).
Definition findCC (h : N) (p : pbc) (s : state) : option formula :=
  find (fun a => pbcsEquals (getpbc (ccs s) a) p) (ccC s h).
Definition findPBC (h : N) (p : pbc) (s : state) : option formula :=
  find (fun a => pbcsEquals (getpbc (pbcs s) a) p) (pbcC s h).

(** factory.go:175 Var.  [AsVariable] of a freshly encoded odd id never fails. *)
Definition Var (name : string) (s : state) : formula * state :=
  match posLit s name with
  | Some v => (v, s)
  | None =>
      let (i, s1) := nextPosId s in
      let v := F SLit i in
      (v, set_literals (upd feqb (literals s1) v (Some (name, true)))
          (set_posLit (upd String.eqb (posLit s1) name (Some v)) s1))
  end.

(** factory.go:204 Lit *)
Definition Lit (name : string) (phase : bool) (s : state) : formula * state :=
  let (v, s1) := Var name s in
  if phase then (v, s1) else
  match negLit s1 name with
  | Some l => (l, s1)
  | None =>
      let i := negId (fid v) in
      let s2 := if nid s1 <? i then set_nid i s1 else s1 in
      let l := F SLit i in
      (l, set_literals (upd feqb (literals s2) l (Some (name, false)))
          (set_negLit (upd String.eqb (negLit s2) name (Some l)) s2))
  end.

(** factory.go:232 Not *)
Definition Not (f : formula) (s : state) : formula * state :=
  if feqb f ffalse then (ftrue, s)
  else if feqb f ftrue then (ffalse, s)
  else match srt f with
  | SLit =>
      let '(n, p) := match literals s f with Some x => x | None => (EmptyString, false) end in
      Lit n (negb p) s
  | SNot => (match nots s f with Some g => g | None => fzero end, s)
  | _ =>
      match notC s f with
      | Some g => (g, s)
      | None =>
          let i := negId (fid f) in
          let s1 := if nid s <? i then set_nid i s else s in
          let g := F SNot i in
          (g, set_nots (upd feqb (nots s1) g (Some f))
              (set_notC (upd feqb (notC s1) f (Some g)) s1))
      end
  end.

(** factory.go:274 Implication *)
Definition Implication (l r : formula) (s : state) : formula * state :=
  if feqb l ffalse || feqb r ftrue then (ftrue, s)
  else if feqb l ftrue then (r, s)
  else if feqb r ffalse || (fid l =? negId (fid r)) then Not l s
  else if negb (conserve s) && feqb l r then (ftrue, s)
  else match implC s (l, r) with
  | Some f => (f, s)
  | None =>
      let (i, s1) := nextPosId s in
      let f := F SImpl i in
      (f, set_impls (upd feqb (impls s1) f (Some (l, r)))
          (set_implC (upd peqb (implC s1) (l, r) (Some f)) s1))
  end.

(** factory.go:298 Equivalence *)
Definition Equivalence (l r : formula) (s : state) : formula * state :=
  if feqb l ftrue then (r, s)
  else if feqb r ftrue then (l, s)
  else if feqb l ffalse then Not r s
  else if feqb r ffalse then Not l s
  else if negb (conserve s) && feqb l r then (ftrue, s)
  else if negb (conserve s) && (fid l =? negId (fid r)) then (ffalse, s)
  else match equivC s (l, r) with
  | Some f => (f, s)
  | None =>
      let (i, s1) := nextPosId s in
      let f := F SEquiv i in
      (f, set_equivs (upd feqb (equivs s1) f (Some (l, r)))
          (set_equivC (upd peqb (equivC s1) (l, r) (Some f)) s1))
  end.

(** factory.go:764 containsComplement *)
Definition containsComplement (s : state) (cache : list N) (f : formula) : bool :=
  if conserve s then false else existsb (N.eqb (negId (fid f))) cache.

(** factory.go:790 isCNFClause *)
Definition isCNFClause (s : state) (f : formula) : bool :=
  match srt f with
  | SLit => true
  | SOr => forallb (fun op => fsort_eqb (srt op) SLit) (getops (ors s) f)
  | _ => false
  end.

(** Result of one call of addFormulaAnd/addFormulaOr: the byte 0x00 is [None];
    otherwise the updated opCache and ops, and whether the byte was 0x01. *)
(** factory.go:555 addFormulaAnd.  The opCache map is the list of its keys. *)
Definition addFormulaAnd (s : state) (cache : list N) (ops : list formula) (f : formula)
  : option (list N * list formula * bool) :=
  if feqb f ftrue then Some (cache, ops, true)
  else if feqb f ffalse || containsComplement s cache f then None
  else
    let '(c', o') := if existsb (N.eqb (fid f)) cache then (cache, ops)
                     else (fid f :: cache, ops ++ [f]) in
    Some (c', o', isCNFClause s f).

(** factory.go:609 addFormulaOr *)
Definition addFormulaOr (s : state) (cache : list N) (ops : list formula) (f : formula)
  : option (list N * list formula * bool) :=
  if feqb f ffalse then Some (cache, ops, true)
  else if feqb f ftrue || containsComplement s cache f then None
  else
    let '(c', o') := if existsb (N.eqb (fid f)) cache then (cache, ops)
                     else (fid f :: cache, ops ++ [f]) in
    Some (c', o', fsort_eqb (srt f) SLit).

(** factory.go:518, 572: the loop bodies of condenseOperandsAnd / condenseOperandsOr on the
    flattened operand list.  [None] is the contradiction / tautology exit. *)
Fixpoint condenseLoop (add : list N -> list formula -> formula -> option (list N * list formula * bool))
  (cache : list N) (ops : list formula) (cnf : bool) (l : list formula) : option (list formula * bool) :=
  match l with
  | [] => Some (ops, cnf)
  | f :: r =>
      match add cache ops f with
      | None => None
      | Some (c', o', b) => condenseLoop add c' o' (cnf && b) r
      end
  end.

(** one-level flattening of operands of the same sort, factory.go:531-541 / 585-595 *)
Definition flattenOps (k : fsort) (m : formula -> option (list formula)) (ops : list formula) : list formula :=
  flat_map (fun f => if fsort_eqb (srt f) k then getops m f else [f]) ops.

Definition condenseAnd (s : state) (ops : list formula) : option (list formula * bool) :=
  condenseLoop (addFormulaAnd s) [] [] true (flattenOps SAnd (ands s) ops).
Definition condenseOr (s : state) (ops : list formula) : option (list formula * bool) :=
  condenseLoop (addFormulaOr s) [] [] true (flattenOps SOr (ors s) ops).

(** factory.go:806 setCNFCaches *)
Definition setCNFCaches (f : formula) (isCnf : bool) (s : state) : state :=
  if isCnf then setTrans TransCNF f f (setPred PredCNF f true s)
  else setPred PredCNF f false s.

(** allocation of a new conjunction / disjunction, factory.go:359-363 / 385-389 / 415-419 / 441-445 *)
Definition allocAnd (h : N) (ops : list formula) (isCnf : bool) (s : state) : formula * state :=
  let (i, s1) := nextPosId s in
  let f := F SAnd i in
  let s2 := setCNFCaches f isCnf s1 in
  (f, set_ands (upd feqb (ands s2) f (Some ops))
      (set_andC (upd N.eqb (andC s2) h (andC s2 h ++ [f])) s2)).
Definition allocOr (h : N) (ops : list formula) (isCnf : bool) (s : state) : formula * state :=
  let (i, s1) := nextPosId s in
  let f := F SOr i in
  let s2 := setCNFCaches f isCnf s1 in
  (f, set_ors (upd feqb (ors s2) f (Some ops))
      (set_orC (upd N.eqb (orC s2) h (orC s2 h ++ [f])) s2)).

(** factory.go:343 And *)
Definition And (ops : list formula) (s : state) : formula * state :=
  match findAnd (hashOperands ops) ops s with
  | Some f => (f, s)
  | None =>
      match condenseAnd s ops with
      | None => (ffalse, s)
      | Some ([], _) => (ftrue, s)
      | Some ([f], _) => (f, s)
      | Some (cond, isCnf) =>
          match findAnd (hashOperands cond) cond s with
          | Some f => (f, s)
          | None => allocAnd (hashOperands cond) cond isCnf s
          end
      end
  end.

(** factory.go:399 Or *)
Definition Or (ops : list formula) (s : state) : formula * state :=
  match findOr (hashOperands ops) ops s with
  | Some f => (f, s)
  | None =>
      match condenseOr s ops with
      | None => (ftrue, s)
      | Some ([], _) => (ffalse, s)
      | Some ([f], _) => (f, s)
      | Some (cond, isCnf) =>
          match findOr (hashOperands cond) cond s with
          | Some f => (f, s)
          | None => allocOr (hashOperands cond) cond isCnf s
          end
      end
  end.

(** factory.go:374 Minterm *)
Definition Minterm (ops : list formula) (s : state) : formula * state :=
  match findAnd (hashOperands ops) ops s with
  | Some f => (f, s)
  | None =>
      match ops with
      | [] => (ftrue, s)
      | [f] => (f, s)
      | _ => allocAnd (hashOperands ops) ops true s
      end
  end.

(** factory.go:430 Clause *)
Definition Clause (ops : list formula) (s : state) : formula * state :=
  match findOr (hashOperands ops) ops s with
  | Some f => (f, s)
  | None =>
      match ops with
      | [] => (ffalse, s)
      | [f] => (f, s)
      | _ => allocOr (hashOperands ops) ops true s
      end
  end.

(** factory.go:166 Constant *)
Definition Constant (b : bool) : formula := if b then ftrue else ffalse.

(** factory.go:773 evaluateTrivialPBConstraint *)
Definition evaluateTrivial (c : cmp) (rhs : Z) : bool :=
  match c with
  | EQ => Z.eqb rhs 0 | LE => Z.leb 0 rhs | LT => Z.ltb 0 rhs
  | GE => Z.leb rhs 0 | GT => Z.ltb rhs 0
  end.

(** formula/formula.go:72 IsPos (also 261) *)
Definition isPos (f : formula) : bool := N.odd (fid f).

(** factory.go:680 isCC *)
Definition isCC (c : cmp) (rhs : Z) (ls : list formula) (cs : list Z) : bool :=
  forallb isPos ls && forallb (Z.eqb 1) cs &&
  match c with
  | LE | GE | GT | EQ => Z.leb 0 rhs
  | LT => Z.leb 1 rhs
  end.

(** factory.go:700 constructCC *)
Definition constructCC (c : cmp) (rhs : Z) (vars : list formula) (s : state) : formula * state :=
  match vars with
  | [] => (Constant (evaluateTrivial c rhs), s)
  | _ =>
      let p := Pbc vars (map (fun _ => 1%Z) vars) rhs c in
      match findCC (hashPbc p) p s with
      | Some f => (f, s)
      | None =>
          let (i, s1) := nextPosId s in
          let f := F SCC i in
          (f, set_ccs (upd feqb (ccs s1) f (Some p))
              (set_ccC (upd N.eqb (ccC s1) (hashPbc p) (ccC s1 (hashPbc p) ++ [f])) s1))
      end
  end.

(** factory.go:724 constructPBC *)
Definition constructPBC (c : cmp) (rhs : Z) (ls : list formula) (cs : list Z) (s : state) : formula * state :=
  match ls with
  | [] => (Constant (evaluateTrivial c rhs), s)
  | _ =>
      let p := Pbc ls cs rhs c in
      match findPBC (hashPbc p) p s with
      | Some f => (f, s)
      | None =>
          let (i, s1) := nextPosId s in
          let f := F SPBC i in
          (f, set_pbcs (upd feqb (pbcs s1) f (Some p))
              (set_pbcC (upd N.eqb (pbcC s1) (hashPbc p) (pbcC s1 (hashPbc p) ++ [f])) s1))
      end
  end.

(** factory.go:454 CC (rhs is a uint32), 459 AMO, 464 EXO *)
Definition CC (c : cmp) (rhs : N) (vars : list formula) : state -> formula * state := constructCC c (Z.of_N rhs) vars.
Definition AMO (vars : list formula) : state -> formula * state := constructCC LE 1 vars.
Definition EXO (vars : list formula) : state -> formula * state := constructCC EQ 1 vars.

(** factory.go:473 PBC *)
Definition PBC (c : cmp) (rhs : Z) (ls : list formula) (cs : list Z) (s : state) : formula * state :=
  match ls with
  | [] => (Constant (evaluateTrivial c rhs), s)
  | _ => if isCC c rhs ls cs then constructCC c rhs ls s else constructPBC c rhs ls cs s
  end.

(** factory.go:262 BinaryOperator, 328 NaryOperator; [None] is the error *)
Definition BinaryOperator (k : fsort) (l r : formula) (s : state) : option (formula * state) :=
  match k with
  | SImpl => Some (Implication l r s)
  | SEquiv => Some (Equivalence l r s)
  | _ => None
  end.
Definition NaryOperator (k : fsort) (ops : list formula) (s : state) : option (formula * state) :=
  match k with
  | SAnd => Some (And ops s)
  | SOr => Some (Or ops s)
  | _ => None
  end.

(** accessors: factory.go:817, 827, 838, 851, 862, 881, 900, 922; [None] is ok = false *)
Definition VarName (v : formula) (s : state) : option string := option_map fst (literals s v).
Definition LitNamePhase (l : formula) (s : state) : option (string * bool) := literals s l.
Definition LiteralNamePhase (f : formula) (s : state) : option (string * bool) :=
  match srt f with SLit => literals s f | _ => None end.
Definition NotOperand (f : formula) (s : state) : option formula := nots s f.
Definition BinaryLeftRight (f : formula) (s : state) : option (formula * formula) :=
  match srt f with SImpl => impls s f | SEquiv => equivs s f | _ => None end.
Definition NaryOperands (f : formula) (s : state) : option (list formula) :=
  match srt f with SAnd => ands s f | SOr => ors s f | _ => None end.
Definition PBCOps (f : formula) (s : state) : option pbc :=
  match srt f with SCC => ccs s f | SPBC => pbcs s f | _ => None end.
Definition getpair (m : formula -> option (formula * formula)) (f : formula) : formula * formula :=
  match m f with Some p => p | None => (fzero, fzero) end.
Definition Operands (f : formula) (s : state) : list formula :=
  match srt f with
  | SFalse | STrue | SLit | SCC | SPBC => []
  | SNot => [match nots s f with Some g => g | None => fzero end]
  | SImpl => let (l, r) := getpair (impls s) f in [l; r]
  | SEquiv => let (l, r) := getpair (equivs s) f in [l; r]
  | SAnd => getops (ands s) f
  | SOr => getops (ors s) f
  end.

(** formula/formula.go:299-305 *)
Definition auxPrefix (k : auxsort) : string :=
  match k with
  | AuxCNF => "@RESERVED_CNF_"
  | AuxCC => "@RESERVED_CC_"
  | AuxPBC => "@RESERVED_PBC_"
  end%string.
(** fmt.Sprintf("%s%d", sort, n) *)
Definition auxName (k : auxsort) (n : N) : string :=
  (auxPrefix k ++ NilEmpty.string_of_uint (N.to_uint n))%string.

(** factory.go:955 NewAuxVar *)
Definition NewAuxVar (k : auxsort) (s : state) : formula * state :=
  let (v, s1) := Var (auxName k (auxCtr s k)) s in
  (v, set_auxCtr (upd auxsort_beq (auxCtr s1) k (auxCtr s1 k + 1)) s1).

(** formula/formula.go:51 Variable.Negate, 90 Literal.Negate, 82 Literal.Variable *)
Definition negateVar (v : formula) (s : state) : formula * state :=
  Lit (match VarName v s with Some n => n | None => EmptyString end) false s.
Definition negateLit (l : formula) (s : state) : formula * state :=
  let '(n, p) := match LitNamePhase l s with Some x => x | None => (EmptyString, false) end in
  Lit n (negb p) s.
Definition litVariable (l : formula) : formula :=
  if isPos l then l else F SLit (negId (fid l)).
