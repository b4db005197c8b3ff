(** * Model of the queries on BDDs (bdd/operation.go, bdd/function.go, bdd/bdd.go 220-490) *)
From Coq Require Import List Bool ZArith.
From Verif Require Import Spec Factory Assign NormalForm Bdd BddApi.
Import ListNotations.
Local Open Scope Z_scope.

(** ** Paths to a terminal *)
(** A profile is a slice of bytes with one entry per variable index. *)
Definition profSet (i x : Z) (p : Z -> Z) : K (Z -> Z) := fun k => if (0 <=? i) && (i <? varnum k) then Ok (upd p i x) k else Bad.
(** operation.go 110-112, 133-135, 140-142: for v := hi-1; v > lo; v-- *)
Fixpoint profSkip (cnt : nat) (v : Z) (p : Z -> Z) : K (Z -> Z) :=
  match cnt with O => kret p | S c => i <~ gets (fun k => level2var k v); p <~ profSet i 2 p; profSkip c (v - 1) p end.
Definition profBetween (hi lo : Z) (p : Z -> Z) : K (Z -> Z) := profSkip (Z.to_nat (hi - lo - 1)) (hi - 1) p.
(** operation.go 119-146 allSatRec with [tgt] = 1, 160-187 allUnsatRec with [tgt] = 0; the result
    is the content of the shared profile slice and the list of the copies made *)
Fixpoint allPathsRec (d : nat) (tgt r : Z) (p : Z -> Z) (acc : list (Z -> Z)) : K ((Z -> Z) * list (Z -> Z)) :=
  match d with
  | O => bad
  | S d =>
    if r =? tgt then kret (p, acc ++ [p])
    else if r =? 1 - tgt then kret (p, acc)
    else
      l <~ low r; lv <~ level r;
      x <~ (if negb (l =? 1 - tgt) then
          i <~ gets (fun k => level2var k lv); p <~ profSet i 0 p; ll <~ level l; p <~ profBetween ll lv p; allPathsRec d tgt l p acc
        else kret (p, acc));
      h <~ high r;
      if negb (h =? 1 - tgt) then
        i <~ gets (fun k => level2var k lv); p <~ profSet i 1 (fst x); lh <~ level h; p <~ profBetween lh lv p; allPathsRec d tgt h p (snd x)
      else kret x
  end.
(** operation.go 107-117 allSat, 148-158 allUnsat *)
Definition allPaths (tgt r : Z) : K (list (Z -> Z)) :=
  lv <~ level r; p <~ profBetween lv (-1) (fun _ => 0);
  initRef ~; k <~ get; x <~ allPathsRec (maxdepth k) tgt r p []; kret (snd x).

(** ** Formulas *)
(** function.go 79-98: the literals of a path, [i] the next index, [cnt] the number of indices
    left.  An unknown index gives the variable 0 in the code, here a panic. *)
Fixpoint pathLiterals (k : kernel) (cnf : bool) (path : Z -> Z) (cnt : nat) (i : Z) : M (list formula) :=
  match cnt with
  | O => ret []
  | S c =>
    if path i =? 2 then pathLiterals k cnf path c (i + 1)
    else
      match getVariableForIndex k i with
      | None => fun _ => None
      | Some v =>
        l <- (if Bool.eqb (path i =? 0) cnf then ret v else up (negateVar v)) ;;
        r <- pathLiterals k cnf path c (i + 1) ;; ret (l :: r)
      end
  end.
(** function.go 75-110 *)
Definition pathTerm (k : kernel) (cnf : bool) (path : Z -> Z) : M formula :=
  ls <- pathLiterals k cnf path (Z.to_nat (varnum k)) 0 ;; up (if cnf then Clause ls else Minterm ls).
Definition bddNormalform (cnf : bool) (b : Z) : C formula :=
  ps <== onK (allPaths (if cnf then 0 else 1) b) ;;
  k <== onK get ;;
  ts <== onM (mapM (pathTerm k cnf) ps) ;;
  onM (up (if cnf then And ts else Or ts)).
(** bdd.go 320-328 *)
Definition bddCNF : Z -> C formula := bddNormalform true.
Definition bddDNF : Z -> C formula := bddNormalform false.

(** operation.go 412-414 *)
Definition isRelevant (r : Z) (follow : bool) : bool := follow && negb (isZero r) || negb follow && negb (isOne r).
(** operation.go 386-410 *)
Fixpoint toFormulaRec (d : nat) (r : Z) (follow : bool) : C formula :=
  match d with
  | O => fun _ _ => CPanic
  | S d =>
    if isOne r then cret (if follow then ftrue else ffalse)
    else if isZero r then cret (if follow then ffalse else ftrue)
    else
      lv <== onK (level r) ;; vo <== onK (gets (fun k => getVariableForIndex k (level2var k lv))) ;;
      l <== onK (low r) ;; h <== onK (high r) ;;
      match vo with
      | None => fun _ _ => CPanic
      | Some v =>
        lf <== (if isRelevant l follow then nv <== onM (up (negateVar v)) ;; g <== toFormulaRec d l follow ;; onM (up (And [nv; g])) else cret ffalse) ;;
        hf <== (if isRelevant h follow then g <== toFormulaRec d h follow ;; onM (up (And [v; g])) else cret ffalse) ;;
        onM (up (Or [lf; hf]))
      end
  end.
(** operation.go 377-384; bdd.go 229-237, where [args] are the variadic arguments *)
Definition toFormula (r : Z) (follow : bool) : C formula :=
  _ <== onK initRef ;; k <== onK get ;; f <== toFormulaRec (maxdepth k) r follow ;;
  if follow then cret f else onM (up (Not f)).
Definition bddToFormula (b : Z) (args : list bool) : C formula :=
  toFormula b (if (1 <? List.length args)%nat then hd true args else true).

(** ** Enumeration: function.go 11-63 *)
Fixpoint sameModel (m m' : list formula) : bool :=
  match m, m' with [], [] => true | a :: r, b :: r' => feqb a b && sameModel r r' | _, _ => false end.
(** function.go 28-47: the model of a profile without don't cares *)
Fixpoint modelOf (k : kernel) (path : Z -> Z) (is : list Z) : M (list formula) :=
  match is with
  | [] => ret []
  | i :: r =>
    match getVariableForIndex k i with
    | None => fun _ => None
    | Some v => l <- (if path i =? 0 then up (negateVar v) else ret v) ;; ls <- modelOf k path r ;; ret (l :: ls)
    end
  end.
(** function.go 26-54; [rest] are the relevant indices from position on *)
Fixpoint generateAllModels (k : kernel) (all : list Z) (rest : list Z) (path : Z -> Z) (models : list (list formula)) : M (list (list formula)) :=
  match rest with
  | [] => m <- modelOf k path all ;; ret (if existsb (fun m' => sameModel m' m) models then models else models ++ [m])
  | i :: r =>
    if negb (path i =? 2) then generateAllModels k all r path models
    else models <- generateAllModels k all r (upd path i 0) models ;; generateAllModels k all r (upd path i 1) models
  end.
Fixpoint generateLoop (k : kernel) (all : list Z) (paths : list (Z -> Z)) (models : list (list formula)) : M (list (list formula)) :=
  match paths with
  | [] => ret models
  | p :: r => models <- generateAllModels k all all p models ;; generateLoop k all r models
  end.
Definition relevantIndices (k : kernel) (vs : list formula) : list Z :=
  flat_map (fun v => match indexOf v (vlist k) 0 with Some i => [i] | None => [] end) vs.
Definition bddModelEnumeration (b : Z) (vs : list formula) : C (list (list formula)) :=
  ps <== onK (allPaths 1 b) ;; k <== onK get ;; onM (generateLoop k (relevantIndices k vs) ps []).

(** ** Counts *)
(** kernel.go 27-29 *)
Definition cacheidSatcou : Z := 2.
Definition cacheidPathcou (tgt : Z) : Z := if tgt =? 1 then 4 else 8.
(** math/big: a new number; [bigs] maps pointers to the numbers they point to *)
Definition newBig (x : Z) : K Z := fun k => Ok (bignext k) (with_bignext (bignext k + 1) (with_bigs (upd (bigs k) (bignext k) x) k)).
Definition bigOf (p : Z) : K Z := gets (fun k => bigs k p).
Definition setBig (p x : Z) : K unit := modify (fun k => with_bigs (upd (bigs k) p x) k).
(** fill the cache entry [i] (operation.go 206-208, 228-230, 252-254) *)
Definition setMisc (i a c p : Z) : K unit :=
  modify (fun k => with_misccache (upd (misccache k) i (Entry a (e_b (misccache k i)) c p (e_res (misccache k i)))) k).
(** operation.go 189-210; the result is a pointer *)
Fixpoint satCountRec (d : nat) (root : Z) : K Z :=
  match d with
  | O => bad
  | S d =>
    if root <? 2 then newBig root
    else
      i <~ gets (fun k => cacheIndex k root); e <~ gets (fun k => misccache k i);
      if (e_a e =? root) && (e_c e =? cacheidSatcou) then kret (e_big e)
      else
        l <~ low root; ll <~ level l; lv <~ level root; p <~ satCountRec d l; x <~ bigOf p;
        h <~ high root; lh <~ level h; lv' <~ level root; q <~ satCountRec d h; y <~ bigOf q;
        r <~ newBig (2 ^ (ll - lv - 1) * x + 2 ^ (lh - lv' - 1) * y);
        setMisc i root cacheidSatcou r ~; kret r
  end.
(** operation.go 181-187: the number is multiplied in place *)
Definition satCount (r : Z) : K Z :=
  lv <~ level r; k <~ get; p <~ satCountRec (maxdepth k) r; x <~ bigOf p; setBig p (x * 2 ^ lv) ~; kret p.
(** operation.go 216-234 pathCountRecOne with [tgt] = 1, 240-258 pathCountRecZero with [tgt] = 0 *)
Fixpoint pathCountRec (d : nat) (tgt r : Z) : K Z :=
  match d with
  | O => bad
  | S d =>
    if isZero r then newBig (1 - tgt) else if isOne r then newBig tgt
    else
      i <~ gets (fun k => cacheIndex k r); e <~ gets (fun k => misccache k i);
      if (e_a e =? r) && (e_c e =? cacheidPathcou tgt) then kret (e_big e)
      else
        l <~ low r; p <~ pathCountRec d tgt l; h <~ high r; q <~ pathCountRec d tgt h;
        x <~ bigOf p; y <~ bigOf q; setBig p (x + y) ~;
        setMisc i r (cacheidPathcou tgt) p ~; kret p
  end.
(** operation.go 212-214, 236-238 *)
Definition pathCount (tgt r : Z) : K Z := k <~ get; pathCountRec (maxdepth k) tgt r.
(** bdd.go 309-312, 385-393; the number the client sees *)
Definition bddModelCount (b : Z) : K Z := p <~ satCount b; bigOf p.
Definition bddPathCountOne (b : Z) : K Z := p <~ pathCount 1 b; bigOf p.
Definition bddPathCountZero (b : Z) : K Z := p <~ pathCount 0 b; bigOf p.

(** ** Models *)
(** operation.go 22-32 *)
Fixpoint satOneRec (d : nat) (r : Z) : K Z :=
  match d with
  | O => bad
  | S d =>
    if isConst r then kret r
    else
      l <~ low r;
      if isZero l then h <~ high r; res <~ satOneRec d h; lv <~ level r; n <~ makeNode lv 0 res; pushRef n
      else res <~ satOneRec d l; lv <~ level r; n <~ makeNode lv res 0; pushRef n
  end.
(** operation.go 11-20 *)
Definition satOne (r : Z) : K Z := if r <? 2 then kret r else initRef ~; k <~ get; satOneRec (maxdepth k) r.
(** operation.go 47-72 *)
Fixpoint satOneSetRec (d : nat) (r v : Z) (pol : bool) : K Z :=
  match d with
  | O => bad
  | S d =>
    if isConst r && isConst v then kret r
    else
      lr <~ level r; lv <~ level v;
      if lr <? lv then
        l <~ low r;
        if isZero l then h <~ high r; res <~ satOneSetRec d h v pol; n <~ makeNode lr 0 res; pushRef n
        else res <~ satOneSetRec d l v pol; n <~ makeNode lr res 0; pushRef n
      else if lv <? lr then
        h <~ high v; res <~ satOneSetRec d r h pol;
        n <~ (if pol then makeNode lv 0 res else makeNode lv res 0); pushRef n
      else
        l <~ low r; hv <~ high v;
        if isZero l then h <~ high r; res <~ satOneSetRec d h hv pol; n <~ makeNode lr 0 res; pushRef n
        else res <~ satOneSetRec d l hv pol; n <~ makeNode lr res 0; pushRef n
  end.
(** operation.go 34-45 *)
Definition satOneSet (r v : Z) (pol : bool) : K Z := if isZero r then kret r else initRef ~; k <~ get; satOneSetRec (2 * maxdepth k) r v pol.
(** for v := hi-1; v > lo; v--: res = pushRef(makeNode(v, res, 0)) *)
Fixpoint fillNegative (cnt : nat) (v res : Z) : K Z :=
  match cnt with O => kret res | S c => n <~ makeNode v res 0; res <~ pushRef n; fillNegative c (v - 1) res end.
(** operation.go 89-105 *)
Fixpoint fullSatOneRec (d : nat) (r : Z) : K Z :=
  match d with
  | O => bad
  | S d =>
    if r <? 2 then kret r
    else
      l <~ low r;
      if negb (l =? 0) then
        res <~ fullSatOneRec d l; ll <~ level l; lv <~ level r; res <~ fillNegative (Z.to_nat (ll - lv - 1)) (ll - 1) res;
        n <~ makeNode lv res 0; pushRef n
      else
        h <~ high r; res <~ fullSatOneRec d h; lh <~ level h; lv <~ level r; res <~ fillNegative (Z.to_nat (lh - lv - 1)) (lh - 1) res;
        n <~ makeNode lv 0 res; pushRef n
  end.
(** operation.go 74-87 *)
Definition fullSatOne (r : Z) : K Z :=
  if r =? 0 then kret 0
  else initRef ~; k <~ get; res <~ fullSatOneRec (maxdepth k) r; lv <~ level r; fillNegative (Z.to_nat lv) (lv - 1) res.
(** operation.go 363-375: the marked nodes with their variable index and children *)
Definition allNodes (r : Z) : K (list (Z * (Z * (Z * Z)))) :=
  if r <? 2 then kret []
  else
    k <~ get; mark (maxdepth k) r ~;
    fold_left (fun acc n => l <~ acc; m <~ marked n;
        if m then unmarkNode n ~; lv <~ level n; i <~ gets (fun k => level2var k lv); lo <~ low n; hi <~ high n; kret (l ++ [(n, (i, (lo, hi)))]) else kret l)
      (map Z.of_nat (seq 0 (Z.to_nat (nodesize k)))) (kret []).
(** bdd.go 464-485; [None] is the error "the BDD has no model" *)
Fixpoint modelLits (k : kernel) (nodes : list (Z * (Z * (Z * Z)))) : M (list formula) :=
  match nodes with
  | [] => ret []
  | (_, (i, (lo, hi))) :: r =>
    match getVariableForIndex k i with
    | None => fun _ => None
    | Some v =>
      l <- (if lo =? 0 then ret v else if hi =? 0 then up (negateVar v) else fun _ => None) ;;
      ls <- modelLits k r ;; ret (l :: ls)
    end
  end.
Definition createModel (b : Z) : C (option (list formula)) :=
  if b =? 0 then cret None
  else if b =? 1 then cret (Some [])
  else nodes <== onK (allNodes b) ;; k <== onK get ;; ls <== onM (modelLits k nodes) ;; cret (Some ls).
(** bdd.go 357-383 *)
Definition bddModel (b : Z) : C (option (list formula)) := m <== onK (satOne b) ;; createModel m.
Definition bddModelWithVariables (b : Z) (dflt : bool) (vs : list formula) : C (option (list formula)) :=
  v <== onK (compileLiterals vs) ;; m <== onK (satOneSet b v dflt) ;; createModel m.
Definition bddFullModel (b : Z) : C (option (list formula)) := m <== onK (fullSatOne b) ;; createModel m.

(** ** Support *)
(** operation.go 287-302 *)
Fixpoint supportRec (d : nat) (r : Z) (sup : Z -> bool) (mx : Z) : K ((Z -> bool) * Z) :=
  match d with
  | O => bad
  | S d =>
    if r <? 2 then kret (sup, mx)
    else
      m <~ marked r; l <~ low r;
      if m || (l =? -1) then kret (sup, mx)
      else
        lv <~ level r; setMark r ~;
        x <~ supportRec d l (upd sup lv true) (if mx <? lv then lv else mx);
        h <~ high r; supportRec d h (fst x) (snd x)
  end.
(** operation.go 304-314 *)
Fixpoint unmark (d : nat) (i : Z) : K unit :=
  match d with
  | O => bad
  | S d =>
    if i <? 2 then kret tt
    else m <~ marked i; l <~ low i;
      if negb m || (l =? -1) then kret tt
      else unmarkNode i ~; l <~ low i; unmark d l ~; h <~ high i; unmark d h
  end.
(** operation.go 274-283: for n := max; n >= min; n-- *)
Fixpoint supportBdd (cnt : nat) (n res : Z) (sup : Z -> bool) : K Z :=
  match cnt with
  | O => kret res
  | S c =>
    if sup n then addRef res true ~; tmp <~ makeNode n 0 res; delRef res ~; supportBdd c (n - 1) tmp sup
    else supportBdd c (n - 1) res sup
  end.
(** operation.go 260-285 *)
Definition support (r : Z) : K Z :=
  if r <? 2 then kret 0
  else
    mn <~ level r; k <~ get; x <~ supportRec (maxdepth k) r (fun _ => false) mn; unmark (maxdepth k) r ~;
    supportBdd (Z.to_nat (snd x - mn + 1)) (snd x) 1 (fst x).
(** bdd.go 395-403: the positive literals of the model *)
Definition bddSupport (b : Z) : C (list formula) :=
  m <== onK (support b) ;; r <== createModel m ;; cret (match r with Some ls => filter isPos ls | None => [] end).
(** kernel.go 527-539 markCount, operation.go 316-320 *)
Fixpoint markCount (d : nat) (i : Z) : K Z :=
  match d with
  | O => bad
  | S d =>
    if i <? 2 then kret 0
    else m <~ marked i; l <~ low i;
      if m || (l =? -1) then kret 0
      else setMark i ~; l <~ low i; a <~ markCount d l; h <~ high i; b <~ markCount d h; kret (1 + a + b)
  end.
Definition bddNodeCount (b : Z) : K Z := k <~ get; c <~ markCount (maxdepth k) b; unmark (maxdepth k) b ~; kret c.
