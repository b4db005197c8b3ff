(** * Model of the BDD kernel: node table, garbage collection, operations
    (bdd/kernel.go, bdd/construction.go, bdd/operation.go, bdd/cache.go)

    Simplifications, for the whole file:
    - Node indices, levels and sizes are unbounded integers; only the hash functions wrap
      around at 32 bits like the int32 arithmetic of the code.
    - The mark bit of a level word (kernel.go 20-22, 0x200000) is a field of its own.
    - The new size of a grown node table comes from [grow].  The code takes the largest
      number below a bound that passes a randomized primality test (cache.go 51-77); the
      number of collections so far is passed to [grow] so that the sizes may differ from
      one time to the next.
    - Automatic reordering during the construction is off (the default, reordering.go 55),
      so the flag [reorder] of the recursive operations, always false then, is left out.
    - The kernel's counters of produced nodes are left out. *)
From Coq Require Import List Bool ZArith Lia.
From Verif Require Import Spec Factory.
Import ListNotations.
Local Open Scope Z_scope.

(** cache.go 9-15: one cache entry; [e_big] is the pointer to a big.Int *)
Record entry := Entry { e_a : Z; e_b : Z; e_c : Z; e_big : Z; e_res : Z }.
(** cache.go 17-19 *)
Definition newCacheEntry : entry := Entry (-1) 0 0 (-1) 0.

(** kernel.go 53-84: the kernel.  The node array is one function per field of a node
    (kernel.go 786-792); [cap] is the size of the reference stack, whose top is the head of
    the list; [bigs] is the heap of big.Int values. *)
Record kernel := Kernel {
  vlist : list formula;
  refcou : Z -> Z; levels : Z -> Z; marks : Z -> bool; lows : Z -> Z; highs : Z -> Z; hashes : Z -> Z; nexts : Z -> Z;
  varnodes : Z -> Z;
  gbcollectnum : Z; cachesize : Z; nodesize : Z; freepos : Z; freenum : Z; varnum : Z;
  refstack : list Z; cap : Z;
  level2var : Z -> Z; var2level : Z -> Z;
  quantvarset : Z -> Z; quantvarsetId : Z; quantlast : Z;
  applycache : Z -> entry; quantcache : Z -> entry; misccache : Z -> entry;
  bigs : Z -> Z; bignext : Z;
  grow : Z -> Z -> Z }.

(** The result of an operation: a value, the panic of kernel.go 513 (the node table is full
    and cannot grow), or any other panic. *)
Inductive outcome (A : Type) := Ok (a : A) (k : kernel) | Full | Bad.
Arguments Ok {A}. Arguments Full {A}. Arguments Bad {A}.
Definition K (A : Type) := kernel -> outcome A.
Definition kret {A} (a : A) : K A := fun k => Ok a k.
Definition kbind {A B} (m : K A) (f : A -> K B) : K B :=
  fun k => match m k with Ok a k' => f a k' | Full => Full | Bad => Bad end.
Notation "x <~ m ; k" := (kbind m (fun x => k)) (at level 61, m at next level, right associativity).
Notation "m ~; k" := (kbind m (fun _ => k)) (at level 61, right associativity).
Definition bad {A} : K A := fun _ => Bad.
Definition get : K kernel := fun k => Ok k k.
Definition put (k : kernel) : K unit := fun _ => Ok tt k.
Definition gets {A} (f : kernel -> A) : K A := fun k => Ok (f k) k.
Definition modify (f : kernel -> kernel) : K unit := fun k => Ok tt (f k).

Definition upd {A} (m : Z -> A) (i : Z) (v : A) : Z -> A := fun j => if j =? i then v else m j.

(** record updates *)
Definition with_vlist x (k : kernel) : kernel := Kernel x (refcou k) (levels k) (marks k) (lows k) (highs k) (hashes k) (nexts k) (varnodes k) (gbcollectnum k) (cachesize k) (nodesize k) (freepos k) (freenum k) (varnum k) (refstack k) (cap k) (level2var k) (var2level k) (quantvarset k) (quantvarsetId k) (quantlast k) (applycache k) (quantcache k) (misccache k) (bigs k) (bignext k) (grow k).
Definition with_refcou x (k : kernel) : kernel := Kernel (vlist k) x (levels k) (marks k) (lows k) (highs k) (hashes k) (nexts k) (varnodes k) (gbcollectnum k) (cachesize k) (nodesize k) (freepos k) (freenum k) (varnum k) (refstack k) (cap k) (level2var k) (var2level k) (quantvarset k) (quantvarsetId k) (quantlast k) (applycache k) (quantcache k) (misccache k) (bigs k) (bignext k) (grow k).
Definition with_levels x (k : kernel) : kernel := Kernel (vlist k) (refcou k) x (marks k) (lows k) (highs k) (hashes k) (nexts k) (varnodes k) (gbcollectnum k) (cachesize k) (nodesize k) (freepos k) (freenum k) (varnum k) (refstack k) (cap k) (level2var k) (var2level k) (quantvarset k) (quantvarsetId k) (quantlast k) (applycache k) (quantcache k) (misccache k) (bigs k) (bignext k) (grow k).
Definition with_marks x (k : kernel) : kernel := Kernel (vlist k) (refcou k) (levels k) x (lows k) (highs k) (hashes k) (nexts k) (varnodes k) (gbcollectnum k) (cachesize k) (nodesize k) (freepos k) (freenum k) (varnum k) (refstack k) (cap k) (level2var k) (var2level k) (quantvarset k) (quantvarsetId k) (quantlast k) (applycache k) (quantcache k) (misccache k) (bigs k) (bignext k) (grow k).
Definition with_lows x (k : kernel) : kernel := Kernel (vlist k) (refcou k) (levels k) (marks k) x (highs k) (hashes k) (nexts k) (varnodes k) (gbcollectnum k) (cachesize k) (nodesize k) (freepos k) (freenum k) (varnum k) (refstack k) (cap k) (level2var k) (var2level k) (quantvarset k) (quantvarsetId k) (quantlast k) (applycache k) (quantcache k) (misccache k) (bigs k) (bignext k) (grow k).
Definition with_highs x (k : kernel) : kernel := Kernel (vlist k) (refcou k) (levels k) (marks k) (lows k) x (hashes k) (nexts k) (varnodes k) (gbcollectnum k) (cachesize k) (nodesize k) (freepos k) (freenum k) (varnum k) (refstack k) (cap k) (level2var k) (var2level k) (quantvarset k) (quantvarsetId k) (quantlast k) (applycache k) (quantcache k) (misccache k) (bigs k) (bignext k) (grow k).
Definition with_hashes x (k : kernel) : kernel := Kernel (vlist k) (refcou k) (levels k) (marks k) (lows k) (highs k) x (nexts k) (varnodes k) (gbcollectnum k) (cachesize k) (nodesize k) (freepos k) (freenum k) (varnum k) (refstack k) (cap k) (level2var k) (var2level k) (quantvarset k) (quantvarsetId k) (quantlast k) (applycache k) (quantcache k) (misccache k) (bigs k) (bignext k) (grow k).
Definition with_nexts x (k : kernel) : kernel := Kernel (vlist k) (refcou k) (levels k) (marks k) (lows k) (highs k) (hashes k) x (varnodes k) (gbcollectnum k) (cachesize k) (nodesize k) (freepos k) (freenum k) (varnum k) (refstack k) (cap k) (level2var k) (var2level k) (quantvarset k) (quantvarsetId k) (quantlast k) (applycache k) (quantcache k) (misccache k) (bigs k) (bignext k) (grow k).
Definition with_varnodes x (k : kernel) : kernel := Kernel (vlist k) (refcou k) (levels k) (marks k) (lows k) (highs k) (hashes k) (nexts k) x (gbcollectnum k) (cachesize k) (nodesize k) (freepos k) (freenum k) (varnum k) (refstack k) (cap k) (level2var k) (var2level k) (quantvarset k) (quantvarsetId k) (quantlast k) (applycache k) (quantcache k) (misccache k) (bigs k) (bignext k) (grow k).
Definition with_gbcollectnum x (k : kernel) : kernel := Kernel (vlist k) (refcou k) (levels k) (marks k) (lows k) (highs k) (hashes k) (nexts k) (varnodes k) x (cachesize k) (nodesize k) (freepos k) (freenum k) (varnum k) (refstack k) (cap k) (level2var k) (var2level k) (quantvarset k) (quantvarsetId k) (quantlast k) (applycache k) (quantcache k) (misccache k) (bigs k) (bignext k) (grow k).
Definition with_nodesize x (k : kernel) : kernel := Kernel (vlist k) (refcou k) (levels k) (marks k) (lows k) (highs k) (hashes k) (nexts k) (varnodes k) (gbcollectnum k) (cachesize k) x (freepos k) (freenum k) (varnum k) (refstack k) (cap k) (level2var k) (var2level k) (quantvarset k) (quantvarsetId k) (quantlast k) (applycache k) (quantcache k) (misccache k) (bigs k) (bignext k) (grow k).
Definition with_freepos x (k : kernel) : kernel := Kernel (vlist k) (refcou k) (levels k) (marks k) (lows k) (highs k) (hashes k) (nexts k) (varnodes k) (gbcollectnum k) (cachesize k) (nodesize k) x (freenum k) (varnum k) (refstack k) (cap k) (level2var k) (var2level k) (quantvarset k) (quantvarsetId k) (quantlast k) (applycache k) (quantcache k) (misccache k) (bigs k) (bignext k) (grow k).
Definition with_freenum x (k : kernel) : kernel := Kernel (vlist k) (refcou k) (levels k) (marks k) (lows k) (highs k) (hashes k) (nexts k) (varnodes k) (gbcollectnum k) (cachesize k) (nodesize k) (freepos k) x (varnum k) (refstack k) (cap k) (level2var k) (var2level k) (quantvarset k) (quantvarsetId k) (quantlast k) (applycache k) (quantcache k) (misccache k) (bigs k) (bignext k) (grow k).
Definition with_varnum x (k : kernel) : kernel := Kernel (vlist k) (refcou k) (levels k) (marks k) (lows k) (highs k) (hashes k) (nexts k) (varnodes k) (gbcollectnum k) (cachesize k) (nodesize k) (freepos k) (freenum k) x (refstack k) (cap k) (level2var k) (var2level k) (quantvarset k) (quantvarsetId k) (quantlast k) (applycache k) (quantcache k) (misccache k) (bigs k) (bignext k) (grow k).
Definition with_refstack x (k : kernel) : kernel := Kernel (vlist k) (refcou k) (levels k) (marks k) (lows k) (highs k) (hashes k) (nexts k) (varnodes k) (gbcollectnum k) (cachesize k) (nodesize k) (freepos k) (freenum k) (varnum k) x (cap k) (level2var k) (var2level k) (quantvarset k) (quantvarsetId k) (quantlast k) (applycache k) (quantcache k) (misccache k) (bigs k) (bignext k) (grow k).
Definition with_level2var x (k : kernel) : kernel := Kernel (vlist k) (refcou k) (levels k) (marks k) (lows k) (highs k) (hashes k) (nexts k) (varnodes k) (gbcollectnum k) (cachesize k) (nodesize k) (freepos k) (freenum k) (varnum k) (refstack k) (cap k) x (var2level k) (quantvarset k) (quantvarsetId k) (quantlast k) (applycache k) (quantcache k) (misccache k) (bigs k) (bignext k) (grow k).
Definition with_var2level x (k : kernel) : kernel := Kernel (vlist k) (refcou k) (levels k) (marks k) (lows k) (highs k) (hashes k) (nexts k) (varnodes k) (gbcollectnum k) (cachesize k) (nodesize k) (freepos k) (freenum k) (varnum k) (refstack k) (cap k) (level2var k) x (quantvarset k) (quantvarsetId k) (quantlast k) (applycache k) (quantcache k) (misccache k) (bigs k) (bignext k) (grow k).
Definition with_quantvarset x (k : kernel) : kernel := Kernel (vlist k) (refcou k) (levels k) (marks k) (lows k) (highs k) (hashes k) (nexts k) (varnodes k) (gbcollectnum k) (cachesize k) (nodesize k) (freepos k) (freenum k) (varnum k) (refstack k) (cap k) (level2var k) (var2level k) x (quantvarsetId k) (quantlast k) (applycache k) (quantcache k) (misccache k) (bigs k) (bignext k) (grow k).
Definition with_quantvarsetId x (k : kernel) : kernel := Kernel (vlist k) (refcou k) (levels k) (marks k) (lows k) (highs k) (hashes k) (nexts k) (varnodes k) (gbcollectnum k) (cachesize k) (nodesize k) (freepos k) (freenum k) (varnum k) (refstack k) (cap k) (level2var k) (var2level k) (quantvarset k) x (quantlast k) (applycache k) (quantcache k) (misccache k) (bigs k) (bignext k) (grow k).
Definition with_quantlast x (k : kernel) : kernel := Kernel (vlist k) (refcou k) (levels k) (marks k) (lows k) (highs k) (hashes k) (nexts k) (varnodes k) (gbcollectnum k) (cachesize k) (nodesize k) (freepos k) (freenum k) (varnum k) (refstack k) (cap k) (level2var k) (var2level k) (quantvarset k) (quantvarsetId k) x (applycache k) (quantcache k) (misccache k) (bigs k) (bignext k) (grow k).
Definition with_applycache x (k : kernel) : kernel := Kernel (vlist k) (refcou k) (levels k) (marks k) (lows k) (highs k) (hashes k) (nexts k) (varnodes k) (gbcollectnum k) (cachesize k) (nodesize k) (freepos k) (freenum k) (varnum k) (refstack k) (cap k) (level2var k) (var2level k) (quantvarset k) (quantvarsetId k) (quantlast k) x (quantcache k) (misccache k) (bigs k) (bignext k) (grow k).
Definition with_quantcache x (k : kernel) : kernel := Kernel (vlist k) (refcou k) (levels k) (marks k) (lows k) (highs k) (hashes k) (nexts k) (varnodes k) (gbcollectnum k) (cachesize k) (nodesize k) (freepos k) (freenum k) (varnum k) (refstack k) (cap k) (level2var k) (var2level k) (quantvarset k) (quantvarsetId k) (quantlast k) (applycache k) x (misccache k) (bigs k) (bignext k) (grow k).
Definition with_misccache x (k : kernel) : kernel := Kernel (vlist k) (refcou k) (levels k) (marks k) (lows k) (highs k) (hashes k) (nexts k) (varnodes k) (gbcollectnum k) (cachesize k) (nodesize k) (freepos k) (freenum k) (varnum k) (refstack k) (cap k) (level2var k) (var2level k) (quantvarset k) (quantvarsetId k) (quantlast k) (applycache k) (quantcache k) x (bigs k) (bignext k) (grow k).
Definition with_bigs x (k : kernel) : kernel := Kernel (vlist k) (refcou k) (levels k) (marks k) (lows k) (highs k) (hashes k) (nexts k) (varnodes k) (gbcollectnum k) (cachesize k) (nodesize k) (freepos k) (freenum k) (varnum k) (refstack k) (cap k) (level2var k) (var2level k) (quantvarset k) (quantvarsetId k) (quantlast k) (applycache k) (quantcache k) (misccache k) x (bignext k) (grow k).
Definition with_bignext x (k : kernel) : kernel := Kernel (vlist k) (refcou k) (levels k) (marks k) (lows k) (highs k) (hashes k) (nexts k) (varnodes k) (gbcollectnum k) (cachesize k) (nodesize k) (freepos k) (freenum k) (varnum k) (refstack k) (cap k) (level2var k) (var2level k) (quantvarset k) (quantvarsetId k) (quantlast k) (applycache k) (quantcache k) (misccache k) (bigs k) x (grow k).

(** ** Accessors (kernel.go 627-720), with the bounds check of a slice access *)
Definition inRange (k : kernel) (n : Z) : bool := (0 <=? n) && (n <? nodesize k).
Definition rd {A} (f : kernel -> Z -> A) (n : Z) : K A := fun k => if inRange k n then Ok (f k n) k else Bad.
Definition wr {A} (f : kernel -> Z -> A) (w : (Z -> A) -> kernel -> kernel) (n : Z) (v : A) : K unit :=
  fun k => if inRange k n then Ok tt (w (upd (f k) n v) k) else Bad.
Definition level := rd levels.
Definition low := rd lows.
Definition high := rd highs.
Definition hash := rd hashes.
Definition next := rd nexts.
Definition refcount := rd refcou.
Definition marked := rd marks.
Definition setRefcou := wr refcou with_refcou.
Definition setLevel := wr levels with_levels.
Definition setLow := wr lows with_lows.
Definition setHigh := wr highs with_highs.
Definition setHash := wr hashes with_hashes.
Definition setNext := wr nexts with_nexts.
Definition setMark n := wr marks with_marks n true.
Definition unmarkNode n := wr marks with_marks n false.

(** kernel.go 680-700: the reference stack *)
Definition initRef : K unit := modify (with_refstack []).
Definition pushRef (n : Z) : K Z := fun k =>
  if Z.of_nat (List.length (refstack k)) <? cap k then Ok n (with_refstack (n :: refstack k) k) else Bad.
Definition readRef (n : nat) : K Z := fun k =>
  match nth_error (refstack k) (n - 1) with Some x => Ok x k | None => Bad end.
Definition popref (n : nat) : K unit := modify (fun k => with_refstack (skipn n (refstack k)) k).

(** recursion depth used where the code recurses along a path of a BDD *)
Definition maxdepth (k : kernel) : nat := Z.to_nat (cap k).

(** for n := n0; n < n0+cnt; n++ and for n := n0; n > n0-cnt; n-- *)
Fixpoint for_up (cnt : nat) (n : Z) (body : Z -> K unit) : K unit :=
  match cnt with O => kret tt | S c => body n ~; for_up c (n + 1) body end.
Fixpoint for_down (cnt : nat) (n : Z) (body : Z -> K unit) : K unit :=
  match cnt with O => kret tt | S c => body n ~; for_down c (n - 1) body end.
Fixpoint for_each {A} (l : list A) (body : A -> K unit) : K unit :=
  match l with [] => kret tt | x :: r => body x ~; for_each r body end.

(** kernel.go 738-748: hash functions, in int32 arithmetic *)
Definition w32 (z : Z) : Z := (z + 2147483648) mod 4294967296 - 2147483648.
Definition pair (a b : Z) : Z := w32 (Z.quot (w32 (w32 (a + b) * w32 (w32 (a + b) + 1))) 2 + a).
Definition triple (a b c : Z) : Z := pair c (pair a b).
Definition nodehash (lvl l h size : Z) : Z := Z.abs (Z.rem (triple lvl l h) size).

Definition isConst (n : Z) : bool := n <? 2.
Definition isOne (n : Z) : bool := n =? 1.
Definition isZero (n : Z) : bool := n =? 0.

(** ** Garbage collection and node table *)
(** kernel.go 586-596 *)
Fixpoint mark (d : nat) (i : Z) : K unit :=
  match d with
  | O => bad
  | S d =>
    if i <? 2 then kret tt
    else m <~ marked i; l <~ low i;
      if m || (l =? -1) then kret tt
      else setMark i ~; l <~ low i; mark d l ~; h <~ high i; mark d h
  end.

(** cache.go 42-46, kernel.go 762-769; the ite, appex and replace caches are unused *)
Definition resetEntry (e : entry) : entry := Entry (-1) (e_b e) (e_c e) (e_big e) (e_res e).
Definition resetCaches : K unit := modify (fun k =>
  with_applycache (fun i => resetEntry (applycache k i))
  (with_quantcache (fun i => resetEntry (quantcache k i))
  (with_misccache (fun i => resetEntry (misccache k i)) k))).

(** insert node [n] into its hash chain (kernel.go 556-558 and 575-577) *)
Definition rehash (n : Z) : K unit :=
  lv <~ level n; l <~ low n; h <~ high n; size <~ gets nodesize;
  let hs := nodehash lv l h size in
  x <~ hash hs; setNext n x ~; setHash hs n.
(** put node [n] on the free list (kernel.go 561-563 and 579-581) *)
Definition release (n : Z) : K unit :=
  fp <~ gets freepos; setNext n fp ~; modify (with_freepos n) ~; modify (fun k => with_freenum (freenum k + 1) k).

(** kernel.go 541-568 *)
Definition gbc : K unit :=
  k <~ get;
  for_each (rev (refstack k)) (mark (maxdepth k)) ~;
  for_up (Z.to_nat (nodesize k)) 0 (fun n =>
    r <~ refcount n; (if 0 <? r then mark (maxdepth k) n else kret tt) ~; setHash n 0) ~;
  modify (with_freepos 0) ~; modify (with_freenum 0) ~;
  for_down (Z.to_nat (nodesize k - 2)) (nodesize k - 1) (fun n =>
    m <~ marked n; l <~ low n;
    if m && negb (l =? -1) then unmarkNode n ~; rehash n
    else setLow n (-1) ~; release n) ~;
  resetCaches ~; modify (fun k => with_gbcollectnum (gbcollectnum k + 1) k).

(** kernel.go 570-584 *)
Definition gbcRehash : K unit :=
  modify (with_freepos 0) ~; modify (with_freenum 0) ~;
  k <~ get;
  for_down (Z.to_nat (nodesize k - 2)) (nodesize k - 1) (fun n =>
    l <~ low n; if negb (l =? -1) then rehash n else release n).

(** kernel.go 598-625, always called with doRehash *)
Definition nodeResize : K unit :=
  k <~ get;
  let oldsize := nodesize k in
  let newsize := grow k (gbcollectnum k) oldsize in
  modify (with_nodesize newsize) ~;
  for_up (Z.to_nat oldsize) 0 (fun n => setHash n 0) ~;
  for_up (Z.to_nat (newsize - oldsize)) oldsize (fun n =>
    setRefcou n 0 ~; setHash n 0 ~; setLevel n 0 ~; unmarkNode n ~; setLow n (-1) ~; setNext n (n + 1)) ~;
  fp <~ gets freepos; setNext (newsize - 1) fp ~;
  modify (with_freepos oldsize) ~; modify (fun k => with_freenum (freenum k + newsize - oldsize) k) ~;
  gbcRehash.

(** kernel.go 495-501: search in a hash chain *)
Fixpoint findNode (d : nat) (res lv l h : Z) : K (option Z) :=
  match d with
  | O => bad
  | S d =>
    if res =? 0 then kret None
    else lv' <~ level res; l' <~ low res; h' <~ high res;
      if (lv' =? lv) && (l' =? l) && (h' =? h) then kret (Some res)
      else res' <~ next res; findNode d res' lv l h
  end.

(** kernel.go 490-525 *)
Definition makeNode (lv l h : Z) : K Z :=
  if l =? h then kret l
  else
    size <~ gets nodesize;
    let hs := nodehash lv l h size in
    start <~ hash hs;
    r <~ findNode (S (Z.to_nat size)) start lv l h;
    match r with
    | Some res => kret res
    | None =>
      fp <~ gets freepos;
      hs <~ (if fp =? 0 then
          gbc ~;
          fn <~ gets freenum; size <~ gets nodesize;
          hs <~ (if Z.quot (fn * 100) size <=? 20
                 then nodeResize ~; size <~ gets nodesize; kret (nodehash lv l h size)
                 else kret hs);
          fp <~ gets freepos;
          if fp =? 0 then (fun _ => Full) else kret hs
        else kret hs);
      res <~ gets freepos;
      nx <~ next res;
      modify (with_freepos nx) ~; modify (fun k => with_freenum (freenum k - 1) k) ~;
      setLevel res lv ~; setLow res l ~; setHigh res h ~;
      x <~ hash hs; setNext res x ~; setHash hs res ~;
      kret res
    end.

(** ** Operations *)
(** kernel.go 33-44: the operators with their numbers and truth tables *)
Inductive bop := BAnd | BOr | BImp | BEquiv.
Definition opv (o : bop) : Z := match o with BAnd => 0 | BOr => 2 | BImp => 5 | BEquiv => 6 end.
Definition tt4 (o : bop) : list Z :=
  match o with BAnd => [0; 0; 0; 1] | BOr => [0; 1; 1; 1] | BImp => [1; 1; 0; 1] | BEquiv => [1; 0; 0; 1] end.
Definition notv : Z := 10.

(** kernel.go 339-375: the cases decided without the cache *)
Definition applyShort (l r : Z) (o : bop) : option Z :=
  match o with
  | BAnd => if l =? r then Some l else if isZero l || isZero r then Some 0 else if isOne l then Some r else if isOne r then Some l else None
  | BOr => if l =? r then Some l else if isOne l || isOne r then Some 1 else if isZero l then Some r else if isZero r then Some l else None
  | BImp => if isZero l then Some 1 else if isOne l then Some r else if isOne r then Some 1 else None
  | BEquiv => None
  end.

(** cache.go 48-50: the index of the entry for a hash value *)
Definition cacheIndex (k : kernel) (h : Z) : Z := Z.abs (Z.rem h (cachesize k)).

(** kernel.go 338-438 *)
Fixpoint applyRec (d : nat) (l r : Z) (o : bop) : K Z :=
  match d with
  | O => bad
  | S d =>
    match applyShort l r o with
    | Some res => kret res
    | None =>
      if isConst l && isConst r then
        match nth_error (tt4 o) (Z.to_nat (2 * l + r)) with Some res => kret res | None => bad end
      else
        i <~ gets (fun k => cacheIndex k (triple l r (opv o)));
        e <~ gets (fun k => applycache k i);
        if (e_a e =? l) && (e_b e =? r) && (e_c e =? opv o) then kret (e_res e)
        else
          ll <~ level l; lr <~ level r;
          res <~ (if ll =? lr then
              x <~ low l; y <~ low r; n1 <~ applyRec d x y o; pushRef n1 ~;
              x <~ high l; y <~ high r; n2 <~ applyRec d x y o; pushRef n2 ~;
              lv <~ level l; a <~ readRef 2; b <~ readRef 1; makeNode lv a b
            else if ll <? lr then
              x <~ low l; n1 <~ applyRec d x r o; pushRef n1 ~;
              x <~ high l; n2 <~ applyRec d x r o; pushRef n2 ~;
              lv <~ level l; a <~ readRef 2; b <~ readRef 1; makeNode lv a b
            else
              y <~ low r; n1 <~ applyRec d l y o; pushRef n1 ~;
              y <~ high r; n2 <~ applyRec d l y o; pushRef n2 ~;
              lv <~ level r; a <~ readRef 2; b <~ readRef 1; makeNode lv a b);
          popref 2 ~;
          modify (fun k => with_applycache (upd (applycache k) i (Entry l r (opv o) (e_big (applycache k i)) res)) k) ~;
          kret res
    end
  end.
(** kernel.go 332-336 with 313-330 *)
Definition apply (l r : Z) (o : bop) : K Z := initRef ~; k <~ get; applyRec (maxdepth k) l r o.

(** construction.go 66-90 *)
Fixpoint notRec (d : nat) (r : Z) : K Z :=
  match d with
  | O => bad
  | S d =>
    if isZero r then kret 1 else if isOne r then kret 0
    else
      i <~ gets (fun k => cacheIndex k r);
      e <~ gets (fun k => applycache k i);
      if (e_a e =? r) && (e_c e =? notv) then kret (e_res e)
      else
        x <~ low r; n1 <~ notRec d x; pushRef n1 ~;
        x <~ high r; n2 <~ notRec d x; pushRef n2 ~;
        lv <~ level r; a <~ readRef 2; b <~ readRef 1; res <~ makeNode lv a b;
        popref 2 ~;
        modify (fun k => with_applycache (upd (applycache k) i (Entry r (e_b (applycache k i)) notv (e_big (applycache k i)) res)) k) ~;
        kret res
  end.
(** construction.go 60-64 *)
Definition bnot (r : Z) : K Z := initRef ~; k <~ get; notRec (maxdepth k) r.

(** construction.go 225-228, 230-232 *)
Definition insvarset (k : kernel) (a : Z) : bool := Z.abs (quantvarset k a) =? quantvarsetId k.
Definition invarset (k : kernel) (a : Z) : bool := quantvarset k a =? quantvarsetId k.

(** construction.go 102-142 *)
Fixpoint restrictRec (d : nat) (r miscid : Z) : K Z :=
  match d with
  | O => bad
  | S d =>
    if isConst r then kret r
    else
      lv <~ level r; ql <~ gets quantlast;
      if ql <? lv then kret r
      else
        i <~ gets (fun k => cacheIndex k (pair r miscid));
        e <~ gets (fun k => misccache k i);
        if (e_a e =? r) && (e_c e =? miscid) then kret (e_res e)
        else
          k <~ get;
          res <~ (if insvarset k lv then
              (if 0 <? quantvarset k lv then x <~ high r; restrictRec d x miscid
               else x <~ low r; restrictRec d x miscid)
            else
              x <~ low r; n1 <~ restrictRec d x miscid; pushRef n1 ~;
              x <~ high r; n2 <~ restrictRec d x miscid; pushRef n2 ~;
              lv <~ level r; a <~ readRef 2; b <~ readRef 1; res <~ makeNode lv a b; popref 2 ~; kret res);
          modify (fun k => with_misccache (upd (misccache k) i (Entry r (e_b (misccache k i)) miscid (e_big (misccache k i)) res)) k) ~;
          kret res
  end.

(** construction.go 196-213.  The reset of the table when the id reaches MaxInt32 is left
    out (ids are unbounded). *)
Fixpoint svarLoop (d : nat) (n : Z) : K unit :=
  match d with
  | O => bad
  | S d =>
    if isConst n then kret tt
    else
      l <~ low n; lv <~ level n; id <~ gets quantvarsetId;
      n' <~ (if isZero l then modify (fun k => with_quantvarset (upd (quantvarset k) lv id) k) ~; high n
             else modify (fun k => with_quantvarset (upd (quantvarset k) lv (- id)) k) ~; low n);
      lv' <~ level n'; modify (with_quantlast lv') ~;
      svarLoop d n'
  end.
Definition varset2svartable (root : Z) : K unit :=
  if root <? 2 then bad
  else modify (fun k => with_quantvarsetId (quantvarsetId k + 1) k) ~; k <~ get; svarLoop (maxdepth k) root.
(** construction.go 215-228 *)
Fixpoint varLoop (d : nat) (n : Z) : K unit :=
  match d with
  | O => bad
  | S d =>
    if n <=? 1 then kret tt
    else
      lv <~ level n; id <~ gets quantvarsetId;
      modify (fun k => with_quantvarset (upd (quantvarset k) lv id) k) ~; modify (with_quantlast lv) ~;
      n' <~ high n; varLoop d n'
  end.
Definition varset2vartable (root : Z) : K unit :=
  if root <? 2 then bad
  else modify (fun k => with_quantvarsetId (quantvarsetId k + 1) k) ~; k <~ get; varLoop (maxdepth k) root.

(** construction.go 92-100 *)
Definition restrict (r variable : Z) : K Z :=
  if variable <? 2 then kret r
  else varset2svartable variable ~; initRef ~; k <~ get; restrictRec (maxdepth k) r (8 * variable + 1).

(** construction.go 164-194 *)
Fixpoint quantRec (d : nat) (r : Z) (o : bop) (quantid : Z) : K Z :=
  match d with
  | O => bad
  | S d =>
    if r <? 2 then kret r
    else
      lv <~ level r; ql <~ gets quantlast;
      if ql <? lv then kret r
      else
        i <~ gets (fun k => cacheIndex k r);
        e <~ gets (fun k => quantcache k i);
        if (e_a e =? r) && (e_c e =? quantid) then kret (e_res e)
        else
          x <~ low r; n1 <~ quantRec d x o quantid; pushRef n1 ~;
          x <~ high r; n2 <~ quantRec d x o quantid; pushRef n2 ~;
          lv <~ level r; a <~ readRef 2; b <~ readRef 1; k <~ get;
          res <~ (if invarset k lv then applyRec (maxdepth k) a b o else makeNode lv a b);
          popref 2 ~;
          modify (fun k => with_quantcache (upd (quantcache k) i (Entry r (e_b (quantcache k i)) quantid (e_big (quantcache k i)) res)) k) ~;
          kret res
  end.
(** construction.go 144-162 *)
Definition exists_ (r variable : Z) : K Z :=
  if variable <? 2 then kret r
  else varset2vartable variable ~; initRef ~; k <~ get; quantRec (maxdepth k) r BOr (8 * variable).
Definition forAll (r variable : Z) : K Z :=
  if variable <? 2 then kret r
  else varset2vartable variable ~; initRef ~; k <~ get; quantRec (maxdepth k) r BAnd (8 * variable + 1).

(** ** External references *)
Definition maxref : Z := 1023.
(** kernel.go 440-455; [resume] is the handler's answer to BddNewRefAdded.  A cancelled
    call returns -1 ([None]). *)
Definition addRef (root : Z) (resume : bool) : K (option Z) :=
  if negb resume then kret None
  else if root <? 2 then kret (Some root)
  else
    size <~ gets nodesize;
    if size <=? root then bad
    else l <~ low root; if l =? -1 then bad
      else c <~ refcount root; (if c <? maxref then setRefcou root (c + 1) else kret tt) ~; kret (Some root).
(** kernel.go 457-476 *)
Definition delRef (root : Z) : K unit :=
  if root <? 2 then kret tt
  else
    size <~ gets nodesize;
    if size <=? root then bad
    else l <~ low root; if l =? -1 then bad
      else c <~ refcount root;
        if negb (0 <? c) then bad
        else if negb (c =? maxref) && (0 <? c) then setRefcou root (c - 1) else kret tt.

(** ** Variables and creation *)
(** construction.go 9-21 *)
Definition ithVar (i : Z) : K Z := fun k => if (i <? 0) || (varnum k <=? i) then Bad else Ok (varnodes k (2 * i)) k.
Definition nithVar (i : Z) : K Z := fun k => if (i <? 0) || (varnum k <=? i) then Bad else Ok (varnodes k (2 * i + 1)) k.

Fixpoint indexOf (v : formula) (l : list formula) (i : Z) : option Z :=
  match l with [] => None | x :: r => if feqb x v then Some i else indexOf v r (i + 1) end.
(** kernel.go 287-298: the variables in the order of their indices *)
Definition getOrAddVarIndex (v : formula) : K Z := fun k =>
  match indexOf v (vlist k) 0 with
  | Some i => Ok i k
  | None =>
    if varnum k <=? Z.of_nat (List.length (vlist k)) then Bad
    else Ok (Z.of_nat (List.length (vlist k))) (with_vlist (vlist k ++ [v]) k)
  end.
(** kernel.go 300-303 *)
Definition getVariableForIndex (k : kernel) (i : Z) : option formula :=
  if i <? 0 then None else nth_error (vlist k) (Z.to_nat i).

(** kernel.go 90-130: the kernel before setNumberOfVars; [size] and [csize] are the results
    of primeGte, at least 3 *)
Definition emptyKernel (num size csize : Z) (g : Z -> Z -> Z) : kernel :=
  Kernel [] (fun n => if n <? 2 then maxref else 0) (fun _ => 0) (fun _ => false)
    (fun n => if n <? 2 then n else -1) (fun n => if n <? 2 then n else 0) (fun _ => 0)
    (fun n => if n =? size - 1 then 0 else n + 1) (fun _ => 0)
    0 csize size 2 (size - 2) 0 [] (2 * num + 4) (fun _ => 0) (fun _ => 0)
    (fun _ => 0) 0 0 (fun _ => newCacheEntry) (fun _ => newCacheEntry) (fun _ => newCacheEntry) (fun _ => 0) 0 g.
(** kernel.go 254-285 *)
Definition addVariable (v : Z) : K unit :=
  n <~ makeNode v 0 1; pushRef n ~; modify (fun k => with_varnodes (upd (varnodes k) (2 * v) n) k) ~;
  m <~ makeNode v 1 0; modify (fun k => with_varnodes (upd (varnodes k) (2 * v + 1) m) k) ~;
  popref 1 ~;
  setRefcou n maxref ~; setRefcou m maxref ~;
  modify (fun k => with_level2var (upd (level2var k) v v) k) ~; modify (fun k => with_var2level (upd (var2level k) v v) k) ~;
  modify (with_varnum (v + 1)).
Definition maxvar : Z := 2097151.
Definition setNumberOfVars (num : Z) : K unit :=
  if (num <? 0) || (maxvar <? num) then bad
  else
    for_up (Z.to_nat num) 0 addVariable ~;
    setLevel 0 num ~; setLevel 1 num ~;
    modify (fun k => with_level2var (upd (level2var k) num num) k) ~; modify (fun k => with_var2level (upd (var2level k) num num) k) ~;
    modify (with_quantvarset (fun _ => 0)) ~; modify (with_quantvarsetId 0).
Definition newKernel (num size csize : Z) (g : Z -> Z -> Z) : outcome unit := setNumberOfVars num (emptyKernel num size csize g).
