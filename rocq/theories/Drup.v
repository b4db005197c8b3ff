(** * Model of the unsat core computation: sat/proofs.go

    Simplifications:
    - Literals are the ones of the core solver (Sat.v); the code writes variable v as v+1 and its
      negation as -(v+1).
    - The flat array db is a list of clauses, a position in it is the number of a clause.  The header of a
      clause is its mark (its number never changes).
    - falseStack holds the first assignedPtr entries and has no maximal length.
    - The hash function of parse (drupGetHash, proofs.go:576-587) is an argument.
    - [RPanic]: the code panics, also at an index that is out of range; [RStuck]: the recursion depth is
      exhausted. *)
From Coq Require Import List Bool Arith ZArith.
From Verif Require Import Sat.
Import ListNotations.

(** a clause of db: its literals and the lowest bit of its header *)
Record dcl := Dcl { q_lits : list slit; q_mark : bool }.
(** proofs.go:42-62 drupSolver.  [x_fl]: internalFalse, 0, 1 or 3 (proofMark); [x_rsn]: the clause of reason; [x_wl]:
    wlist, clauses with the lowest bit of the entry; [x_ad]: adlist, clauses with the lowest bit of the entry,
    [None] for the entry 0. *)
Record dr := Dr {
  x_db : list dcl; x_stack : list slit; x_fl : slit -> nat; x_rsn : nat -> option nat; x_forced : nat; x_proc : nat;
  x_wl : slit -> list (nat * bool); x_ad : list (option (nat * bool)) }.
Inductive rr (A : Type) := RRet (a : A) (x : dr) | RPanic | RStuck.
Arguments RRet {A} _ _. Arguments RPanic {A}. Arguments RStuck {A}.
Definition X (A : Type) : Type := dr -> rr A.
Definition xret {A} (a : A) : X A := fun x => RRet a x.
Definition xpanic {A} : X A := fun _ => RPanic.
Definition xstuck {A} : X A := fun _ => RStuck.
Definition xbind {A B} (m : X A) (k : A -> X B) : X B := fun x => match m x with RRet a y => k a y | RPanic => RPanic | RStuck => RStuck end.
Notation "a <~ m ;; k" := (xbind m (fun a => k)) (at level 61, m at next level, right associativity).
Definition xget {A} (g : dr -> A) : X A := fun x => RRet (g x) x.
Definition xmod (g : dr -> dr) : X unit := fun x => RRet tt (g x).
Definition xopt {A} (o : option A) : X A := match o with Some a => xret a | None => xpanic end.

Definition set_db (d : list dcl) (x : dr) : dr := Dr d (x_stack x) (x_fl x) (x_rsn x) (x_forced x) (x_proc x) (x_wl x) (x_ad x).
Definition set_stack (k : list slit) (x : dr) : dr := Dr (x_db x) k (x_fl x) (x_rsn x) (x_forced x) (x_proc x) (x_wl x) (x_ad x).
Definition set_fl (f : slit -> nat) (x : dr) : dr := Dr (x_db x) (x_stack x) f (x_rsn x) (x_forced x) (x_proc x) (x_wl x) (x_ad x).
Definition set_rsn (r : nat -> option nat) (x : dr) : dr := Dr (x_db x) (x_stack x) (x_fl x) r (x_forced x) (x_proc x) (x_wl x) (x_ad x).
Definition set_forced (n : nat) (x : dr) : dr := Dr (x_db x) (x_stack x) (x_fl x) (x_rsn x) n (x_proc x) (x_wl x) (x_ad x).
Definition set_proc (n : nat) (x : dr) : dr := Dr (x_db x) (x_stack x) (x_fl x) (x_rsn x) (x_forced x) n (x_wl x) (x_ad x).
Definition set_wl (w : slit -> list (nat * bool)) (x : dr) : dr := Dr (x_db x) (x_stack x) (x_fl x) (x_rsn x) (x_forced x) (x_proc x) w (x_ad x).
Definition set_ad (a : list (option (nat * bool))) (x : dr) : dr := Dr (x_db x) (x_stack x) (x_fl x) (x_rsn x) (x_forced x) (x_proc x) (x_wl x) a.

(** the literals of a clause *)
Definition litsOf (x : dr) (c : nat) : list slit := match nth_error (x_db x) c with Some d => q_lits d | None => [] end.
Definition getLits (c : nat) : X (list slit) := fun x => match nth_error (x_db x) c with Some d => RRet (q_lits d) x | None => RPanic end.
Definition setLits (c : nat) (ls : list slit) (x : dr) : dr :=
  match nth_error (x_db x) c with Some d => set_db (setn (x_db x) c (Dcl ls (q_mark d))) x | None => x end.
Definition isFalse (x : dr) (l : slit) : bool := negb (x_fl x l =? 0).
(** the second literal of a clause is not 0; behind the empty clause, which is the last one, there is nothing *)
Definition has2 (c : nat) : X bool := ls <~ getLits c ;; match ls with [] => xpanic | [_] => xret false | _ => xret true end.

(** proofs.go:216-220 assign; [c]: the reason *)
Definition assignLit (a : slit) (c : option nat) (x : dr) : dr :=
  set_rsn (upd (x_rsn x) (fst a) c) (set_stack (x_stack x ++ [neg a]) (set_fl (updl (x_fl x) (neg a) 1) x)).
(** proofs.go:222-225 addWatch for both positions *)
Definition addWatch (c : nat) (l : slit) (x : dr) : dr := set_wl (updl (x_wl x) l (x_wl x l ++ [(c, false)])) x.
Definition addWatches (c : nat) : X unit := ls <~ getLits c ;;
  match ls with l0 :: l1 :: _ => _ <~ xmod (addWatch c l0) ;; xmod (addWatch c l1) | _ => xpanic end.
(** an entry is overwritten by the last one, which is removed *)
Definition swapRemove {A} (l : list A) (i : nat) : list A :=
  match rev l with [] => [] | e :: _ => removelast (setn l i e) end.
Fixpoint findC (c : nat) (l : list (nat * bool)) (i : nat) : option nat :=
  match l with [] => None | (d, _) :: r => if d =? c then Some i else findC c r (S i) end.
(** proofs.go:510-523 removeWatch *)
Definition removeWatch (c : nat) (l : slit) : X unit := fun x =>
  match findC c (x_wl x l) 0 with Some i => RRet tt (set_wl (updl (x_wl x) l (swapRemove (x_wl x l) i)) x) | None => RPanic end.
Definition removeWatches (c : nat) : X unit := ls <~ getLits c ;;
  match ls with l0 :: l1 :: _ => _ <~ removeWatch c l0 ;; removeWatch c l1 | _ => xpanic end.

(** proofs.go:562-574 markWatch *)
Definition markWatch (c : nat) (l : slit) : X unit := fun x =>
  match findC c (x_wl x l) 0 with Some i => RRet tt (set_wl (updl (x_wl x) l (setn (x_wl x l) i (c, true))) x) | None => RPanic end.
(** proofs.go:547-560 markClause; [whole]: for a conflict, otherwise the first literal is left out *)
Definition markLits (ls : list slit) (x : dr) : dr := set_fl (fold_left (fun f l => updl f l 3) ls (x_fl x)) x.
Definition markClause (c : nat) (whole : bool) : X unit := fun x =>
  match nth_error (x_db x) c with
  | None => RPanic
  | Some d =>
      let ls := q_lits d in
      let rest := markLits (if whole then ls else tl ls) in
      if q_mark d then RRet tt (rest x) else
      let x := set_db (setn (x_db x) c (Dcl ls true)) x in
      match ls with
      | l0 :: l1 :: _ => (_ <~ markWatch c l0 ;; _ <~ markWatch c l1 ;; xmod rest) x
      | _ => RRet tt x
      end
  end.
(** proofs.go:529-545 analyze; [k]: assignedPtr *)
Fixpoint analyzeStack (k : nat) : X unit :=
  match k with
  | 0 => xret tt
  | S k => fun x =>
      let l := nth k (x_stack x) (0, false) in
      (_ <~ (if x_fl x l =? 3 then match x_rsn x (fst l) with Some c => markClause c false | None => xret tt end else xret tt) ;;
       _ <~ xmod (fun x => set_fl (updl (x_fl x) l (if k <? x_forced x then 1 else 0)) x) ;;
       analyzeStack k) x
  end.
Definition analyzeC (c : nat) : X unit :=
  _ <~ markClause c true ;; k <~ xget (fun x => length (x_stack x)) ;; _ <~ analyzeStack k ;;
  xmod (fun x => set_proc (x_forced x) (set_stack (firstn (x_forced x) (x_stack x)) x)).

(** proofs.go:460-499: a look at a clause with the false literal [lit]; [VMoved]: the new watched literal *)
Inductive vres := VSkip | VMoved (l : slit) | VUnit | VConf.
Fixpoint findFree (x : dr) (ls : list slit) (i : nat) : option nat :=
  match ls with [] => None | l :: r => if isFalse x l then findFree x r (S i) else Some i end.
Definition visit (lit : slit) (c : nat) : X vres := fun x =>
  match litsOf x c with
  | l0 :: l1 :: rest =>
      if isFalse x (neg l0) || isFalse x (neg l1) then RRet VSkip x else
      let a := if slit_eqb l0 lit then l1 else l0 in
      match findFree x rest 0 with
      | Some i => let m := nth i rest (0, false) in RRet (VMoved m) (setLits c (a :: m :: setn rest i lit) x)
      | None => let x := setLits c (a :: lit :: rest) x in
                if isFalse x a then RRet VConf x else RRet VUnit (assignLit a (Some c) x)
      end
  | _ => RPanic
  end.
(** proofs.go:455-500, the loop over the watch list; [check]: look at marked clauses only, or at the other ones only *)
Inductive wres := WDone | WFlip (wp : nat) | WUnsat.
Fixpoint watchLoop (n : nat) (check : bool) (lit : slit) (wp : nat) : X wres :=
  match n with
  | 0 => xstuck
  | S m => fun x =>
      match nth_error (x_wl x lit) wp with
      | None => RRet WDone x
      | Some (c, fl) =>
          if negb (Bool.eqb fl check) then watchLoop m check lit (S wp) x else
          (v <~ visit lit c ;;
           match v with
           | VSkip => watchLoop m check lit (S wp)
           | VMoved l =>
               _ <~ xmod (fun x => set_wl (updl (x_wl x) l (x_wl x l ++ [(c, fl)])) x) ;;
               _ <~ xmod (fun x => set_wl (updl (x_wl x) lit (swapRemove (x_wl x lit) wp)) x) ;;
               watchLoop m check lit wp
           | VUnit => if check then watchLoop m check lit (S wp) else xret (WFlip (S wp))
           | VConf => _ <~ analyzeC c ;; xret WUnsat
           end) x
      end
  end.
(** proofs.go:431-508 propagate: marked clauses first; [s0], [s1]: start; [ml], [mw]: _lit and _watchPtr; the result: no conflict *)
Fixpoint propLoop (n : nat) (check : bool) (s0 s1 : nat) (ml : option slit) (mw : nat) : X bool :=
  match n with
  | 0 => xstuck
  | S m => fun x =>
      match nth_error (x_stack x) (if check then s1 else s0) with
      | None => if check then propLoop m false s0 s1 ml mw x
                else RRet true (set_proc (length (x_stack x)) x)
      | Some lit =>
          let wp := match ml with Some l => if slit_eqb lit l then mw else 0 | None => 0 end in
          (w <~ watchLoop n check lit wp ;;
           match w with
           | WDone => if check then propLoop m true s0 (S s1) ml mw else propLoop m false (S s0) s1 ml mw
           | WFlip wp => propLoop m true s0 s1 (Some lit) wp
           | WUnsat => xret false
           end) x
      end
  end.
Definition propagateD (n : nat) : X bool := fun x => propLoop n true (x_proc x) (x_proc x) None 0 x.

(** ** Reading the clauses and the proof, proofs.go:74-193 *)

(** the table of clauses *)
Definition table := Z -> list nat.
Definition addClauseX (ls : list slit) (x : dr) : dr := set_ad (x_ad x ++ [Some (length (x_db x), false)]) (set_db (x_db x ++ [Dcl ls false]) x).
Definition updZ (t : table) (k : Z) (v : list nat) : table := fun j => if (j =? k)%Z then v else t j.
(** proofs.go:153-185 for a clause of the problem; [None]: unsatisfiable *)
Definition readClause (ls : list slit) (x : dr) : option dr :=
  let c := length (x_db x) in
  match ls with
  | [] => None
  | [l] => if isFalse x l then None else
           Some (let x := addClauseX ls x in if isFalse x (neg l) then x else assignLit l (Some c) x)
  | l0 :: l1 :: _ => Some (addWatch c l1 (addWatch c l0 (addClauseX ls x)))
  end.
Fixpoint readClauses (hash : list slit -> Z) (cs : list (list slit)) (t : table) (x : dr) : option (table * dr) :=
  match cs with
  | [] => Some (t, x)
  | ls :: r => match readClause ls x with
               | None => None
               | Some y => readClauses hash r (updZ t (hash ls) (t (hash ls) ++ [length (x_db x)])) y
               end
  end.
(** proofs.go:195-214 matchClause *)
Fixpoint matchClause (x : dr) (ls : list slit) (cs : list nat) (i : nat) : option nat :=
  match cs with
  | [] => None
  | c :: r => if forallb (fun l => inL l ls) (litsOf x c) && (length ls =? length (litsOf x c)) then Some i else matchClause x ls r (S i)
  end.
(** proofs.go:108-191 for the lines of the proof: deleted or added clauses.  The result: the first lemma and its place in adlist. *)
Fixpoint readProof (hash : list slit -> Z) (nv : nat) (ps : list (bool * list slit)) (t : table) (first : option (nat * nat)) : X (nat * nat) :=
  match ps with
  | [] => xget (fun x => (length (x_db x), match first with Some p => snd p | None => 0 end))
  | (del, ls) :: r => fun x =>
      if existsb (fun l => nv <=? fst l) ls then RPanic else
      if del : bool then
        match matchClause x ls (t (hash ls)) 0 with
        | None => RPanic
        | Some i => readProof hash nv r (updZ t (hash ls) (swapRemove (t (hash ls)) i)) first
                      (set_ad (x_ad x ++ [Some (nth i (t (hash ls)) 0, true)]) x)
        end
      else
        let first := match first with Some p => Some p | None => Some (length (x_db x), length (x_ad x)) end in
        let y := addClauseX ls x in
        match ls with
        | [] => RRet (match first with Some p => p | None => (0, 0) end) y
        | _ => readProof hash nv r (updZ t (hash ls) (t (hash ls) ++ [length (x_db x)])) first y
        end
  end.

(** ** Verification, proofs.go:227-429 *)

(** proofs.go:251-264; the result: the next place in adlist *)
Fixpoint adForward (n : nat) (k : nat) : X nat :=
  match n with
  | 0 => xstuck
  | S n => fun x =>
      match nth_error (x_ad x) k with
      | None => RPanic
      | Some (Some (c, true)) =>
          (b <~ has2 c ;;
           _ <~ (if b : bool then fun x => match litsOf x c with
                  | l0 :: _ => match x_rsn x (fst l0) with Some d => if d =? c then RRet tt x else removeWatches c x | None => removeWatches c x end
                  | [] => RPanic
                  end else xret tt) ;;
           adForward n (S k)) x
      | Some _ => RRet (S k) x
      end
  end.
(** proofs.go:266-279: the first two literals that are not false come to the front; [j]: the next position, [b]: the
    literals that are not false so far *)
Fixpoint toFront (x : dr) (n j : nat) (ls b : list slit) : list slit * list slit :=
  match n with
  | 0 => (ls, b)
  | S n => let l := nth j ls (0, false) in
           if isFalse x l then toFront x n (S j) ls b
           else toFront x n (S j) (if length b <=? 1 then swapn ls j (length b) else ls) (b ++ [l])
  end.
(** proofs.go:246-313; [i]: the next lemma, [k]: checked.  The result: the lemma whose propagation has a conflict *)
Fixpoint forward (n : nat) (i k : nat) : X (nat * nat) :=
  match n with
  | 0 => xstuck
  | S m =>
      k <~ adForward n k ;;
      ls <~ getLits i ;;
      flag <~ xget (fun x => existsb (fun l => isFalse x (neg l)) ls) ;;
      p <~ xget (fun x => toFront x (length ls) 0 ls []) ;;
      _ <~ xmod (setLits i (fst p)) ;;
      b <~ has2 i ;;
      _ <~ (if b : bool then addWatches i else xret tt) ;;
      if flag : bool then _ <~ xmod (fun x => set_ad (setn (x_ad x) (k - 1) None) x) ;; forward m (S i) k else
      r <~ match snd p with
           | [] => xpanic
           | [a] => _ <~ xmod (fun x => set_forced (x_proc x) (assignLit a (Some i) x)) ;; propagateD n
           | _ => xret true
           end ;;
      if negb r then xret (i, k) else
      e <~ xget (fun x => length (x_db x) <=? S i) ;;
      if e : bool then xpanic else forward m (S i) k
  end.
(** proofs.go:321-334; the result: the place and the entry of the lemma *)
Fixpoint adBackward (k : nat) : X (nat * option (nat * bool)) :=
  match k with
  | 0 => xpanic
  | S k => fun x =>
      match nth_error (x_ad x) k with
      | None => RPanic
      | Some (Some (c, true)) =>
          (b <~ has2 c ;;
           _ <~ (if b : bool then fun x => match litsOf x c with
                  | l0 :: _ => match x_rsn x (fst l0) with Some d => if d =? c then RRet tt x else addWatches c x | None => addWatches c x end
                  | [] => RPanic
                  end else xret tt) ;;
           adBackward k) x
      | Some e => RRet (k, e) x
      end
  end.
(** proofs.go:356-361: back to the literal [l] *)
Fixpoint popTo (l : slit) (k : nat) : X unit :=
  match k with
  | 0 => xpanic
  | S k => fun x =>
      match nth_error (x_stack x) k with
      | None => RPanic
      | Some f => let x := set_forced k (set_fl (updl (x_fl x) f 0) x) in
                  if slit_eqb f (neg l) then RRet tt (set_proc k (set_stack (firstn k (x_stack x)) x)) else popTo l k x
      end
  end.
Fixpoint assignNegs (b : list slit) (x : dr) : dr := match b with [] => x | l :: r => assignNegs r (assignLit (neg l) None x) end.
(** proofs.go:318-383; [first]: the first lemma, [p]: the lemma, [fl]: flag *)
Fixpoint backward (n : nat) (first p k : nat) (fl : bool) : X unit :=
  match n with
  | 0 => xstuck
  | S m =>
      e <~ adBackward k ;;
      mark <~ xget (fun x => match nth_error (x_db x) p with Some d => q_mark d | None => false end) ;;
      b <~ has2 p ;;
      _ <~ (if b : bool then removeWatches p else xret tt) ;;
      fl <~ match snd e with
            | None => xret fl
            | Some _ =>
                ls <~ getLits p ;;
                flag <~ xget (fun x => existsb (fun l => isFalse x (neg l)) ls) ;;
                buf <~ xget (fun x => filter (fun l => negb (isFalse x l)) ls) ;;
                _ <~ match buf with
                     | [l] => if fl || flag then fun x => popTo l (x_forced x) x else xret tt
                     | _ => xret tt
                     end ;;
                _ <~ (if mark : bool then _ <~ xmod (assignNegs buf) ;; r <~ propagateD n ;; if r : bool then xpanic else xret tt else xret tt) ;;
                xret (fl || flag)
            end ;;
      if p =? first then xret tt else backward m first (p - 1) (fst e) fl
  end.
(** the marked clauses of the problem, proofs.go:398-414 *)
Definition marked (first : nat) (x : dr) : list (list slit) := map q_lits (filter q_mark (firstn first (x_db x))).
Definition verify (n : nat) (first k : nat) : X (list (list slit)) :=
  c <~ (fun x => if x_proc x <? length (x_stack x) then propagateD n x else RRet true x) ;;
  _ <~ xmod (fun x => set_forced (x_proc x) x) ;;
  _ <~ (if c : bool then
          e <~ forward n first k ;;
          _ <~ xmod (fun x => set_forced (x_proc x) x) ;;
          backward n first (fst e) (snd e) false
        else xret tt) ;;
  xget (marked first).

(** proofs.go:28-40 drupCompute *)
Inductive dresult := DTrivial | DCore (cs : list (list slit)) | DPanic | DStuck.
Definition empty : dr := Dr [] [] (fun _ => 0) (fun _ => None) 0 0 (fun _ => []) [].
Definition numVars (cs : list (list slit)) : nat := fold_right max 0 (map (fun l => S (fst l)) (concat cs)).
Definition drupCompute (hash : list slit -> Z) (n : nat) (cs : list (list slit)) (proof : list (bool * list slit)) : dresult :=
  match readClauses hash cs (fun _ => []) empty with
  | None => DTrivial
  | Some (t, x) =>
      match (p <~ (match cs with [] => xret (0, 0) | _ => readProof hash (numVars cs) proof t None end) ;; verify n (fst p) (snd p)) x with
      | RRet core _ => DCore core
      | RPanic => DPanic
      | RStuck => DStuck
      end
  end.
