(** * Model of the BDD interface (bdd/bdd.go): compilation and operations *)
From Coq Require Import List Bool ZArith.
From Verif Require Import Spec Factory Assign NormalForm Bdd.
Import ListNotations.
Local Open Scope Z_scope.

(** ** Computations on a factory and a kernel *)
(** [CFull]: the node table cannot grow further; [CPanic]: a panic of the BDD code; [CStuck]:
    no result within the fuel, or a panic inside a normal form. *)
Inductive cres (A : Type) := CRet (a : A) (s : state) (k : kernel) | CFull | CPanic | CStuck.
Arguments CRet {A}. Arguments CFull {A}. Arguments CPanic {A}. Arguments CStuck {A}.
Definition C (A : Type) := state -> kernel -> cres A.
Definition cret {A} (a : A) : C A := fun s k => CRet a s k.
Definition cbind {A B} (m : C A) (f : A -> C B) : C B := fun s k =>
  match m s k with CRet a s' k' => f a s' k' | CFull => CFull | CPanic => CPanic | CStuck => CStuck end.
Definition onK {A} (m : K A) : C A := fun s k => match m k with Ok a k' => CRet a s k' | Full => CFull | Bad => CPanic end.
Definition onM {A} (m : M A) : C A := fun s k => match m s with Some (a, s') => CRet a s' k | None => CStuck end.
Definition cget {A} (g : state -> A) : C A := fun s k => CRet (g s) s k.
Notation "x <== m ;; k" := (cbind m (fun x => k)) (at level 61, m at next level, right associativity).

(** ** Literals: bdd.go 109-116, 155-161 *)
Definition litNode (l : formula) : K Z := i <~ getOrAddVarIndex (litVariable l); if isPos l then ithVar i else nithVar i.

(** bdd.go 104-147 CompileLiterals *)
Fixpoint litLoop (ls : list formula) (b : Z) : K Z :=
  match ls with
  | [] => kret b
  | l :: r =>
    operand <~ litNode l; z <~ apply b operand BAnd; x <~ addRef z true;
    match x with
    | None => bad
    | Some z => delRef b ~; delRef operand ~; litLoop r z
    end
  end.
Definition compileLiterals (ls : list formula) : K Z :=
  match ls with [] => kret 0 | l :: r => b <~ litNode l; litLoop r b end.

(** ** bdd.go 149-219 compile *)
(** [h i] is the handler's answer to its [i]-th event, [i] the number of events so far; the
    result [None] is a cancelled compilation. *)
Section Compile.
Variable cf : encConfig.
Variable h : nat -> bool.
(** bdd.go 196-213 *)
Fixpoint compOps (rec : formula -> nat -> C (option Z * nat)) (o : bop) (ops : list formula) (res : Z) (i : nat) : C (option Z * nat) :=
  match ops with
  | [] => cret (Some res, i)
  | f :: r =>
    p <== rec f i ;;
    match p with
    | (None, i) => cret (None, i)
    | (Some operand, i) =>
      z <== onK (apply res operand o) ;; x <== onK (addRef z (h i)) ;; _ <== onK (delRef res) ;; _ <== onK (delRef operand) ;;
      match x with None => cret (None, S i) | Some z => compOps rec o r z (S i) end
    end
  end.
Fixpoint compile (n : nat) (f : formula) (i : nat) : C (option Z * nat) :=
  match n with
  | O => fun _ _ => CStuck
  | S n =>
    match srt f with
    | SFalse => cret (Some 0, i)
    | STrue => cret (Some 1, i)
    | SLit => z <== onK (litNode f) ;; cret (Some z, i)
    | SNot =>
      g <== cget (opNot f) ;; p <== compile n g i ;;
      match p with
      | (None, i) => cret (None, i)
      | (Some operand, i) => z <== onK (bnot operand) ;; x <== onK (addRef z (h i)) ;; _ <== onK (delRef operand) ;; cret (x, S i)
      end
    | SImpl | SEquiv =>
      lr <== cget (opBin f) ;; p <== compile n (fst lr) i ;;
      match p with
      | (None, i) => cret (None, i)
      | (Some lft, i) =>
        q <== compile n (snd lr) i ;;
        match q with
        | (None, i) => cret (None, i)
        | (Some rgt, i) =>
          z <== onK (apply lft rgt (match srt f with SImpl => BImp | _ => BEquiv end)) ;; x <== onK (addRef z (h i)) ;;
          _ <== onK (delRef lft) ;; _ <== onK (delRef rgt) ;; cret (x, S i)
        end
      end
    | SAnd | SOr =>
      ops <== cget (opNary f) ;;
      match ops with
      | [] => fun _ _ => CPanic
      | g :: r =>
        p <== compile n g i ;;
        match p with
        | (None, i) => cret (None, i)
        | (Some res, i) => compOps (compile n) (match srt f with SAnd => BAnd | _ => BOr end) r res i
        end
      end
    | SCC | SPBC => g <== onM (NNF n cf f) ;; compile n g i
    end
  end.
(** bdd.go 86-98 CompileWithKernelAndHandler; event 0 is BddComputationStarted *)
Definition compileHandler (n : nat) (f : formula) : C (option Z) :=
  if h 0%nat then p <== compile n f 1%nat ;; cret (fst p) else cret None.
End Compile.
(** bdd.go 78-81 CompileWithKernel: the handler that never cancels *)
Definition compileKernel (n : nat) (cf : encConfig) (f : formula) : C (option Z) := compileHandler cf (fun _ => true) n f.

(** ** Operations: bdd.go 240-308; both BDDs on the same kernel *)
Definition referenced (m : K Z) : K Z := z <~ m; x <~ addRef z true; kret (match x with Some z => z | None => -1 end).
Definition bddNegate (b : Z) : K Z := referenced (bnot b).
Definition bddImplies (b c : Z) : K Z := referenced (apply b c BImp).
Definition bddImpliedBy (b c : Z) : K Z := referenced (apply c b BImp).
Definition bddEquivalence (b c : Z) : K Z := referenced (apply b c BEquiv).
Definition bddAnd (b c : Z) : K Z := referenced (apply b c BAnd).
Definition bddOr (b c : Z) : K Z := referenced (apply b c BOr).
Definition isTautology (b : Z) : bool := b =? 1.
Definition isContradiction (b : Z) : bool := b =? 0.
(** bdd.go 338-355; the variables as literals *)
Definition bddRestrict (b : Z) (ls : list formula) : K Z := v <~ compileLiterals ls; restrict b v.
Definition bddExists (b : Z) (vs : list formula) : K Z := v <~ compileLiterals vs; exists_ b v.
Definition bddForAll (b : Z) (vs : list formula) : K Z := v <~ compileLiterals vs; forAll b v.

(** ** Creating kernels *)
(** kernel.go 127-133 NewKernelWithOrdering *)
Definition newKernelOrd (order : list formula) (size csize : Z) (g : Z -> Z -> Z) : outcome unit :=
  (setNumberOfVars (Z.of_nat (List.length order)) ~; for_each order (fun v => _ <~ getOrAddVarIndex v; kret tt))
  (emptyKernel (Z.of_nat (List.length order)) size csize g).
