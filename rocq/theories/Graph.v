(* Formula graphs, connected components and constraint graphs (graph package). *)
From Coq Require Import List Arith Lia Bool.
From Verif Require Import Queue.
Import ListNotations.
Open Scope nat_scope.

(* Formulas are the factory's 32-bit handles, modelled as naturals. *)

(* graph/formula_graph.go:10-14 FormulaGraph; the map nodeCache is a list of pairs
   searched from the front *)
Record fgraph := mkGraph {
  nodeCache : list (nat * nat);
  nodes : list nat;
  adjList : list (list nat)
}.

(* graph/formula_graph.go:17-19 NewFormulaGraph *)
Definition newGraph : fgraph := mkGraph [] [] [].

Fixpoint lookupNat (m : list (nat * nat)) (k : nat) : option nat :=
  match m with
  | [] => None
  | (a, b) :: r => if k =? a then Some b else lookupNat r k
  end.

(* graph/formula_graph.go:42-51 AddNode *)
Definition addNode (g : fgraph) (f : nat) : fgraph * nat :=
  match lookupNat (nodeCache g) f with
  | Some idx => (g, idx)
  | None =>
    let idx := length (nodes g) in
    (mkGraph ((f, idx) :: nodeCache g) (nodes g ++ [f]) (adjList g ++ [[]]), idx)
  end.

(* slices.BinarySearch on an ascending slice: the first position whose element is
   not smaller than the target, and whether the target is there; and
   slices.Insert at that position when it is not *)
Fixpoint insertAsc (l : list nat) (x : nat) : list nat :=
  match l with
  | [] => [x]
  | a :: r => if a <? x then a :: insertAsc r x else if a =? x then l else x :: l
  end.

(* graph/formula_graph.go:54-67 Connect; None is an index-out-of-range panic *)
Definition addEdge (g : fgraph) (i j : nat) : option fgraph :=
  match nth_error (adjList g) i with
  | None => None
  | Some l =>
    match setAt (adjList g) i (insertAsc l j) with
    | None => None
    | Some adj => Some (mkGraph (nodeCache g) (nodes g) adj)
    end
  end.

Definition connect (g : fgraph) (n1 n2 : nat) : option fgraph :=
  let '(g1, i) := addNode g n1 in
  let '(g2, j) := addNode g1 n2 in
  if i =? j then Some g2
  else match addEdge g2 i j with
       | None => None
       | Some g3 => addEdge g3 j i
       end.

(* graph/connected_components.go:26-34 deepFirstSearch; the state is the
   component found so far and the marks.  `fuel` bounds the recursion depth. *)
Fixpoint dfs (fuel : nat) (g : fgraph) (v : nat) (st : list nat * list bool)
  : option (list nat * list bool) :=
  match fuel with
  | O => None
  | S k =>
    match nth_error (nodes g) v, setAt (snd st) v true, nth_error (adjList g) v with
    | Some node, Some marked, Some neighs =>
      (fix go (ns : list nat) (st : list nat * list bool) :=
         match ns with
         | [] => Some st
         | n :: r =>
           match nth_error (snd st) n with
           | None => None
           | Some true => go r st
           | Some false => match dfs k g n st with Some st' => go r st' | None => None end
           end
         end) neighs (fst st ++ [node], marked)
    | _, _, _ => None
    end
  end.

(* slices.Index(marked, false) *)
Fixpoint indexFalse (i : nat) (m : list bool) : option nat :=
  match m with
  | [] => None
  | b :: r => if b then indexFalse (S i) r else Some i
  end.

(* graph/connected_components.go:17-22 the loop; the first start node is 0, the next
   ones are the first unmarked nodes *)
Fixpoint componentsLoop (fuel : nat) (g : fgraph) (idx : nat) (marked : list bool)
  (acc : list (list nat)) : option (list (list nat)) :=
  match fuel with
  | O => None
  | S k =>
    match dfs (length (nodes g)) g idx ([], marked) with
    | None => None
    | Some (comp, marked') =>
      match indexFalse 0 marked' with
      | None => Some (acc ++ [comp])
      | Some i => componentsLoop k g i marked' (acc ++ [comp])
      end
    end
  end.

(* graph/connected_components.go:12-24 ComputeConnectedComponents *)
Definition components (g : fgraph) : option (list (list nat)) :=
  match nodes g with
  | [] => Some []
  | _ => componentsLoop (length (nodes g)) g 0 (repeat false (length (nodes g))) []
  end.

(* graph/constraint_graph.go:16-26 addSubformula; vs is the content of
   f.Variables(fac, formula) *)
Fixpoint connectTo (g : fgraph) (v : nat) (ws : list nat) : option fgraph :=
  match ws with
  | [] => Some g
  | w :: r => match connect g v w with Some g' => connectTo g' v r | None => None end
  end.

Fixpoint connectAll (g : fgraph) (vs : list nat) : option fgraph :=
  match vs with
  | [] => Some g
  | v :: r => match connectTo g v r with Some g' => connectAll g' r | None => None end
  end.

Definition addSubformula (g : fgraph) (vs : list nat) : option fgraph :=
  let g1 := match vs with [v] => fst (addNode g v) | _ => g end in
  connectAll g1 vs.

(* graph/constraint_graph.go:8-14 GenerateConstraintGraph; vars is f.Variables *)
Fixpoint constraintGraphFrom (vars : nat -> list nat) (g : fgraph) (fs : list nat) : option fgraph :=
  match fs with
  | [] => Some g
  | f :: r => match addSubformula g (vars f) with
              | Some g' => constraintGraphFrom vars g' r
              | None => None
              end
  end.
Definition constraintGraph (vars : nat -> list nat) (fs : list nat) : option fgraph :=
  constraintGraphFrom vars newGraph fs.

(* graph/connected_components.go:43-49 varMap: a later entry for the same variable
   overwrites an earlier one, so the list of pairs is built in reverse *)
Fixpoint varMapFrom (i : nat) (comps : list (list nat)) (m : list (nat * nat)) : list (nat * nat) :=
  match comps with
  | [] => m
  | c :: r => varMapFrom (S i) r (rev (map (fun v => (v, i)) c) ++ m)
  end.

(* appending to one of the groups *)
Fixpoint appendAt (groups : list (list nat)) (i : nat) (f : nat) : option (list (list nat)) :=
  match groups, i with
  | [], _ => None
  | g :: r, O => Some ((g ++ [f]) :: r)
  | g :: r, S j => match appendAt r j f with Some r' => Some (g :: r') | None => None end
  end.

(* graph/connected_components.go:50-64 the loop over the formulas; None is the panic
   for a variable without component.  isNeg tells whether a formula without
   variables is the falsum. *)
Fixpoint splitLoop (vars : nat -> list nat) (isNeg : nat -> bool) (falsum : nat)
  (vm : list (nat * nat)) (fs : list nat) (groups : list (list nat)) : option (list (list nat)) :=
  match fs with
  | [] => Some groups
  | f :: r =>
    match vars f with
    | v :: _ =>
      match lookupNat vm v with
      | None => None
      | Some c =>
        match appendAt groups c f with
        | Some groups' => splitLoop vars isNeg falsum vm r groups'
        | None => None
        end
      end
    | [] => splitLoop vars isNeg falsum vm r
              (if isNeg f then groups ++ [[falsum]] else groups)
    end
  end.

(* graph/connected_components.go:41-66 SplitFormulasByComponent *)
Definition split (vars : nat -> list nat) (isNeg : nat -> bool) (falsum : nat)
  (fs : list nat) (comps : list (list nat)) : option (list (list nat)) :=
  splitLoop vars isNeg falsum (varMapFrom 0 comps []) fs (map (fun _ => []) comps).
