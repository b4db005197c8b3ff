(** * Model enumeration and counting (model/iter, model/enum, model/count) *)
From Coq Require Import String List Bool Arith Lia ZArith.
From Verif Require Import Spec Solver Optimize Smus Primes.
Import ListNotations.

(** model/iter/strategy.go:16-49 (Strategy).  [None] stands for
    [math.MaxInt]. *)
Record strategy := mkStrategy {
  st_maxIter : nat -> option nat;
  st_maxSplit : nat -> option nat;
  st_split : nat -> list string -> solver -> list string;
  st_reduce : list string -> nat -> list string
}.

(** model/iter/strategy.go:52-77 (NoSplitStrategy). *)
Definition noSplit : strategy := mkStrategy (fun _ => None) (fun _ => None) (fun _ _ _ => []) (fun _ _ => []).

(** model/iter/strategy.go:79-128 (BasicStrategy).  A variable set is a list of
    names in the order of the identifiers of the variables (formula/set.go:176-184). *)
Definition firstHalf (vs : list string) : list string := firstn (Nat.div2 (length vs)) vs.
Definition basicStrategy (provider : solver -> list string -> list string) (maxModels : nat) : strategy :=
  mkStrategy (fun _ => Some (max maxModels 3)) (fun _ => Some (max maxModels 3))
    (fun depth vs s => match depth with O => provider s vs | _ => firstHalf vs end)
    (fun vs _ => firstHalf vs).

(** model/iter/split.go:20-34 (FixedVarProvider). *)
Definition fixedProvider (vs : list string) : solver -> list string -> list string := fun _ _ => vs.

(** model/iter/collectors.go:18-38 (Collector).  What the methods do to the
    collector; the question to the handler at the end of each method is asked
    by the functions below. *)
Record collector (C : Type) := mkCollector {
  c_add : C -> list lit -> C;
  c_commit : C -> C;
  c_rollback : C -> C;
  c_models : C -> list (list lit)
}.
Arguments c_add {C}. Arguments c_commit {C}. Arguments c_rollback {C}. Arguments c_models {C}.

(** hdl.ShouldResume *)
Definition ask (E : env) (s : solver) : bool * solver := (e_resume E (s_time s), atTime (S (s_time s)) s).

(** model/iter/iteration.go:199-230 (generateBlockingClause) and the call of
    AddClause on the core solver. *)
Definition block (rel : list string) (b : asg) (s : solver) : solver :=
  mkSolver (s_forms s ++ [TOr (map (fun x => TLit (x, negb (b x))) rel)]) (s_known s) (s_states s) (s_next s) (S (s_time s)).

(** sat/solver.go:66-80 (Add) for literals: their variables get an index. *)
Definition addLits (s : solver) (ls : list lit) : solver :=
  mkSolver (s_forms s ++ map TLit ls) (s_known s ++ map fst ls) (s_states s) (s_next s) (s_time s).

Definition without (ys xs : list string) : list string := filter (fun x => negb (existsb (String.eqb x) ys)) xs.

Inductive iterRes := IFinished | IMore | ICanceled | IPanic | IFuel.

Section Iter.
Variable E : env.
Context {C : Type} (K : collector C).

Definition reached (mx : option nat) (n : nat) : bool := match mx with Some m => Nat.leb m n | None => false end.

(** model/iter/iteration.go:165-186: the loop of iterate.  A cancelled SAT call
    ends the loop as an unsatisfiable one does (lines 194-197, iterSATCall). *)
Fixpoint iterLoop (fuel : nat) (mx : option nat) (rel all : list string) (found : nat) (s : solver) (c : C) : iterRes * solver * C :=
  match fuel with
  | O => (IFuel, s, c)
  | S fuel' =>
      match call E s [] with
      | (Sat b, s1) =>
          if reached mx (S found) then (IMore, s1, c)
          else
            let c1 := c_add K c (modelOf all b) in
            let '(resume, s2) := ask E s1 in
            if resume then
              match s_known s2 with
              | [] => (IFinished, s2, c1)
              | _ => iterLoop fuel' mx rel all (S found) (block rel b s2) c1
              end
            else (ICanceled, s2, c1)
      | (_, s1) => (IFinished, s1, c)
      end
  end.

(** model/iter/iteration.go:150-192 (iterate) with relevantIndicesFromSolver
    and relevantAllIndicesFromSolver (lines 232-270): indices are modelled by
    the names of the known variables. *)
Definition iterate (s : solver) (c : C) (vars add : list string) (mx : option nat) : iterRes * solver * C :=
  let '(id, s0) := saveState s in
  let rel := filter (knows s0) vars in
  let all := rel ++ filter (knows s0) (without vars add) in
  let '(r, s1, c1) := iterLoop (S (2 ^ length rel)) mx rel all 0 s0 c in
  match r with
  | IPanic | IFuel => (r, s1, c1)
  | _ => match loadState s1 id with None => (IPanic, s1, c1) | Some s2 => (r, s2, c1) end
  end.

Inductive recRes := RecOk | RecCanceled | RecPanic | RecFuel.

Definition restore (s : solver) (id : nat) (c : C) (r : recRes) : recRes * solver * C :=
  match loadState s id with None => (RecPanic, s, c) | Some s' => (r, s', c) end.

Variables (S0 : strategy) (vars add : list string).

(** model/iter/iteration.go:90-116: the loop which looks for split
    assignments.  [inr] is the return from the function. *)
Fixpoint splitLoop (fuel : nat) (depth id : nat) (s : solver) (c : C) (split : list string) :
    (list string * solver * C) + (recRes * solver * C) :=
  match fuel with
  | O => inr (RecFuel, s, c)
  | S fuel' =>
      let '(r, s1, c1) := iterate s c split [] (st_maxSplit S0 depth) in
      match r with
      | IPanic => inr (RecPanic, s1, c1)
      | IFuel => inr (RecFuel, s1, c1)
      | ICanceled =>
          let '(r, s2, c2) := restore s1 id (c_rollback K c1) RecCanceled in
          inr (r, snd (ask E s2), c2)
      | IFinished => inl (split, s1, c1)
      | IMore =>
          let c2 := c_rollback K c1 in
          let '(resume, s2) := ask E s1 in
          if resume then splitLoop fuel' depth id s2 c2 (st_reduce S0 split depth)
          else inr (restore s2 id c2 RecCanceled)
      end
  end.

(** model/iter/iteration.go:130-142: the loop over the split assignments.  The
    result of the recursive call is dropped. *)
Fixpoint childLoop (rec : solver -> C -> list lit -> recRes * solver * C) (id : nat) (s : solver) (c : C)
    (asgs : list (list lit)) : recRes * solver * C :=
  match asgs with
  | [] => restore s id c RecOk
  | a :: r =>
      match rec s c a with
      | (RecPanic, s1, c1) => (RecPanic, s1, c1)
      | (RecFuel, s1, c1) => (RecFuel, s1, c1)
      | (_, s1, c1) =>
          let c2 := c_commit K c1 in
          let '(resume, s2) := ask E s1 in
          if resume then childLoop rec id s2 c2 r else restore s2 id c2 RecCanceled
      end
  end.

(** model/iter/iteration.go:64-148 (iterRecursive). *)
Fixpoint iterRecursive (fuel rfuel : nat) (depth : nat) (split : list string) (s : solver) (c : C) (splitModel : list lit) :
    recRes * solver * C :=
  match fuel with
  | O => (RecFuel, s, c)
  | S fuel' =>
      let '(id, s0) := saveState s in
      let s1 := addLits s0 splitModel in
      let '(r, s2, c1) := iterate s1 c vars add (st_maxIter S0 depth) in
      match r with
      | IPanic => (RecPanic, s2, c1)
      | IFuel => (RecFuel, s2, c1)
      | ICanceled => (RecCanceled, snd (ask E s2), c_commit K c1)
      | IFinished =>
          let c2 := c_commit K c1 in
          let '(resume, s3) := ask E s2 in
          restore s3 id c2 (if resume then RecOk else RecCanceled)
      | IMore =>
          let c2 := c_rollback K c1 in
          let '(resume, s3) := ask E s2 in
          if resume then
            match splitLoop rfuel depth id s3 c2 split with
            | inr res => res
            | inl (newSplit, s4, c3) =>
                let remaining := without (map fst splitModel) (without newSplit vars) in
                let asgs := c_models K c3 in
                let c4 := c_rollback K c3 in
                let '(resume, s5) := ask E s4 in
                if resume then
                  let next := st_split S0 (S depth) remaining s5 in
                  childLoop (fun s c a => iterRecursive fuel' rfuel (S depth) next s c (a ++ splitModel)) id s5 c4 asgs
                else restore s5 id c4 RecCanceled
            end
          else restore s3 id c2 RecCanceled
      end
  end.

(** model/iter/iteration.go:44-62 (Iterate): [None] is the empty element, which
    is returned when the handler cancels at the start. *)
Definition iterateAll (fuel rfuel : nat) (newCollector : list string -> list string -> C) (s : solver) : recRes * solver * option C :=
  let '(resume, s0) := ask E s in
  if resume then
    let c0 := newCollector (filter (fun x => negb (knows s0 x)) vars) (filter (fun x => negb (knows s0 x)) add) in
    let '(r, s1, c1) := iterRecursive fuel rfuel 0 (st_split S0 0 vars s0) s0 c0 [] in
    (r, s1, Some c1)
  else (RecCanceled, s0, None).
End Iter.

(** model/enum/enumeration.go:75-156 (modelEnumCollector). *)
Record enumState := mkEnum { en_committed : list (list lit); en_uncommitted : list (list lit); en_base : list (list lit); en_extra : list lit }.
Definition enumCollector : collector enumState := {|
  c_add := fun c m => mkEnum (en_committed c) (en_uncommitted c ++ [en_extra c ++ m]) (en_base c) (en_extra c);
  c_commit := fun c => mkEnum (en_committed c ++ flat_map (fun b => map (fun u => b ++ u) (en_uncommitted c)) (en_base c)) [] (en_base c) (en_extra c);
  c_rollback := fun c => mkEnum (en_committed c) [] (en_base c) (en_extra c);
  c_models := en_uncommitted
|}.
(** model/enum/enumeration.go:158-171 (getCartesianProduct). *)
Fixpoint cartesian (vs : list string) (acc : list (list lit)) : list (list lit) :=
  match vs with
  | [] => acc
  | v :: r => cartesian r (flat_map (fun ls => [ls ++ [(v, true)]; ls ++ [(v, false)]]) acc)
  end.
Definition newEnum (dontCare add : list string) : enumState := mkEnum [] [] (cartesian dontCare [[]]) (map (fun x => (x, false)) add).

(** model/count/sat_counting.go:47-114 (modelCountCollector).  The models are
    translated to literals when they are added. *)
Record countState := mkCount { ct_committed : N; ct_uncommitted : list (list lit); ct_factor : N }.
Definition countCollector : collector countState := {|
  c_add := fun c m => mkCount (ct_committed c) (ct_uncommitted c ++ [m]) (ct_factor c);
  c_commit := fun c => mkCount (ct_committed c + N.of_nat (length (ct_uncommitted c)) * ct_factor c) [] (ct_factor c);
  c_rollback := fun c => mkCount (ct_committed c) [] (ct_factor c);
  c_models := ct_uncommitted
|}.
Definition newCount (dontCare _ : list string) : countState := mkCount 0 [] (2 ^ N.of_nat (length dontCare)).

(** model/enum/enumeration.go:55-73 (OnSolverWithConfig): the models.  The
    variables are put into sets (formula/set.go:40-49). *)
Definition enumerate (fuel rfuel : nat) (E : env) (S0 : strategy) (s : solver) (vars add : list string) : recRes * solver * list (list lit) :=
  match iterateAll E enumCollector S0 (nodup string_dec vars) (nodup string_dec add) fuel rfuel newEnum s with
  | (r, s', Some c) => (r, s', en_committed c)
  | (r, s', None) => (r, s', [])
  end.

(** model/count/sat_counting.go:39-45 (OnSolverWithConfig): the number of models. *)
Definition countModels (fuel rfuel : nat) (E : env) (S0 : strategy) (s : solver) (vars : list string) : recRes * solver * N :=
  match iterateAll E countCollector S0 (nodup string_dec vars) [] fuel rfuel newCount s with
  | (r, s', Some c) => (r, s', ct_committed c)
  | (r, s', None) => (r, s', 0%N)
  end.
