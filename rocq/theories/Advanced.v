(** * The advanced simplifier and the Quine-McCluskey simplification (simplification/advanced.go)

    The SAT solver calls are arguments.  [E1] and [E2] are the solvers and the handler as the
    computation of the prime implicants (Primes.v) and of the smallest unsatisfiable set
    (Smus.v) see them; the answer of the backbone computation (right by C50) is [bb].
    Simplification: these calls do not change the factory; names stand for the literals that
    the computation of prime implicants returns. *)
From Coq Require Import String List Bool ZArith NArith.
From Verif Require Import Spec Factory FactoryApi FactoryProps Assign NormalForm Simplify.
From Verif Require Solver Mus Smus Primes.
Import ListNotations.

(** advanced.go:17-23 [Config]; the rating function is an argument of the simplifier: [less s g f]
    says that the rating of [g] is smaller than that of [f]. *)
Record advConfig := AdvCfg { ac_factor : bool; ac_backbone : bool; ac_negations : bool; ac_rate : bool }.
(** advanced.go:39-47 and 65-71 *)
Definition defaultAdv : advConfig := AdvCfg true true true true.
Definition qmcAdv : advConfig := AdvCfg false false false false.

(** The answer of [ComputeBackboneWithHandler]: cancelled; unsatisfiable; the positive and the negative variables *)
Inductive bbAnswer := BbCancelled | BbUnsat | BbSat (ps ns : list formula).
Inductive advRes := AdvOk (g : formula) | AdvCancelled.

(** The formula as the solvers see it: it is read through the accessors of the factory. *)
Definition readM (n : nat) (f : formula) : M tree :=
  fun s => match readf n s f with Some t => Some (t, s) | None => None end.

(** advanced.go:178-188 [negateAllLiterals] *)
Definition negateTerm (I : list lit) : M formula :=
  ls <- mapM (fun l => up (Lit (fst l) (negb (snd l)))) I ;; up (Or ls).
Definition negateAllLiterals (imps : list (list lit)) : M (list formula) := mapM negateTerm imps.
(** advanced.go:190-201 [negateAllLiteralsInFormulas] *)
Definition negateClause (n : nat) (f : formula) : M formula :=
  ls <- literalsOf n f ;; ms <- mapM (fun l => up (negateLit l)) (content ls) ;; up (Minterm ms).
Definition negateAllLiteralsInFormulas (n : nat) (fs : list formula) : M (list formula) := mapM (negateClause n) fs.

(** smus.go:35-60 [ComputeForFormulasWithHandler]: the formulas become propositions, the
    propositions of the result become formulas again. *)
Definition propsOf (ts : list tree) : list Mus.prop := map (fun p => Mus.mkProp (fst p) (snd p)) (combine (seq 0 (length ts)) ts).
Definition formulasOf (gs : list formula) (R : list Mus.prop) : list formula := map (fun p => nth (Mus.p_id p) gs ffalse) R.

(** advanced.go:155-176 [computeMinDNF]; a nil result of the smallest unsatisfiable set is an empty list. *)
Definition computeMinDNF (n : nat) (E1 E2 : Solver.env) (f : formula) : M advRes :=
  t <- readM n f ;;
  match Primes.primes (Primes.primeFuel t) E1 t Primes.CoverImplicants false with
  | Primes.PRes imps _ =>
    gs <- negateAllLiterals imps ;;
    ts <- mapM (readM n) gs ;;
    match Smus.smus (Smus.smusFuel (propsOf ts)) E2 (propsOf ts) [t] with
    | Smus.SProps R => ms <- negateAllLiteralsInFormulas n (formulasOf gs R) ;; d <- up (Or ms) ;; ret (AdvOk d)
    | Smus.SNil => d <- up (Or []) ;; ret (AdvOk d)
    | Smus.SCanceled => ret AdvCancelled
    | Smus.SPanic | Smus.SFuel => fail
    end
  | Primes.PCanceled => ret AdvCancelled
  | Primes.PPanic | Primes.PFuel => fail
  end.

(** advanced.go:203-213 [simplifyWithRating] *)
Definition simplifyWithRating (cfg : advConfig) (less : rating) (f g : formula) : M formula :=
  if ac_rate cfg then b <- get (fun s => less s g f) ;; ret (if b then g else f) else ret g.

(** sat/backbone.go:38-51 [CompleteBackbone] *)
Definition completeBackbone (ps ns : list formula) : M (list formula) :=
  nls <- mapM (fun v => up (negateLit v)) ns ;; ret (ps ++ nls).

Section Advanced.
Variables (len : formula -> N) (cf : encConfig) (less : rating) (cfg : advConfig).
(** advanced.go:122-141: after the restriction; [ls] are the literals of the backbone *)
Definition advancedRest (n : nat) (E1 E2 : Solver.env) (ls : list formula) (f : formula) : M advRes :=
  r <- computeMinDNF n E1 E2 f ;;
  match r with
  | AdvCancelled => ret AdvCancelled
  | AdvOk d =>
    f2 <- simplifyWithRating cfg less f d ;;
    f3 <- (if ac_factor cfg then g <- factorOut less n f2 ;; simplifyWithRating cfg less f2 g else ret f2) ;;
    f4 <- (if ac_backbone cfg then m <- up (Minterm ls) ;; up (And [m; f3]) else ret f3) ;;
    f5 <- (if ac_negations cfg then g <- minimizeNegations len n cf f4 ;; simplifyWithRating cfg less f4 g else ret f4) ;;
    ret (AdvOk f5)
  end.
(** advanced.go:95-142 [AdvancedWithHandler]; [start]: the handler lets the computation start *)
Definition advanced (n : nat) (start : bool) (bb : bbAnswer) (E1 E2 : Solver.env) (f : formula) : M advRes :=
  if negb start then ret AdvCancelled
  else if ac_backbone cfg then
    match bb with
    | BbCancelled => ret AdvCancelled
    | BbUnsat => ret (AdvOk ffalse)
    | BbSat ps ns =>
      ls <- completeBackbone ps ns ;;
      match newAssignment ls with
      | None => fail
      | Some a => g <- restrict n a f ;; advancedRest n E1 E2 ls g
      end
    end
  else advancedRest n E1 E2 [] f.
End Advanced.
