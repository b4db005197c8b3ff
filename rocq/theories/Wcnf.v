(** * Model of the reader for MaxSAT files: maxsat/reader.go

    Files are byte strings and errors of the file system are left out, as in Dimacs.v; numbers do not overflow. *)
From Coq Require Import String Ascii List Bool Arith ZArith NArith DecimalString.
From Verif Require Import Spec Factory Assign EncSpec EncPbc NormalForm MaxApi Dimacs.
Import ListNotations.
Local Close Scope N_scope.

(** strings.TrimSpace, for the ASCII white space *)
Fixpoint trimL (t : string) : string := match t with String c r => if isSpace c then trimL r else t | EmptyString => EmptyString end.
Fixpoint trimR (t : string) : string :=
  match t with
  | EmptyString => EmptyString
  | String c r => match trimR r with EmptyString => if isSpace c then EmptyString else String c EmptyString | r' => String c r' end
  end.
Definition trim (t : string) : string := trimR (trimL t).
(** strings.Split with the separator " "; [cur] is the part read so far *)
Fixpoint splitSp (cur t : string) : list string :=
  match t with
  | EmptyString => [cur]
  | String c r => if Ascii.eqb c " " then cur :: splitSp "" r else splitSp (cur ++ String c "")%string r
  end.
(** strconv.Atoi; [None] is the error *)
Definition digitsZ (t : string) : option Z := match NilZero.uint_of_string t with Some u => Some (Z.of_N (N.of_uint u)) | None => None end.
Definition atoi (t : string) : option Z :=
  match t with
  | String c r => if Ascii.eqb c "-" then option_map Z.opp (digitsZ r) else if Ascii.eqb c "+" then digitsZ r else digitsZ t
  | EmptyString => None
  end.

(** the lines the scanner delivers: it stops at a line that does not fit into its buffer, and the reader does not ask it for the error *)
Fixpoint scanned (ls : list string) : list string := match ls with l :: r => if lineFits l then l :: scanned r else [] | [] => [] end.
(** reader.go:23-38: pureMaxSat, hardWeight and the lines after the header. Atoi returns 0 with a syntax error. *)
Fixpoint header (ls : list string) : bool * Z * list string :=
  match ls with
  | [] => (false, (-1)%Z, [])
  | l :: r =>
      if String.prefix "p wcnf" l then
        let h := splitSp "" (trim l) in
        (false, if 4 <? length h then match atoi (nth 4 h EmptyString) with Some z => z | None => 0%Z end else (-1)%Z, r)
      else if String.prefix "p cnf" l then (true, (-1)%Z, r)
      else header r
  end.
(** reader.go:51-61: the literals of a clause; an empty token leaves the zero value of a formula, which is the constant false. [None] is the error. *)
Fixpoint litsOf (toks : list string) : M (option (list formula)) :=
  match toks with
  | [] => ret (Some [])
  | EmptyString :: r => o <- litsOf r ;; ret (option_map (cons ffalse) o)
  | t :: r =>
      match atoi t with
      | None => ret None
      | Some z => l <- up (Lit ("v" ++ dec (Z.abs_nat z))%string (0 <? z)%Z) ;; o <- litsOf r ;; ret (option_map (cons l) o)
      end
  end.

Section Reader.
Variables (cf : encConfig) (nf : cnfConfig).
(** reader.go:39-70; false is the error. make panics with a negative length. The error of AddSoftFormula for weights below 1 is dropped. *)
Fixpoint readClauses (n : nat) (pure : bool) (hw : Z) (ls : list string) (w : maxw) : M (bool * maxw) :=
  match ls with
  | [] => ret (true, w)
  | l :: r =>
      let toks := splitSp "" (trim l) in
      match atoi (hd EmptyString toks) with
      | None => ret (false, w)
      | Some wt =>
          let start := if pure then 0 else 1 in
          if length toks <? start + 1 then fail
          else
            o <- litsOf (removelast (skipn start toks)) ;;
            match o with
            | None => ret (false, w)
            | Some vs =>
                c <- up (Or vs) ;;
                w' <- (if pure then q <- addSoftFormula cf nf n c 1 w ;; ret (snd q)
                       else if Z.eqb wt hw then addHardFormula cf nf n c w
                       else q <- addSoftFormula cf nf n c wt w ;; ret (snd q)) ;;
                readClauses n pure hw r w'
            end
      end
  end.
(** reader.go:17-72 ReadDimacsToSolver *)
Definition readToSolver (n : nat) (text : string) (w : maxw) : M (bool * maxw) :=
  match header (scanned (scanLines "" text)) with (pure, hw, ls) => readClauses n pure hw ls w end.
End Reader.
