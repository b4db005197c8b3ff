(** * Model of the DIMACS files (io/dimacs_writer.go, io/dimacs_reader.go)

    A file is its text, a string of bytes.  Creating, opening and closing files and the errors
    of the file system are left out. *)
From Coq Require Import String Ascii List Bool Arith NArith DecimalString.
From Verif Require Import Spec Factory Assign NormalForm.
Import ListNotations.
Local Open Scope string_scope.

(** %d of a number that is not negative *)
Definition dec (n : nat) : string := NilEmpty.string_of_uint (N.to_uint (N.of_nat n)).
Definition LF : ascii := ascii_of_nat 10.
Definition nl : string := String LF EmptyString.

(** ** Writer *)
Section Writer.
(** formula/set.go 123-129 Content: the elements of a set in the order of their ids; any order here *)
Variable ord : list formula -> list formula.
(** a Go map read: 0 for a missing key *)
Fixpoint idOf (ids : list (formula * nat)) (v : formula) : nat :=
  match ids with [] => 0 | (w, i) :: r => if feqb w v then i else idOf r v end.
(** dimacs_writer.go 80-87 *)
Definition writeLit (ids : list (formula * nat)) (l : formula) (s : state) : string :=
  let phase := match LitNamePhase l s with Some (_, p) => p | None => false end in
  (if phase then "" else "-") ++ dec (idOf ids (litVariable l)).
(** dimacs_writer.go 77-92 *)
Definition writePart (ids : list (formula * nat)) (n : nat) (part : formula) : M string :=
  lits <- literalsOf n part ;;
  ws <- get (fun s => map (fun l => writeLit ids l s) (ord lits)) ;;
  ret (String.concat " " ws ++ " 0" ++ nl).
(** dimacs_writer.go 53-101 WriteDimacsToWriter: the text and the numbers of the variables; [None]: the formula is not in CNF *)
Definition writeDimacs (n : nat) (f : formula) : M (option (string * list (formula * nat))) :=
  b <- isCNF f ;;
  if negb b then ret None else
  vs <- variables n f ;;
  let ids := combine (ord vs) (seq 1 (length (ord vs))) in
  parts <- match srt f with SLit | SOr => ret [f] | _ => get (Operands f) end ;;
  let size := match srt f with SFalse => 1 | _ => length parts end in
  ls <- mapM (writePart ids n) parts ;;
  ret (Some ("p cnf " ++ dec (length ids) ++ " " ++ dec size ++ nl ++ String.concat "" ls ++ match srt f with SFalse => "0" ++ nl | _ => "" end, ids)).
End Writer.

(** ** Reader *)
(** the ASCII characters of unicode.IsSpace. Simplified: bytes of longer characters are no spaces *)
Definition isSpace (c : ascii) : bool := let n := nat_of_ascii c in (((9 <=? n) && (n <=? 13)) || (n =? 32))%nat.
(** strings.Fields; [cur] is the field read so far *)
Fixpoint fields (cur t : string) : list string :=
  match t with
  | EmptyString => match cur with EmptyString => [] | _ => [cur] end
  | String c r => if isSpace c then match cur with EmptyString => fields "" r | _ => cur :: fields "" r end else fields (cur ++ String c "") r
  end.
(** bufio.ScanLines without its removal of a carriage return at the end of a line, a space for [fields] *)
Fixpoint scanLines (cur t : string) : list string :=
  match t with
  | EmptyString => match cur with EmptyString => [] | _ => [cur] end
  | String c r => if Ascii.eqb c LF then cur :: scanLines "" r else scanLines (cur ++ String c "") r
  end.
Definition hasPrefix (p : ascii) (t : string) : bool := match t with String c _ => Ascii.eqb c p | EmptyString => false end.
(** dimacs_reader.go 50-56 *)
Definition readLit (pfx tok : string) : state -> formula * state :=
  match tok with
  | String c r => if Ascii.eqb c "-" then Lit (pfx ++ r) false else Var (pfx ++ tok)
  | EmptyString => Var (pfx ++ tok)
  end.
Fixpoint readLits (pfx : string) (toks : list string) (s : state) : list formula * state :=
  match toks with
  | [] => ([], s)
  | t :: r => let (l, s1) := readLit pfx t s in let (ls, s2) := readLits pfx r s1 in (l :: ls, s2)
  end.
Inductive readRes := ReadOk (gs : list formula) | NoZero | TooLong.
(** bufio.MaxScanTokenSize: a line and its end do not fit into the buffer of the scanner *)
Definition lineFits (line : string) : bool := N.ltb (N.of_nat (String.length line)) 65536.
(** dimacs_reader.go 41-65: the loop over the lines. The last field is read first (44). *)
Fixpoint readLoop (pfx : string) (ls : list string) (acc : list formula) (s : state) : readRes * state :=
  match ls with
  | [] => (ReadOk acc, s)
  | line :: r =>
      if negb (lineFits line) then (TooLong, s)
      else if hasPrefix "c" line || hasPrefix "p" line then readLoop pfx r acc s
      else match rev (fields "" line) with
           | [] => readLoop pfx r acc s
           | z :: toks => if negb (z =? "0") then (NoZero, s)
                          else let (vs, s1) := readLits pfx (rev toks) s in
                               let (c, s2) := Or vs s1 in readLoop pfx r (acc ++ [c]) s2
           end
  end%string.
(** dimacs_reader.go 31-66 ReadDimacsFile *)
Definition readDimacs (pfx text : string) : state -> readRes * state := readLoop pfx (scanLines "" text) [].
