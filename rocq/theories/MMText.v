(** * MMText: reading Matrix Market files from their characters (src/coomatrix.cpp:30-163, 185-225) *)
From Coq Require Import ZArith Ascii String.
From Verif Require Import Base Alg Nd Coo.
Open Scope nat_scope.

(** ** Streams *)
(** A [std::ifstream] (or [std::istringstream]): the characters not yet read, eofbit and failbit. badbit (device errors) is not modelled. *)
Record istream := IStream { buf : string; eofbit : bool; failbit : bool }.
Definition good (st : istream) : bool := negb (eofbit st) && negb (failbit st).
Definition newline : ascii := "010".
Fixpoint take_line (s : string) : string * string * bool :=
  match s with
  | EmptyString => (EmptyString, EmptyString, false)
  | String c s => if Ascii.eqb c newline then (EmptyString, s, true) else let '(l, r, b) := take_line s in (String c l, r, b)
  end.
(** [std::getline(fin, line)], C++17 [string.io]: the string is cleared only if the stream is good; failbit if nothing was extracted *)
Definition getline (st : istream) (line : string) : string * istream :=
  if good st then
    match take_line (buf st) with
    | (l, r, true) => (l, IStream r false false)
    | (l, r, false) => (l, IStream r true (String.eqb l ""))
    end
  else (line, IStream (buf st) (eofbit st) true).
Fixpoint skipws (s : string) : string :=
  match s with String c s' => if is_space c then skipws s' else s | EmptyString => s end.
Definition is_digit (c : ascii) : bool := let n := nat_of_ascii c in (48 <=? n) && (n <=? 57).
Definition digit (c : ascii) : Z := Z.of_nat (nat_of_ascii c) - 48.
(** the longest sequence of digits: whether there is one, the number, the rest *)
Fixpoint scan_digits (any : bool) (acc : Z) (s : string) : bool * Z * string :=
  match s with
  | String c s' => if is_digit c then scan_digits true (10 * acc + digit c) s' else (any, acc, s)
  | EmptyString => (any, acc, s)
  end.
(** sign and digits, as in [strtol] and [std::num_get] for a decimal [int] *)
Definition scan_int (s : string) : option (Z * string) :=
  let '(neg, s) := match s with
    | String c s' => if Ascii.eqb c "-" then (true, s') else if Ascii.eqb c "+" then (false, s') else (false, s)
    | EmptyString => (false, s)
    end in
  let '(any, n, r) := scan_digits false 0 s in
  if any then Some (if neg : bool then (- n)%Z else n, r) else None.
Definition int_max : Z := 2147483647.
Definition int_min : Z := -2147483648.
Definition fits_int (n : Z) : bool := ((int_min <=? n) && (n <=? int_max))%Z.
(** [std::stoi]: trailing characters are ignored. The two exceptions both end in abort (src/coomatrix.cpp:116-127). *)
Definition stoi (w : string) : res Z :=
  match scan_int (skipws w) with
  | Some (n, _) => if fits_int n then Ok n else Throw "abort"
  | None => Throw "abort"
  end.
(** [fin >> i] for an [int]: what is stored ([None]: the variable keeps its value), and the stream. If the characters are not a number,
    zero is stored; if it is too large, the largest or smallest [int]. Where a failed stream stands is not said exactly (nothing more is read from it). *)
Definition get_int (st : istream) : option Z * istream :=
  if good st then
    match skipws (buf st) with
    | EmptyString => (None, IStream "" true true)
    | r =>
      match scan_int r with
      | Some (n, r') => (Some (if fits_int n then n else if (n <? 0)%Z then int_min else int_max), IStream r' (String.eqb r' "") (negb (fits_int n)))
      | None => (Some 0%Z, IStream r false true)
      end
    end
  else (None, IStream (buf st) (eofbit st) true).

(** ** The readers *)
(** src/coomatrix.cpp:94-97: comments are skipped. [fuel]: a bound on the number of lines read; [Fuel]: the bound was reached. *)
Fixpoint skip_comments (fuel : nat) (st : istream) (line : string) : res (string * istream) :=
  match line with
  | String c _ =>
    if Ascii.eqb c "%" then
      match fuel with
      | 0 => Fuel
      | S fuel => let '(line, st) := getline st line in skip_comments fuel st line
      end
    else Ok (line, st)
  | EmptyString => Ok (line, st)
  end.
(** src/coomatrix.cpp:89-130 getSizeFromMatrixMarket *)
Definition sizes_text (fuel : nat) (st : istream) (d : mm_desc) : res (list Z * istream) :=
  let! (line, st) := skip_comments fuel st "%" in
  let sizestr := words line in
  let need := match storagetype d with COORDINATE => 3 | ARRAY => 2 end in
  if length sizestr <? need then Throw "abort" else
  let! sizes := mapr stoi sizestr in
  Ok (sizes, st).

Section Read.
  Context {F : Type} {O : SOps F}.
  (** [fin >> x] for a floating-point number behind blanks: the value stored, whether the conversion succeeded, the rest of the characters.
      The C++ library's conversion is a parameter. *)
  Variable scan_real : string -> F * bool * string.
  Definition get_real (st : istream) (x : F) : F * istream :=
    if good st then
      match skipws (buf st) with
      | EmptyString => (x, IStream "" true true)
      | r => let '(v, done, r') := scan_real r in (v, IStream r' (String.eqb r' "") (negb done))
      end
    else (x, IStream (buf st) (eofbit st) true).
  (** src/coomatrix.cpp:217-222: entries i, ..., i+k-1. [old]: the values in the array before. ri and ci are not initialised: undefined if not stored. *)
  Fixpoint read_entries (k i : nat) (old : list F) (st : istream) : res (list (Z * Z * F) * istream) :=
    match k with
    | 0 => Ok ([], st)
    | S k =>
      let '(ri, st) := get_int st in
      let '(ci, st) := get_int st in
      let '(v, st) := get_real st (default s0 (old !! i)) in
      match ri, ci with
      | Some ri, Some ci => let! (es, st) := read_entries k (i + 1) old st in Ok ((ri, ci, v) :: es, st)
      | _, _ => UB
      end
    end.
  (** src/coomatrix.cpp:188-223, up to the closing of the file. [text]: the characters of the file, [None] if it cannot be opened. *)
  Definition read_text (fuel : nat) (old : list F) (text : option string) : res (string * list Z * list (Z * Z * F)) :=
    match text with
    | None => Throw "abort"
    | Some text =>
      let '(header, st) := getline (IStream text false false) "" in
      let! d := getMMDescription header in
      match storagetype d with COORDINATE =>
        match scalartype d with PATTERN => Throw "! COOMatrix: readMatrixMarket: Cannot read pattern matrices." | _ =>
          match matrixtype d with GENERAL =>
            let! (sizes, st) := sizes_text fuel st d in
            let! nnz := get sizes 2 in
            if (nnz <? 0)%Z then Throw "length_error" else
            let! (body, _) := read_entries (Z.to_nat nnz) 0 old st in
            Ok (header, sizes, body)
          | _ => Throw "! COOMatrix: readMatrixMarket: Can only read general matrices." end
        end
      | _ => Throw "! COOMatrix: readMatrixMarket: Can only read coordinate storage." end
    end.
  (** The numbers of a file as naturals, if no size is negative and no index below 1 (see Coo) *)
  Definition as_file (header : string) (sizes : list Z) (body : list (Z * Z * F)) : option (mmfile F) :=
    if forallb (fun n => 0 <=? n)%Z sizes && forallb (fun t => (1 <=? t.1.1) && (1 <=? t.1.2))%Z body
    then Some (MMFile header (Z.to_nat <$> sizes) ((fun t => (Z.to_nat t.1.1, Z.to_nat t.1.2, t.2)) <$> body)) else None.
  (** src/coomatrix.cpp:188-259 COOMatrix::readMatrixMarket on the characters of a file. Nothing is said about files with
      negative sizes or indices below 1. More lines than characters cannot be read before the loop of skip_comments repeats itself. *)
  Definition readMatrixMarket_text (old : coo F) (text : option string) : nd (coo F) :=
    let fuel := S (S (String.length (default EmptyString text))) in
    ndo (header, sizes, body) := nlift (read_text fuel (value <$> entries old) text) in
    match as_file header sizes body with
    | Some file => readMatrixMarket old file
    | None => fun _ => True
    end.
  (** src/coomatrix.cpp:154-156 *)
  Fixpoint read_values (k : nat) (st : istream) : list F :=
    match k with 0 => [] | S k => let '(v, st) := get_real st s0 in v :: read_values k st end.
  (** src/coomatrix.cpp:132-160 readDenseMatrixMarket. The new vector holds zeros. The product of the sizes must be an [int]. *)
  Definition readDense_text (fuel : nat) (text : option string) : res (list F) :=
    match text with
    | None => Throw "abort"
    | Some text =>
      let '(header, st) := getline (IStream text false false) "" in
      let! d := getMMDescription header in
      match matrixtype d with GENERAL =>
        match storagetype d with ARRAY =>
          let! (sizes, st) := sizes_text fuel st d in
          if length sizes <? 2 then Throw "Size vector has less than 2 entries!" else
          let! m := get sizes 0 in
          let! n := get sizes 1 in
          if negb (fits_int (m * n)) then UB else
          if (m * n <? 0)%Z then Throw "length_error" else
          Ok (read_values (Z.to_nat (m * n)) st)
        | _ => Throw "Matrix should be stored as dense!" end
      | _ => Throw "Matrix should be general!" end
    end.
End Read.
