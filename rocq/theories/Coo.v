(** * Coo: coordinate matrices (include/coomatrix.hpp, src/coomatrix.cpp)

    Not modelled: opening and closing files, messages, the conversion of text to numbers,
    the asserts. [std::abort()] is the outcome [Throw "abort"]. *)
From Verif Require Import Base Alg SRMatrix Nd Reorder.
From Coq Require Import ZArith Ascii.
Open Scope nat_scope.

(** ** Header *)
(** include/coomatrix.hpp:34-38 *)
Inductive mm_matrix := GENERAL | SYMMETRIC | SKEWSYMMETRIC | HERMITIAN.
Inductive mm_storage := COORDINATE | ARRAY.
Inductive mm_scalar := REAL | COMPLEX | INTEGER | PATTERN.
(** include/coomatrix.hpp:43-47 MMDescription *)
Record mm_desc := MMDesc { storagetype : mm_storage; scalartype : mm_scalar; matrixtype : mm_matrix }.

(** [std::isspace] in the default locale *)
Definition is_space (c : ascii) : bool :=
  let n := nat_of_ascii c in (n =? 32) || ((9 <=? n) && (n <=? 13)).
(** reading all words of a line by [operator>>], src/coomatrix.cpp:36-37; [w]: the word being read *)
Fixpoint words_from (w : string) (s : string) : list string :=
  match s with
  | EmptyString => if String.eqb w "" then [] else [w]
  | String c s => if is_space c then if String.eqb w "" then words_from "" s else w :: words_from "" s
                  else words_from (w ++ String c "")%string s
  end.
Definition words (s : string) : list string := words_from "" s.

(** src/coomatrix.cpp:30-85 getMMDescription, given the first line *)
Definition getMMDescription (line : string) : res mm_desc :=
  let w := words line in
  if negb (length w =? 5) then Throw "! Not enough terms in the header!" else
  let! w0 := get w 0 in
  if negb (String.eqb w0 "%%MatrixMarket") then Throw "! Not a matrix market file!" else
  let! w2 := get w 2 in
  let! st := if String.eqb w2 "coordinate" then Ok COORDINATE
             else if String.eqb w2 "array" then Ok ARRAY else Throw "abort" in
  let! w3 := get w 3 in
  let! sc := if String.eqb w3 "real" then Ok REAL
             else if String.eqb w3 "complex" then Ok COMPLEX
             else if String.eqb w3 "integer" then Ok INTEGER
             else if String.eqb w3 "patter" then Ok PATTERN else Throw "abort" in
  let! w4 := get w 4 in
  let! mt := if String.eqb w4 "general" then Ok GENERAL
             else if String.eqb w4 "symmetric" then Ok SYMMETRIC
             else if String.eqb w4 "skewsymmetric" then Ok SKEWSYMMETRIC
             else if String.eqb w4 "hermitian" then Ok HERMITIAN else Throw "abort" in
  Ok (MMDesc st sc mt).

(** ** The matrix *)
(** include/coomatrix.hpp:55-59 Entry. Indices are naturals: row or column numbers below
    1 in a file are outside of the model. *)
Record entry (F : Type) := Entry { rowind : nat; colind : nat; value : F }.
Arguments Entry {F}. Arguments rowind {F}. Arguments colind {F}. Arguments value {F}.
(** include/coomatrix.hpp:112-117 *)
Record coo (F : Type) := Coo { entries : list (entry F); coo_nnz : nat; nrows : nat; ncols : nat; rowptr : list nat }.
Arguments Coo {F}. Arguments entries {F}. Arguments coo_nnz {F}. Arguments nrows {F}. Arguments ncols {F}. Arguments rowptr {F}.

(** A coordinate file: first line, numbers on the size line, and the triples behind it, in file order *)
Record mmfile (F : Type) := MMFile { mm_header : string; mm_sizes : list nat; mm_body : list (nat * nat * F) }.
Arguments MMFile {F}. Arguments mm_header {F}. Arguments mm_sizes {F}. Arguments mm_body {F}.

Section Read.
  Context {F : Type}.
  (** src/coomatrix.cpp:102-107, 112: the size vector for a coordinate file *)
  Definition getSizeFromMatrixMarket (sizes : list nat) (d : mm_desc) : res (list nat) :=
    let need := match storagetype d with COORDINATE => 3 | ARRAY => 2 end in
    if length sizes <? need then Throw "abort" else Ok sizes.
  (** [std::sort] of the entries at positions [a], ..., [b]-1 by [key]: some sorted permutation *)
  Definition sort_range (key : entry F -> nat) (a b : nat) (es : list (entry F)) : nd (list (entry F)) := fun o =>
    if decide (a <= b <= length es) then
      exists mid, mid ≡ₚ take (b - a) (drop a es) /\
        (forall i j x y, i < j -> mid !! i = Some x -> mid !! j = Some y -> key x <= key y) /\
        o = Ok (take a es ++ mid ++ drop b es)
    else o = UB.
  (** src/coomatrix.cpp:238-247, one entry *)
  Definition ptr_step (es : list (entry F)) (k : nat) (s : list (option nat) * list nat * nat) : res (list (option nat) * list nat * nat) :=
    let '(rowits, rowptr, nextrow) := s in
    let! e := get es k in
    let! e' := get es (k - 1) in
    if negb (rowind e =? rowind e') then
      let! rowits := set rowits nextrow (Some k) in
      let! rowptr := set rowptr nextrow k in
      Ok (rowits, rowptr, nextrow + 1)
    else Ok (rowits, rowptr, nextrow).
  (** src/coomatrix.cpp:230-258, the entries sorted by row. [oldptr]: the member rowptr before
      the call. [rowits] holds positions; [None]: an iterator pointing nowhere. *)
  Definition row_pointers (oldptr : list nat) (nnz nrows ncols : nat) (es : list (entry F)) : nd (coo F) :=
    (* 231-234 *)
    ndo rowptr := nlift (set (vresize (nrows + 1) oldptr) 0 0) in
    ndo rowits := nlift (set (replicate (nrows + 1) None) 0 (Some 0)) in
    (* 238: entries.begin()+1 *)
    ndo _ := nlift (if length es =? 0 then UB else Ok tt) in
    (* 236-247 *)
    ndo (rowits, rowptr, nextrow) := nlift (for_ 1 (length es) (ptr_step es) (rowits, rowptr, 1)) in
    (* 250-251 *)
    ndo rowits := nlift (set rowits nrows (Some (length es))) in
    ndo rowptr := nlift (set rowptr nrows nnz) in
    (* 254-258 *)
    ndo es := nfor 0 nrows (fun i es =>
      ndo a := nlift (get rowits i) in
      ndo b := nlift (get rowits (i + 1)) in
      match a, b with
      | Some a, Some b => sort_range colind a b es
      | _, _ => nlift UB
      end) es in
    nret (Coo es nnz nrows ncols rowptr).
  (** src/coomatrix.cpp:188-259 COOMatrix::readMatrixMarket. [old]: the object before the
      call. A file with too few triples leaves uninitialised numbers behind: [UB]. *)
  Definition readMatrixMarket (old : coo F) (file : mmfile F) : nd (coo F) :=
    ndo d := nlift (getMMDescription (mm_header file)) in
    (* 199-207 *)
    match storagetype d with COORDINATE =>
      match scalartype d with PATTERN => nlift (Throw "! COOMatrix: readMatrixMarket: Cannot read pattern matrices.") | _ =>
        match matrixtype d with GENERAL =>
          ndo sizes := nlift (getSizeFromMatrixMarket (mm_sizes file) d) in
          ndo nnz := nlift (get sizes 2) in
          ndo nrows := nlift (get sizes 0) in
          ndo ncols := nlift (get sizes 1) in
          (* 217-222 *)
          ndo es := nlift (mapr (fun i =>
            let! (ri, ci, v) := get (mm_body file) i in Ok (Entry (ri - 1) (ci - 1) v)) (seq 0 nnz)) in
          (* 227-228 *)
          ndo es := sort_range rowind 0 (length es) es in
          row_pointers (rowptr old) nnz nrows ncols es
        | _ => nlift (Throw "! COOMatrix: readMatrixMarket: Can only read general matrices.") end
      end
    | _ => nlift (Throw "! COOMatrix: readMatrixMarket: Can only read coordinate storage.") end.
End Read.

(** a new array of length [n] with unknown contents [g] (ArrayView::resize, include/arrayview.hpp:88-98) *)
Definition alloc {A} (g : nat -> A) (n : nat) : list A := g <$> seq 0 n.

Section Convert.
  Context {F : Type} {O : SOps F}.
  (** src/coomatrix.cpp:261-295 COOMatrix::convertToCSR. [gp], [gi], [gv], [gd]: contents of
      the four arrays after allocation (266-269). The row end pointers are the row pointers
      behind the first (285-286). *)
  Definition convertToCSR (gp gi : nat -> nat) (gv : nat -> F) (gd : nat -> nat) (c : coo F) : res (srmat F) :=
    let! (bcolind, vals) := for_ 0 (coo_nnz c) (fun i '(bcolind, vals) =>
      let! e := get (entries c) i in
      let! bcolind := set bcolind i (colind e) in
      let! vals := set vals i (value e) in
      Ok (bcolind, vals)) (alloc gi (coo_nnz c), alloc gv (coo_nnz c)) in
    let! browptr := for_ 0 (nrows c + 1) (fun i browptr =>
      let! p := get (rowptr c) i in set browptr i p) (alloc gp (nrows c + 1)) in
    let! diagind := for_ 0 (nrows c) (fun i diagind =>
      let! lo := get (rowptr c) i in
      let! hi := get (rowptr c) (i + 1) in
      for_ lo hi (fun j diagind =>
        let! e := get (entries c) j in
        if colind e =? rowind e then set diagind i j else Ok diagind) diagind) (alloc gd (nrows c)) in
    let! nnzb := get browptr (nrows c) in
    Ok (SR browptr bcolind vals diagind (take (nrows c) (drop 1 browptr)) (nrows c) nnzb nnzb).

  (** [std::find] from position [i] on, [k] positions long *)
  Fixpoint find_from (x k i : nat) (l : list nat) : res (option nat) :=
    match k with
    | 0 => Ok None
    | S k => let! y := get l i in if y =? x then Ok (Some i) else find_from x k (i + 1) l
    end.
  (** src/coomatrix.cpp:297-403 COOMatrix::convertToBSR. The second component of the result is
      the array of diagonal indices, -1 standing for no diagonal block; in the first it appears with
      0 for -1. *)
  Definition convertToBSR (so : storage) (bs : nat) (gp gi : nat -> nat) (gv : nat -> F) (gd : nat -> Z) (c : coo F)
      : res (srmat F * list Z) :=
    let N := nrows c / bs in
    (* 315-318 *)
    let! diagind := for_ 0 N (fun i d => set d i (-1)%Z) (alloc gd N) in
    let! browptr := for_ 0 (N + 1) (fun i p => set p i 0) (alloc gp (N + 1)) in
    (* 323, 329-353 *)
    let! (browptr, diagind, bcolidxs, _) := for_ 0 (nrows c) (fun irow s =>
      let curbrow := irow / bs in
      let! lo := get (rowptr c) irow in
      let! hi := get (rowptr c) (irow + 1) in
      for_ lo hi (fun j s =>
        let! e := get (entries c) j in
        let '(browptr, diagind, bcolidxs, tally) := s in
        let curbcol := colind e / bs in
        let bnnz := length bcolidxs in
        let! t := get tally curbrow in
        let! (browptr, tally) := if negb t then
            let! browptr := set browptr curbrow bnnz in
            let! tally := set tally curbrow true in
            Ok (browptr, tally)
          else Ok (browptr, tally) in
        let! start := get browptr curbrow in
        let! it := find_from curbcol (length bcolidxs - start) start bcolidxs in
        match it with
        | Some _ => Ok (browptr, diagind, bcolidxs, tally)
        | None =>
          let! diagind := if curbcol =? curbrow then set diagind curbrow (Z.of_nat bnnz) else Ok diagind in
          Ok (browptr, diagind, bcolidxs ++ [curbcol], tally)
        end) s) (browptr, diagind, [], replicate N false) in
    let bnnz := length bcolidxs in
    let! browptr := set browptr N bnnz in
    (* 359-361 *)
    let! browptr := forl (rev (range 1 N)) (fun i p =>
      let! a := get p i in
      if a =? 0 then let! b := get p (i + 1) in set p i b else Ok p) browptr in
    (* 363-370 *)
    let! vals := for_ 0 (bnnz * bs * bs) (fun i v => set v i s0) (alloc gv (bnnz * bs * bs)) in
    let! bcolind := for_ 0 bnnz (fun i b => let! x := get bcolidxs i in set b i x) (alloc gi bnnz) in
    (* 373-395 *)
    let! vals := for_ 0 (nrows c) (fun irow vals =>
      let curbrow := irow / bs in
      let! lo := get (rowptr c) irow in
      let! hi := get (rowptr c) (irow + 1) in
      for_ lo hi (fun j vals =>
        let! e := get (entries c) j in
        let curcol := colind e in
        let curbcol := curcol / bs in
        let offset := match so with
          | RowMajor => (irow - curbrow * bs) * bs + (curcol - curbcol * bs)
          | ColMajor => (curcol - curbcol * bs) * bs + (irow - curbrow * bs) end in
        let! s := get browptr curbrow in
        let! e' := get browptr (curbrow + 1) in
        let! bcptr := if e' <? s then UB else find_from curbcol (e' - s) s bcolind in
        match bcptr with
        | None => Throw "abort"
        | Some b => set vals (b * bs * bs + offset) (value e)
        end) vals) vals in
    Ok (SR browptr bcolind vals (Z.to_nat <$> diagind) (take N (drop 1 browptr)) N bnnz bnnz, diagind).

  (** src/coomatrix.cpp:426-439 getSRMatrixFromCOO *)
  Definition getSRMatrixFromCOO (bs : nat) (storageorder : string) (gp gi : nat -> nat) (gv : nat -> F) (gd : nat -> Z) (c : coo F)
      : res (srmat F * list Z) :=
    if bs =? 1 then
      let! M := convertToCSR gp gi gv (fun i => Z.to_nat (gd i)) c in Ok (M, Z.of_nat <$> diagind M)
    else if String.eqb storageorder "rowmajor" then convertToBSR RowMajor bs gp gi gv gd c
    else if String.eqb storageorder "colmajor" then convertToBSR ColMajor bs gp gi gv gd c
    else Throw "getSRMatrixFromCOO: invalid storage order!".
End Convert.
