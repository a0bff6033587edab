(** * PetscIo: reading PETSc matrices and vectors from files (src/utils/blasted_petsc_io.cpp, src/coomatrix.cpp:133-164),
    and reading single options (src/utils/cmdoptions.cpp)

    PETSc is represented by what its manual says about the calls used here. A function of these files which returns a nonzero
    error code has the outcome [Throw "PETSc error"]. Output on the screen is left out. *)
From Coq Require Import ZArith.
From Verif Require Import Base Alg SRMatrix Nd Reorder Coo.
Open Scope nat_scope.

(** ** PETSc matrices on one process *)
(** block size, numbers of rows and columns, the option MAT_ROW_ORIENTED, the values *)
Record pmat (F : Type) := PMat { pm_bs : nat; pm_m : nat; pm_n : nat; pm_roworiented : bool; pm_val : nat -> nat -> F }.
Arguments PMat {F}. Arguments pm_bs {F}. Arguments pm_m {F}. Arguments pm_n {F}. Arguments pm_roworiented {F}. Arguments pm_val {F}.

Definition petsc_error {A} : res A := Throw "PETSc error".
(** the macro CHKERRQ *)
Definition CHKERRQ (ierr : bool) : res unit := if ierr then petsc_error else Ok tt.

Section Mat.
  Context {F : Type} {O : SOps F}.
  (** PETSc: MatCreate, MatSetFromOptions; [bs]: the block size among the options, 1 if there is none *)
  Definition MatCreate (bs : nat) : pmat F := PMat bs 0 0 true (fun _ _ => s0).
  (** PETSc: MatSetBlockSize *)
  Definition MatSetBlockSize (A : pmat F) (bs : nat) : pmat F := PMat bs (pm_m A) (pm_n A) (pm_roworiented A) (pm_val A).
  (** PETSc: MatSetSizes, MatSetUp; the sizes must be multiples of the block size *)
  Definition MatSetUp (A : pmat F) (m n : nat) : res (pmat F) :=
    if (m mod pm_bs A =? 0) && (n mod pm_bs A =? 0) then Ok (PMat (pm_bs A) m n (pm_roworiented A) (pm_val A)) else petsc_error.
  (** PETSc: MatSetOption with MAT_ROW_ORIENTED *)
  Definition MatSetRowOriented (A : pmat F) (b : bool) : pmat F := PMat (pm_bs A) (pm_m A) (pm_n A) b (pm_val A).
  Definition insert_value (i j : nat) (v : F) (A : pmat F) : pmat F :=
    PMat (pm_bs A) (pm_m A) (pm_n A) (pm_roworiented A)
      (fun i' j' => if (i' =? i) && (j' =? j) then v else pm_val A i' j').
  (** PETSc: MatSetValues of one row with INSERT_VALUES. The second component of the result says whether an error code is
      returned. Indices out of range are found only if PETSc has been built for debugging ([dbg]). *)
  Definition MatSetValues (dbg : bool) (A : pmat F) (row ncols : nat) (colinds : list nat) (values : list F) : res (pmat F * bool) :=
    for_ 0 ncols (fun l '(A, ierr) =>
      if ierr : bool then Ok (A, ierr) else
      let! c := get colinds l in
      let! v := get values l in
      if (row <? pm_m A) && (c <? pm_n A) then Ok (insert_value row c v A, false)
      else if dbg then Ok (A, true) else UB) (A, false).
  (** PETSc: MatSetValuesBlocked of one block row: [values] is an array of [pm_bs] rows and [ncols * pm_bs] columns stored by rows or
      by columns *)
  Definition MatSetValuesBlocked (dbg : bool) (A : pmat F) (row ncols : nat) (colinds : list nat) (values : list F) : res (pmat F * bool) :=
    let bs := pm_bs A in
    for_ 0 ncols (fun l '(A, ierr) =>
      if ierr : bool then Ok (A, ierr) else
      let! c := get colinds l in
      if (row * bs <? pm_m A) && (c * bs <? pm_n A) then
        let! A := for_ 0 bs (fun jj A => for_ 0 bs (fun ii A =>
          let! v := get values (if pm_roworiented A then ii * (ncols * bs) + (l * bs + jj) else (l * bs + jj) * bs + ii) in
          Ok (insert_value (row * bs + ii) (c * bs + jj) v A)) A) A in
        Ok (A, false)
      else if dbg then Ok (A, true) else UB) (A, false).
  (** PETSc: MatCreateMPIAIJWithArrays on one process: a new [m] by [n] matrix with copies of the rows *)
  Definition MatCreateMPIAIJWithArrays (dbg : bool) (m n : nat) (i j : list nat) (a : list F) : res (pmat F) :=
    let! i0 := get i 0 in
    let! _ := CHKERRQ (negb (i0 =? 0)) in
    for_ 0 m (fun row A =>
      let! b := get i row in
      let! e := get i (row + 1) in
      let! (A, ierr) := MatSetValues dbg A row (e - b) (drop b j) (drop b a) in
      let! _ := CHKERRQ ierr in
      Ok A) (PMat 1 m n true (fun _ _ => s0)).

  (** the object [cmat] after its default constructor, include/coomatrix.hpp:62-63; the numbers, which are not initialised, are overwritten *)
  Definition cmat0 : coo F := Coo [] 0 0 0 [].

  (** src/utils/blasted_petsc_io.cpp:77-98: one row. [ierr] is the code of the call for the previous row. *)
  Definition insert_row (dbg : bool) (cmat : coo F) (irow : nat) (s : pmat F * bool) : res (pmat F * bool) :=
    let '(A, _) := s in
    let rowptrs := rowptr cmat in
    let! start := get rowptrs irow in
    let! e := get (entries cmat) start in
    if negb (irow =? rowind e) then Throw "Encountered invalid COO row indices!" else
    let! stop := get rowptrs (irow + 1) in
    let ncols := stop - start in
    let! (colinds, values) := for_ start stop (fun jr '(colinds, values) =>
      let jlr := jr - start in
      let! e := get (entries cmat) jr in
      let! colinds := set colinds jlr (colind e) in
      let! values := set values jlr (value e) in
      Ok (colinds, values)) (replicate ncols 0, replicate ncols s0) in
    MatSetValues dbg A irow ncols colinds values.
  (** src/utils/blasted_petsc_io.cpp:46-108 readMatFromCOOFile: all matrices created, and the position of the one returned.
      The code of the loop is looked at behind the loop only (100). *)
  Definition readMatFromCOOFile (dbg : bool) (bs : nat) (file : mmfile F) : nd (list (pmat F) * nat) :=
    ndo cmat := readMatrixMarket cmat0 file in
    nlift (
      let A := MatCreate bs in
      let! A := MatSetUp A (nrows cmat) (ncols cmat) in
      let A := MatSetRowOriented A false in
      let! (A, ierr) := for_ 0 (nrows cmat) (insert_row dbg cmat) (A, false) in
      let! _ := CHKERRQ ierr in
      Ok ([A], 0)).

  (** src/utils/blasted_petsc_io.cpp:110-190 readMatFromCOOFile_viaSR; [gp] ... [gd]: contents of new arrays. The pointers of 173-174 are
      the remainders of the arrays. The matrix created in 127 is not destroyed in 162, where its handle is overwritten. *)
  Definition readMatFromCOOFile_viaSR (dbg : bool) (mpisize bs : nat) (gp gi : nat -> nat) (gv : nat -> F) (gd : nat -> Z) (file : mmfile F)
      : nd (list (pmat F) * nat) :=
    if 1 <? mpisize then nlift (Throw " Currently only 1 rank is supported") else
    ndo cmat := readMatrixMarket cmat0 file in
    nlift (
      let A := MatCreate bs in
      let! (rmat, A, bs) :=
        (if (bs =? 3) || (bs =? 4) || (bs =? 7) then
           let! (rmat, _) := getSRMatrixFromCOO bs "colmajor" gp gi gv gd cmat in Ok (rmat, A, bs)
         else
           let! (rmat, _) := getSRMatrixFromCOO 1 "colmajor" gp gi gv gd cmat in Ok (rmat, MatSetBlockSize A 1, 1)) in
      if bs =? 1 then
        let! A' := MatCreateMPIAIJWithArrays dbg (nbrows rmat) (nbrows rmat) (browptr rmat) (bcolind rmat) (vals rmat) in
        Ok ([A; A'], 1)
      else
        let! A := MatSetUp A (nrows cmat) (ncols cmat) in
        let A := MatSetRowOriented A false in
        let! A := for_ 0 (nbrows rmat) (fun i A =>
          let! b := get (browptr rmat) i in
          let colinds := drop b (bcolind rmat) in
          let values := drop (b * bs * bs) (vals rmat) in
          let! e := get (browptr rmat) (i + 1) in
          let ncols := e - b in
          let! (A, ierr) := (if bs =? 1 then MatSetValues dbg A i ncols colinds values else MatSetValuesBlocked dbg A i ncols colinds values) in
          let! _ := CHKERRQ ierr in
          Ok A) A in
        Ok ([A], 0)).

  (** ** Vectors *)
  (** A dense file: first line, numbers on the size line, and the words behind it, [None] standing for a word which is not a number *)
  Record densefile := DenseFile { df_header : string; df_sizes : list nat; df_body : list (option F) }.
  (** [fin >> vals[i]]: the value stored, the state of the stream ([false]: failed) and the words left. At the end of the file the variable
      keeps its value [old]; a word which is not a number makes it zero. *)
  Definition extract (st : bool * list (option F)) (old : F) : F * (bool * list (option F)) :=
    match st with
    | (false, ws) => (old, (false, ws))
    | (true, []) => (old, (false, []))
    | (true, Some x :: ws) => (x, (true, ws))
    | (true, None :: ws) => (s0, (false, None :: ws))
    end.
  (** src/coomatrix.cpp:133-164 readDenseMatrixMarket *)
  Definition readDenseMatrixMarket (file : densefile) : res (list F) :=
    let! d := getMMDescription (df_header file) in
    match matrixtype d with GENERAL =>
      match storagetype d with ARRAY =>
        let! sizes := getSizeFromMatrixMarket (df_sizes file) d in
        if length sizes <? 2 then Throw "Size vector has less than 2 entries!" else
        let! a := get sizes 0 in
        let! b := get sizes 1 in
        let! (vals, _) := for_ 0 (a * b) (fun i '(vals, st) =>
          let! old := get vals i in
          let '(x, st) := extract st old in
          let! vals := set vals i x in
          Ok (vals, st)) (replicate (a * b) s0, (true, df_body file)) in
        Ok vals
      | _ => Throw "Matrix should be stored as dense!" end
    | _ => Throw "Matrix should be general!" end.
  (** src/utils/blasted_petsc_io.cpp:16-43 readVecFromFile. [a]: the number of rows of the matrix, if one is given. New PETSc vectors are zero;
      an index out of range (36) is found only in a debugging build. *)
  Definition readVecFromFile (dbg : bool) (a : option nat) (file : densefile) : res (list F) :=
    let! array := readDenseMatrixMarket file in
    let size := length array in
    let v := replicate (match a with Some m => m | None => size end) s0 in
    let! indices := for_ 0 size (fun i indices => set indices i i) (replicate size 0) in
    let! (v, ierr) := for_ 0 size (fun k '(v, ierr) =>
      if ierr : bool then Ok (v, ierr) else
      let! i := get indices k in
      let! x := get array k in
      if i <? length v then let! v := set v i x in Ok (v, false) else if dbg then Ok (v, true) else UB) (v, false) in
    let! _ := CHKERRQ ierr in
    Ok v.
End Mat.
Arguments densefile : clear implicits.
Arguments DenseFile {F}.

(** ** Options *)
(** What the database holds for an option: nothing, a text that cannot be read as the type asked for, or a value *)
Inductive given (A : Type) := Unset | Bad | Value (a : A).
Arguments Unset {A}. Arguments Bad {A}. Arguments Value {A}.
(** include/utils/cmdoptions.hpp:31-36 InputNotGivenError *)
Definition InputNotGiven {A} (kind name : string) : res A := Throw ("Input not given: " ++ kind ++ " " ++ name ++ " not set").
(** include/utils/cmdoptions.hpp:22-29 Petsc_exception *)
Definition PetscException {A} : res A := Throw "PETSc error".
(** PetscOptionsGetInt and the like: the output variable (which keeps the value [out] if the option is not set) and the flag *)
Definition options_get {A} (g : given A) (out : A) : res (A * bool) :=
  match g with Unset => Ok (out, false) | Bad => PetscException | Value a => Ok (a, true) end.
(** src/utils/cmdoptions.cpp:49-59 *)
Definition parsePetscCmd_isDefined {A} (g : given A) : bool := match g with Unset => false | _ => true end.
(** src/utils/cmdoptions.cpp:64-74 *)
Definition parsePetscCmd_int (name : string) (g : given Z) : res Z :=
  let! (output, isset) := options_get g 0%Z in
  if negb isset then InputNotGiven "Integer" name else Ok output.
(** src/utils/cmdoptions.cpp:79-90 *)
Definition parseOptionalPetscCmd_real {F} {O : SOps F} (g : given F) (defval : F) : res F :=
  let! (output, isset) := options_get g s0 in
  Ok (if negb isset then defval else output).
(** src/utils/cmdoptions.cpp:92-102 *)
Definition parsePetscCmd_bool (name : string) (g : given bool) : res bool :=
  let! (output, isset) := options_get g false in
  if negb isset then InputNotGiven "Boolean" name else Ok output.
(** src/utils/cmdoptions.cpp:105-117. PETSc stores at most [p_strlen]-1 characters; nothing is stored if [p_strlen] is 0, and the buffer is
    then read uninitialised. The second component: is the buffer freed? *)
Definition parsePetscCmd_string (name : string) (p_strlen : nat) (g : given string) : res string * bool :=
  match g with
  | Unset => (InputNotGiven "String" name, false)
  | Bad => (PetscException, false)
  | Value s => if p_strlen =? 0 then (UB, false) else (Ok (substring 0 (p_strlen - 1) s), true)
  end.
(** PETSc: PetscOptionsGetIntArray into an array of length [len arr]: array, number of entries read, flag. At most that many entries are
    stored; if the option is not set the number is set to 0. *)
Definition options_get_array (g : given (list Z)) (arr : list Z) : res (list Z * nat * bool) :=
  match g with
  | Unset => Ok (arr, 0, false)
  | Bad => PetscException
  | Value l => let k := Nat.min (length l) (length arr) in Ok (take k l ++ drop k arr, k, true)
  end.
(** src/utils/cmdoptions.cpp:122-137 *)
Definition parsePetscCmd_intArray (name : string) (maxlen : nat) (g : given (list Z)) : res (list Z) :=
  let arr := replicate maxlen 0%Z in
  let! (arr, len, isset) := options_get_array g arr in
  let arr := take len arr ++ replicate (len - length arr) 0%Z in
  if negb isset then InputNotGiven "Array" name else Ok arr.
(** src/utils/cmdoptions.cpp:139-154 *)
Definition parseOptionalPetscCmd_intArray (name : string) (maxlen : nat) (g : given (list Z)) : res (list Z) :=
  let arr := replicate maxlen 0%Z in
  let! (arr, len, isset) := options_get_array g arr in
  let arr := take len arr ++ replicate (len - length arr) 0%Z in
  if negb isset then InputNotGiven "Array" name else Ok arr.
