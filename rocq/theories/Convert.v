(** * Convert: the program src/utils/util_petsc_io.c, which writes a matrix and vectors in PETSc's format

    PETSc is represented by what its manual says about the calls used here, as in PetscIo.v.
    Messages, PetscInitialize, PetscFinalize and the release of objects (30-43, 50, 57, 86-95)
    are left out. *)
From Coq Require Import ZArith.
From Verif Require Import Base Alg SRMatrix Nd Reorder Coo PetscIo.
Open Scope nat_scope.

(** An object in PETSc's format *)
Inductive bobject (F : Type) := BMat (A : pmat F) | BVec (v : list F).
Arguments BMat {F}. Arguments BVec {F}.
(** A file: a text, as the two readers see it; a file in PETSc's format, empty or with one object; or
    one in which two objects have been written over each other *)
Inductive content (F : Type) :=
| Text (c : mmfile F) (v : densefile F)
| Bin (o : option (bobject F))
| Mixed.
Arguments Text {F}. Arguments Bin {F}. Arguments Mixed {F}.
Definition disk (F : Type) := string -> option (content F).

Section Convert.
  Context {F : Type} {O : SOps F}.
  Notation disk := (disk F).
  (** can the file be opened for writing? *)
  Variable writable : string -> bool.

  Definition store (d : disk) (name : string) (c : content F) : disk :=
    fun name' => if String.eqb name' name then Some c else d name'.
  (** A file which is not there: [std::abort()] in src/coomatrix.cpp:137-140,190-193. A file in
      PETSc's format is not a text with a Matrix Market header. *)
  Definition open_coo (d : disk) (name : string) : res (mmfile F) :=
    match d name with None => Throw "abort" | Some (Text c _) => Ok c | Some _ => Throw "! Not enough terms in the header!" end.
  Definition open_dense (d : disk) (name : string) : res (densefile F) :=
    match d name with None => Throw "abort" | Some (Text _ v) => Ok v | Some _ => Throw "! Not enough terms in the header!" end.

  (** src/utils/util_petsc_io.c:12 *)
  Definition PETSCOPTION_STR_LEN : nat := 500.
  (** PETSc: PetscOptionsGetString with a buffer of that length, 47 *)
  Definition get_string (o : option string) : option string := substring 0 (PETSCOPTION_STR_LEN - 1) <$> o.
  (** C: strcpy and strcat into an array of [len] characters, which holds [old] before *)
  Definition strcpy (len : nat) (src : string) : res string := if String.length src <? len then Ok src else UB.
  Definition strcat (len : nat) (old src : string) : res string :=
    if String.length old + String.length src <? len then Ok (old ++ src)%string else UB.
  (** 61-68 *)
  Definition outname (name : string) : res string :=
    let! s := strcpy PETSCOPTION_STR_LEN name in strcat PETSCOPTION_STR_LEN s ".pmat".

  (** PETSc: PetscViewerBinaryOpen with FILE_MODE_WRITE. The file is created or made empty. [false]: an error code. *)
  Definition BinaryOpen (d : disk) (name : string) : disk * bool :=
    if writable name then (store d name (Bin None), true) else (d, false).
  (** PETSc: MatView, VecView with a writer whose first object this is: the object is written at the start of the
      file. A vector that takes the place of one which is not longer leaves nothing of it. *)
  Definition View (d : disk) (name : string) (o : bobject F) : disk :=
    store d name
      match d name, o with
      | Some (Bin None), _ => Bin (Some o)
      | Some (Bin (Some (BVec ys))), BVec xs => if length ys <=? length xs then Bin (Some o) else Mixed
      | _, _ => Mixed
      end.

  (** 49-57: everything is read before anything is written *)
  Definition read_all (dbg : bool) (mpisize bs : nat) (gp gi : nat -> nat) (gv : nat -> F) (gd : nat -> Z)
      (d : disk) (matfile bfile : string) (xfile : option string) : nd (pmat F * list F * option (list F)) :=
    ndo mf := nlift (open_coo d matfile) in
    ndo (ms, h) := readMatFromCOOFile_viaSR dbg mpisize bs gp gi gv gd mf in
    nlift (
      let! A := get ms h in
      let! bf := open_dense d bfile in
      let! b := readVecFromFile dbg (Some (pm_m A)) bf in
      match xfile with
      | None => Ok (A, b, None)
      | Some xfile =>
          let! xf := open_dense d xfile in
          let! u := readVecFromFile dbg (Some (pm_m A)) xf in
          Ok (A, b, Some u)
      end).
  (** 61-68 *)
  Definition names (matfile bfile : string) (xfile : option string) : res (string * string * option string) :=
    let! om := outname matfile in
    let! ob := outname bfile in
    match xfile with
    | None => Ok (om, ob, None)
    | Some x => let! ox := outname x in Ok (om, ob, Some ox)
    end.
  (** 70-84; the code returned *)
  Definition write_all (om ob : string) (A : pmat F) (b : list F) (x : option (string * list F)) (d : disk) : disk * res Z :=
    let '(d, okm) := BinaryOpen d om in
    if negb okm then (d, petsc_error) else
    let '(d, okb) := BinaryOpen d ob in
    if negb okb then (d, petsc_error) else
    let '(d, okx) := match x with Some (ox, _) => BinaryOpen d ox | None => (d, true) end in
    if negb okx then (d, petsc_error) else
    let d := View d om (BMat A) in
    let d := View d ob (BVec b) in
    let d := match x with Some (ox, u) => View d ox (BVec u) | None => d end in
    (d, Ok 0%Z).

  (** src/utils/util_petsc_io.c:14-98 main. [argv]: the arguments, with the name of the program;
      [exact]: the value of the option -exact_soln. The result: the disk afterwards and the code returned. *)
  Definition convert_main (dbg : bool) (mpisize bs : nat) (gp gi : nat -> nat) (gv : nat -> F) (gd : nat -> Z)
      (argv : list string) (exact : option string) (d : disk) (out : disk * res Z) : Prop :=
    if length argv <? 3 then out = (d, Ok 0%Z) else
    match argv !! 1, argv !! 2 with
    | Some matfile, Some bfile =>
        let xfile := get_string exact in
        exists r, read_all dbg mpisize bs gp gi gv gd d matfile bfile xfile r /\
          match r with
          | Ok (A, b, u) =>
              match names matfile bfile xfile with
              | Ok (om, ob, ox) =>
                  out = write_all om ob A b (match ox, u with Some n, Some u => Some (n, u) | _, _ => None end) d
              | UB => out = (d, UB)
              | Throw e => out = (d, Throw e)
              | Fuel => out = (d, Fuel)
              end
          | UB => out = (d, UB)
          | Throw e => out = (d, Throw e)
          | Fuel => out = (d, Fuel)
          end
    | _, _ => out = (d, UB)
    end.
End Convert.
