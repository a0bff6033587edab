(** * PoissonSetup: reading the control file of the Poisson test problem and creating its mesh
    (tests/poisson3d-fd/poisson_setup.cpp:22-90, tests/poisson3d-fd/cartmesh.cpp:47-49, 72-143) *)
From Coq Require Import ZArith Ascii String.
From Verif Require Import Base Alg Coo MMText PetscError Poisson.
Open Scope nat_scope.

(** ** [fscanf] with one conversion
    The file is the characters not yet read. The result is what [fscanf] returns (1, 0 for a mismatch, -1 for EOF), what is stored
    ([None]: nothing, so the variable stays indeterminate) and the characters left. *)
(** characters up to the next blank *)
Fixpoint take_word (s : string) : string * string :=
  match s with
  | String c s' => if is_space c then (""%string, s) else let '(w, r) := take_word s' in (String c w, r)
  | EmptyString => (""%string, ""%string)
  end.
(** sizes of [temp] and [MeshSpec::gridtype], tests/poisson3d-fd/poisson_setup.cpp:30, tests/poisson3d-fd/poisson_utils.hpp:17 *)
Definition buffer_size : nat := 50.
(** "%s" into an array of 50 characters: the word and the terminating zero are written without a check of the length; beyond the array it is [UB] *)
Definition scanf_s (s : string) : res (Z * option string * string) :=
  match skipws s with
  | EmptyString => Ok (-1, None, ""%string)%Z
  | r => let '(w, r') := take_word r in
    if String.length w + 1 <=? buffer_size then Ok (1%Z, Some w, r') else UB
  end.
(** "%d" into a PetscInt of 32 bits; a number that does not fit is undefined behaviour (C11 7.21.6.2p10).
    What is left after a mismatch is never read. *)
Definition scanf_d (s : string) : res (Z * option Z * string) :=
  match skipws s with
  | EmptyString => Ok (-1, None, ""%string)%Z
  | r => match scan_int r with
    | Some (n, r') => if fits_int n then Ok (1%Z, Some n, r') else UB
    | None => Ok (0%Z, None, r)
    end
  end.

(** file_input_throw at the call sites: an exception leaves the function *)
Definition check (status : Z) : res unit := match file_input_throw status with Returns _ => Ok Datatypes.tt | Throws _ m => Throw m end.
(** a signed operation on 32-bit integers *)
Definition i32 (z : Z) : res Z := if fits_int z then Ok z else UB.

Section Setup.
  Context {F : Type} {O : SOps F}.
  (** the library's conversion of characters to a double: the number, whether it succeeded, the characters left *)
  Variable scan_real : string -> F * bool * string.

  (** "%lf" *)
  Definition scanf_lf (s : string) : res (Z * option F * string) :=
    match skipws s with
    | EmptyString => Ok (-1, None, ""%string)%Z
    | r => match scan_real r with (x, true, r') => Ok (1%Z, Some x, r') | (_, false, _) => Ok (0%Z, None, r) end
    end.
  (** one [fscanf] followed by [file_input_throw] *)
  Definition next {A} (scan : string -> res (Z * option A * string)) (s : string) : res (option A * string) :=
    let! (status, x, s) := scan s in let! _ := check status in Ok (x, s).
  (** the loops over [NDIM] = 3, tests/poisson3d-fd/poisson_setup.cpp:37-40, 43-46, 49-52 *)
  Definition next3 {A} (scan : string -> res (Z * option A * string)) (s : string) : res (list (option A) * string) :=
    let! (x0, s) := next scan s in let! (x1, s) := next scan s in let! (x2, s) := next scan s in Ok ([x0; x1; x2], s).

  (** MeshSpec, tests/poisson3d-fd/poisson_utils.hpp:13-18; [None]: indeterminate *)
  Record mesh_spec := MeshSpec { npdim : list (option Z); rmin : list (option F); rmax : list (option F); gridtype : option string }.

  (** the value of a variable that may be indeterminate *)
  Definition determinate {A} (x : option A) : res A := match x with Some a => Ok a | None => UB end.

  (** readInputFile, tests/poisson3d-fd/poisson_setup.cpp:22-63. [file]: its characters, or [None] if [fopen] returns a null pointer,
      which is then used. [rank0]: is this process 0? It prints the coordinates (lines 55-60); only the reads are modelled. *)
  Definition readInputFile (rank0 : bool) (file : option string) : res mesh_spec :=
    match file with
    | None => UB
    | Some s =>
      let! (_, s) := next scanf_s s in
      let! (g, s) := next scanf_s s in
      let! (_, s) := next scanf_s s in
      let! (n, s) := next3 scanf_d s in
      let! (_, s) := next scanf_s s in
      let! (a, s) := next3 scanf_lf s in
      let! (_, s) := next scanf_s s in
      let! (b, s) := next3 scanf_lf s in
      let! _ := (if rank0 then let! _ := mapr determinate (a ++ b) in Ok Datatypes.tt else Ok Datatypes.tt) in
      Ok (MeshSpec n a b g)
    end.

  Variable ofint : Z -> F.
  Variables (cosine : F -> F) (pi : F).
  (** the error code of creating the DMDA with these numbers of points, tests/poisson3d-fd/cartmesh.cpp:114-124 *)
  Variable dmda : Z -> Z -> Z -> Z.

  (** ~CartMesh, tests/poisson3d-fd/cartmesh.cpp:72-80: [coords[i]] is read; [None] is the null pointer of the constructor *)
  Definition destroy (coords : option (list (list F))) : res unit := match coords with None => UB | Some _ => Ok Datatypes.tt end.

  (** createMeshAndDMDA, tests/poisson3d-fd/cartmesh.cpp:82-143: the number of interior points, or the error code.
      Not modelled: the communicator and the printing; [malloc] does not fail. *)
  Definition createMeshAndDMDA (n0 n1 n2 : Z) : res (Z + Z) :=
    let! t1 := i32 (1 * n0) in let! t2 := i32 (t1 * n1) in let! npointotal := i32 (t2 * n2) in
    let! a := i32 (n0 * n1) in let! a := i32 (a * 2) in
    let! m2 := i32 (n2 - 2) in let! b := i32 (m2 * n0) in let! b := i32 (b * 2) in
    let! m1 := i32 (n1 - 2) in let! c := i32 (m1 * m2) in let! c := i32 (c * 2) in
    let! ab := i32 (a + b) in let! nbpoints := i32 (ab + c) in
    let! ninpoin := i32 (npointotal - nbpoints) in
    let! m0 := i32 (n0 - 2) in
    let ierr := dmda m0 m1 m2 in
    if (ierr =? 0)%Z then Ok (inl ninpoin) else Ok (inr ierr).

  (** createMesh, tests/poisson3d-fd/poisson_setup.cpp:65-90: the mesh and its number of interior points. If [petsc_throw] throws, the mesh is destroyed
      on the way out. The mesh size [h] is separate (Poisson.computeMeshSize); the copy of the returned object is elided. *)
  Definition createMesh (ms : mesh_spec) : res (mesh F * Z) :=
    match npdim ms, rmin ms, rmax ms with
    | [n0; n1; n2], [a0; a1; a2], [b0; b1; b2] =>
      let! n0 := determinate n0 in let! n1 := determinate n1 in let! n2 := determinate n2 in
      let! created := createMeshAndDMDA n0 n1 n2 in
      match created with
      | inr ierr => let! _ := destroy None in Throw "PETSc error"
      | inl ninpoin =>
        let! g := determinate (gridtype ms) in
        let! a0 := determinate a0 in let! a1 := determinate a1 in let! a2 := determinate a2 in
        let! b0 := determinate b0 in let! b1 := determinate b1 in let! b2 := determinate b2 in
        let axis lo hi n := if String.eqb g "chebyshev" then chebyshev_axis ofint cosine pi lo hi (Z.to_nat n) else uniform_axis ofint lo hi (Z.to_nat n) in
        Ok (Mesh (axis a0 b0 n0) (axis a1 b1 n1) (axis a2 b2 n2), ninpoin)
      end
    | _, _, _ => UB
    end.

  (** the first steps of setup_poisson_problem, tests/poisson3d-fd/poisson_setup.cpp:117-120 *)
  Definition setup_mesh (rank0 : bool) (file : option string) : res (mesh F * Z) :=
    let! ms := readInputFile rank0 file in createMesh ms.
End Setup.
