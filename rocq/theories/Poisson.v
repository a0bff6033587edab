(** * Poisson: the finite-difference test problem (tests/poisson3d-fd)

    The Cartesian mesh, the assembly of the 7-point matrix, of the right-hand side and of
    the exact solution, and the norm of a mesh function. PETSc's DMDA is represented by the
    box of points one process owns (DMDAGetCorners); MatSetValuesStencil by the list of the
    entries handed to it. Real literals: 0.5 is 1/2, 2.0 is 1+1, -1.0 is the opposite of 1. *)
From Coq Require Import ZArith.
From Verif Require Import Base Alg.

(** a point of the DMDA in the order of MatStencil: (k, j, i) *)
Definition pnt : Type := Z * Z * Z.
(** the box one process owns: DMDAGetCorners' start[d] and lsize[d]
    (tests/poisson3d-fd/poisson3d_fd.cpp:51-54, :91-94, :158-160) *)
Record box := Box { bx : nat; by_ : nat; bz : nat; nx : nat; ny : nat; nz : nat }.

Section Poisson.
  Context {F : Type} {O : SOps F}.
  Open Scope s_scope.

  (** CartMesh: the coordinates of the mesh points along the three axes; npoind[d] is the length
      of the d-th array (tests/poisson3d-fd/cartmesh.hpp:35-58). *)
  Record mesh := Mesh { cx : list F; cy : list F; cz : list F }.

  (** CartMesh::gcoords for one axis, DEBUG off: coords[idim][ipoin] (cartmesh.hpp:93-108).
      The index is a PetscInt: a negative one is outside of the array. *)
  Definition gcoords (x : list F) (i : Z) : res F := if (i <? 0)%Z then UB else get x (Z.to_nat i).

  (** real literals *)
  Definition half : F := s1 / (s1 + s1).
  Definition two : F := s1 + s1.

  (** values[2], values[1], values[0]: neighbour below along one axis, point [I]
      (poisson3d_fd.cpp:118-123) *)
  Definition lower_value (x : list F) (I : Z) : res F :=
    let! a := gcoords x I in let! b := gcoords x (I - 1) in let! c := gcoords x (I + 1) in let! d := gcoords x (I - 1) in
    Ok (sopp s1 / ((a - b) * half * (c - d))).
  (** values[4], values[5], values[6]: neighbour above (poisson3d_fd.cpp:132-137) *)
  Definition upper_value (x : list F) (I : Z) : res F :=
    let! a := gcoords x (I + 1) in let! b := gcoords x I in let! c := gcoords x (I + 1) in let! d := gcoords x (I - 1) in
    Ok (sopp s1 / ((a - b) * half * (c - d))).
  (** one axis' summand of values[3] (poisson3d_fd.cpp:125-130) *)
  Definition middle_value (x : list F) (I : Z) : res F :=
    let! a := gcoords x (I + 1) in let! b := gcoords x (I - 1) in
    let! c := gcoords x (I + 1) in let! d := gcoords x I in
    let! e := gcoords x I in let! f := gcoords x (I - 1) in
    Ok (two / (a - b) * (s1 / (c - d) + s1 / (e - f))).

  (** One row: the values and column indices handed to MatSetValuesStencil for row (k,j,i)
      (poisson3d_fd.cpp:100-140). *)
  Definition lhs_row (m : mesh) (k j i : nat) : res (list (pnt * pnt * F)) :=
    let k := Z.of_nat k in let j := Z.of_nat j in let i := Z.of_nat i in
    let I := (i + 1)%Z in let J := (j + 1)%Z in let K := (k + 1)%Z in
    let! v2 := lower_value (cx m) I in
    let! v1 := lower_value (cy m) J in
    let! v0 := lower_value (cz m) K in
    let! dx := middle_value (cx m) I in
    let! dy := middle_value (cy m) J in
    let! dz := middle_value (cz m) K in
    let! v4 := upper_value (cx m) I in
    let! v5 := upper_value (cy m) J in
    let! v6 := upper_value (cz m) K in
    let row := (k, j, i) in
    Ok [(row, (k - 1, j, i)%Z, v0); (row, (k, j - 1, i)%Z, v1); (row, (k, j, i - 1)%Z, v2); (row, (k, j, i), dx + dy + dz);
        (row, (k, j, i + 1)%Z, v4); (row, (k, j + 1, i)%Z, v5); (row, (k + 1, j, i)%Z, v6)].

  (** The triple loop over the owned points (poisson3d_fd.cpp:62-64, :96-98, :168-170). *)
  Definition for_box {St} (b : box) (body : nat -> nat -> nat -> St -> res St) (s : St) : res St :=
    for_ (bz b) (bz b + nz b) (fun k => for_ (by_ b) (by_ b + ny b) (fun j => for_ (bx b) (bx b + nx b) (fun i => body k j i))) s.

  (** computeLHS on one process: all entries it inserts, in order (poisson3d_fd.cpp:83-149). The
      error codes of PETSc are not modelled. *)
  Definition computeLHS (m : mesh) (b : box) : res (list (pnt * pnt * F)) :=
    for_box b (fun k j i acc => let! r := lhs_row m k j i in Ok (acc ++ r)) [].

  (** computeRHS on one process: the values rhs[k][j][i] and uex[k][j][i] it stores
      (poisson3d_fd.cpp:43-78). [wave t] is std::sin(2*PI*t), [amp] is 12.0*PI*PI. *)
  Definition computeRHS (wave : F -> F) (amp : F) (m : mesh) (b : box) : res (list (pnt * F * F)) :=
    for_box b (fun k j i acc =>
      let k := Z.of_nat k in let j := Z.of_nat j in let i := Z.of_nat i in
      let! x := gcoords (cx m) i in let! y := gcoords (cy m) j in let! z := gcoords (cz m) k in
      Ok (acc ++ [((k, j, i), amp * wave x * wave y * wave z, wave x * wave y * wave z)])) [].

  (** computeNorm, the part one process computes before MPI_Allreduce (poisson3d_fd.cpp:154-183);
      [v k j i] is vv[k][j][i], [eighth] the literal 1.0/8.0. *)
  Definition computeNorm (eighth : F) (m : mesh) (b : box) (v : nat -> nat -> nat -> F) : res F :=
    for_box b (fun k j i norm =>
      let kz := Z.of_nat k in let jz := Z.of_nat j in let iz := Z.of_nat i in
      let! x1 := gcoords (cx m) (iz + 1) in let! x0 := gcoords (cx m) (iz - 1) in
      let! y1 := gcoords (cy m) (jz + 1) in let! y0 := gcoords (cy m) (jz - 1) in
      let! z1 := gcoords (cz m) (kz + 1) in let! z0 := gcoords (cz m) (kz - 1) in
      let vol := eighth * (x1 - x0) * (y1 - y0) * (z1 - z0) in
      Ok (norm + v k j i * v k j i * vol)) s0.

  (** generateMesh_UniformDistribution for one axis, coords[i] for i < npoind
      (cartmesh.cpp:167-183). [ofint] converts an int to PetscReal. *)
  Definition uniform_axis (ofint : Z -> F) (rmin rmax : F) (np : nat) : list F :=
    (fun i => rmin + (rmax - rmin) * ofint (Z.of_nat i) / ofint (Z.of_nat np - 1)%Z) <$> seq 0 np.

  (** generateMesh_ChebyshevDistribution for one axis (cartmesh.cpp:145-164). [pi] is the literal PI
      (cartmesh.hpp:20), [cosine] is std::cos. *)
  Definition chebyshev_axis (ofint : Z -> F) (cosine : F -> F) (pi rmin rmax : F) (np : nat) : list F :=
    let theta := pi / ofint (Z.of_nat np - 1)%Z in
    (fun i => (rmax + rmin) * half + (rmax - rmin) * half * cosine (pi - ofint (Z.of_nat i) * theta)) <$> seq 0 np.

  (** computeMeshSize (cartmesh.cpp:22-45); [ssqrt] is std::sqrt, [slt a b] is a < b on doubles. *)
  Definition computeMeshSize (ssqrt : F -> F) (slt : F -> F -> bool) (m : mesh) : res F :=
    for_ 0 (length (cz m) - 1) (fun k h =>
      let! z1 := get (cz m) (k + 1)%nat in let! z0 := get (cz m) k in
      for_ 0 (length (cy m) - 1) (fun j h =>
        let! y1 := get (cy m) (j + 1)%nat in let! y0 := get (cy m) j in
        for_ 0 (length (cx m) - 1) (fun i h =>
          let! x1 := get (cx m) (i + 1)%nat in let! x0 := get (cx m) i in
          let diam := s0 + (x1 - x0) * (x1 - x0) + (y1 - y0) * (y1 - y0) + (z1 - z0) * (z1 - z0) in
          let diam := ssqrt diam in
          Ok (if slt h diam then diam else h)) h) h) s0.
End Poisson.
Arguments mesh F : clear implicits.

(** The number of interior points, CartMesh::CartMesh and createMeshAndDMDA (cartmesh.cpp:61-67,
    :103-109). PetscInt as unbounded integers. *)
Definition ninpoin (n0 n1 n2 : Z) : Z :=
  let npointotal := (1 * n0 * n1 * n2)%Z in
  let nbpoints := (n0 * n1 * 2 + (n2 - 2) * n0 * 2 + (n1 - 2) * (n2 - 2) * 2)%Z in
  (npointotal - nbpoints)%Z.
