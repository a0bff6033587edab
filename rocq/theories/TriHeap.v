(** * TriHeap: the arrays behind the triangular views (src/rawsrmatrixutils.cpp)

    [TriView] gives the contents of a triangular view; here the same functions work on the heap
    of [ArrayView], so that it can be seen which arrays are new and which are shared. The asserts
    of the debug build (210, 236, 238-244, 285, 309-314) are stated in [C89_asserts]; both allocations succeed. *)
From Verif Require Import Base SRMatrix Nd ArrayView.
From Coq Require Import ZArith.
Open Scope nat_scope.

(** src/rawsrmatrixutils.cpp:191-197, 260-266: the loop of getLowerTriangularView. [browptr], [diagind]: of the matrix. *)
Definition lower_rows (n : nat) (browptr diagind lrowptr lrowendptr : ptr) (hi : heap nat) : res (heap nat * Z) :=
  for_ 0 n (fun irow '(hi, nnz) =>
    let! b := hread hi browptr irow in
    let! hi := hwrite hi lrowptr irow b in
    let! d := hread hi diagind irow in
    let! hi := hwrite hi lrowendptr irow (d + 1) in
    Ok (hi, (nnz + (Z.of_nat d - Z.of_nat b + 1))%Z)) (hi, 0%Z).
(** src/rawsrmatrixutils.cpp:223-229, 295-301: the loop of getUpperTriangularView *)
Definition upper_rows (n : nat) (diagind browendptr urowptr urowendptr : ptr) (hi : heap nat) : res (heap nat * Z) :=
  for_ 0 n (fun irow '(hi, nnz) =>
    let! d := hread hi diagind irow in
    let! hi := hwrite hi urowptr irow d in
    let! e := hread hi browendptr irow in
    let! hi := hwrite hi urowendptr irow e in
    Ok (hi, (nnz + (Z.of_nat e - Z.of_nat d))%Z)) (hi, 0%Z).

(** ** Of a raw matrix *)
(** src/rawsrmatrixutils.cpp:178-204 getLowerTriangularView *)
Definition rawLower (g1 g2 : nat -> nat) (hi : heap nat) (mat : raw) : res (raw * heap nat) :=
  let n := r_nbrows mat in
  let '(lrowptr, hi) := halloc hi (Some g1) n in
  let '(lrowendptr, hi) := halloc hi (Some g2) n in
  let! (hi, nnz) := lower_rows n (r_browptr mat) (r_diagind mat) lrowptr lrowendptr hi in
  Ok (Raw lrowptr (r_bcolind mat) (r_vals mat) (r_diagind mat) lrowendptr n (Z.to_nat nnz) (r_nbstored mat), hi).
(** src/rawsrmatrixutils.cpp:208-246 getUpperTriangularView *)
Definition rawUpper (g1 g2 : nat -> nat) (hi : heap nat) (mat : raw) : res (raw * heap nat) :=
  let n := r_nbrows mat in
  let '(urowptr, hi) := halloc hi (Some g1) n in
  let '(urowendptr, hi) := halloc hi (Some g2) n in
  let! (hi, nnz) := upper_rows n (r_diagind mat) (r_browendptr mat) urowptr urowendptr hi in
  Ok (Raw urowptr (r_bcolind mat) (r_vals mat) (r_diagind mat) urowendptr n (Z.to_nat nnz) (r_nbstored mat), hi).
(** src/rawsrmatrixutils.cpp:321-325 alignedDestroyRawBSRMatrixTriangularView *)
Definition destroyRawTri (hi : heap nat) (mat : raw) : res (heap nat) :=
  let! hi := hfree hi (r_browptr mat) in
  hfree hi (r_browendptr mat).
(** src/rawsrmatrixutils.cpp:330-339 createRawView. [&v[0]] is the pointer of the view. *)
Definition createRawView (smat : stor) : raw :=
  Raw (data (s_browptr smat)) (data (s_bcolind smat)) (data (s_vals smat)) (data (s_diagind smat)) (data (s_browendptr smat))
    (s_nbrows smat) (s_nnzb smat) (s_nbstored smat).

(** ** Of a storage *)
(** src/rawsrmatrixutils.cpp:268-273, 303-308 and the return: the storage made from the five local views, which are then
    destroyed, as are the temporaries of move_to_const. [elided] as in [view_move_to_const]; [nrvo]: whether the result
    is constructed in place, otherwise it is moved from the local storage, which is then destroyed. *)
Definition tri_result {F} (elided nrvo : bool) (hi : heap nat) (hf : heap F) (rowptr colind values diag rowendptr : view)
    (n nnz nst : nat) : res (stor * heap nat * heap F) :=
  let! (a, rowptr, hi) := view_move_to_const elided hi rowptr in
  let! (e, rowendptr, hi) := view_move_to_const elided hi rowendptr in
  let '(m, (a, colind, values, diag, e)) := stor_of_views a colind values diag e n nnz nst in
  let! hi := view_destroy hi e in
  let! hi := view_destroy hi a in
  let! (m, hi, hf) :=
    if nrvo then Ok (m, hi, hf)
    else let '(m', m) := stor_move m in
         let! (hi, hf) := stor_destroy hi hf m in Ok (m', hi, hf) in
  (* the locals, in the reverse of the order of declaration *)
  let! hi := view_destroy hi rowendptr in
  let! hi := view_destroy hi rowptr in
  let! hf := view_destroy hf values in
  let! hi := view_destroy hi diag in
  let! hi := view_destroy hi colind in
  Ok (m, hi, hf).
(** src/rawsrmatrixutils.cpp:249-276 *)
Definition storLower {F} (elided nrvo : bool) (g1 g2 : nat -> nat) (hi : heap nat) (hf : heap F) (mat : stor)
    : res (stor * heap nat * heap F) :=
  let lbcolind := view_wrap (data (s_bcolind mat)) (len (s_bcolind mat)) in
  let ldiagind := view_wrap (data (s_diagind mat)) (len (s_diagind mat)) in
  let lvals := view_wrap (data (s_vals mat)) (len (s_vals mat)) in
  let '(lrowptr, hi) := view_alloc hi (Some g1) (s_nbrows mat) in
  let '(lrowendptr, hi) := view_alloc hi (Some g2) (s_nbrows mat) in
  let! (hi, nnz) := lower_rows (s_nbrows mat) (data (s_browptr mat)) (data (s_diagind mat)) (data lrowptr) (data lrowendptr) hi in
  tri_result elided nrvo hi hf lrowptr lbcolind lvals ldiagind lrowendptr (s_nbrows mat) (Z.to_nat nnz) (s_nbstored mat).
(** src/rawsrmatrixutils.cpp:281-316 *)
Definition storUpper {F} (elided nrvo : bool) (g1 g2 : nat -> nat) (hi : heap nat) (hf : heap F) (mat : stor)
    : res (stor * heap nat * heap F) :=
  let ubcolind := view_wrap (data (s_bcolind mat)) (len (s_bcolind mat)) in
  let udiagind := view_wrap (data (s_diagind mat)) (len (s_diagind mat)) in
  let uvals := view_wrap (data (s_vals mat)) (len (s_vals mat)) in
  let '(urowptr, hi) := view_alloc hi (Some g1) (s_nbrows mat) in
  let '(urowendptr, hi) := view_alloc hi (Some g2) (s_nbrows mat) in
  let! (hi, nnz) := upper_rows (s_nbrows mat) (data (s_diagind mat)) (data (s_browendptr mat)) (data urowptr) (data urowendptr) hi in
  tri_result elided nrvo hi hf urowptr ubcolind uvals udiagind urowendptr (s_nbrows mat) (Z.to_nat nnz) (s_nbstored mat).
