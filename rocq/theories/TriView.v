(** * TriView: triangular views and the scaling vector (src/rawsrmatrixutils.cpp) *)
From Verif Require Import Base Alg SRMatrix Nd Coo.
From Coq Require Import ZArith.
Open Scope nat_scope.

Section Views.
  Context {A : Type}.
  (** src/rawsrmatrixutils.cpp:178-204 getLowerTriangularView of a raw matrix, 250-278 of a
      storage: the same computation. [g1], [g2]: contents of the two new arrays, of length nbrows. The other
      arrays are shared. The count is summed in integers. *)
  Definition getLowerTriangularView (g1 g2 : nat -> nat) (mat : srmat A) : res (srmat A) :=
    let n := nbrows mat in
    let! (lrowptr, lrowendptr, nnz) := for_ 0 n (fun irow s =>
      let! b := get (browptr mat) irow in
      let '(lrowptr, lrowendptr, nnz) := s in
      let! lrowptr := set lrowptr irow b in
      let! d := get (diagind mat) irow in
      let! lrowendptr := set lrowendptr irow (d + 1) in
      Ok (lrowptr, lrowendptr, (nnz + (Z.of_nat d - Z.of_nat b + 1))%Z)) (alloc g1 n, alloc g2 n, 0%Z) in
    Ok (SR lrowptr (bcolind mat) (vals mat) (diagind mat) lrowendptr n (Z.to_nat nnz) (nbstored mat)).
  (** src/rawsrmatrixutils.cpp:208-246 getUpperTriangularView of a raw matrix, 283-316 of a storage *)
  Definition getUpperTriangularView (g1 g2 : nat -> nat) (mat : srmat A) : res (srmat A) :=
    let n := nbrows mat in
    let! (urowptr, urowendptr, nnz) := for_ 0 n (fun irow s =>
      let! d := get (diagind mat) irow in
      let '(urowptr, urowendptr, nnz) := s in
      let! urowptr := set urowptr irow d in
      let! e := get (browendptr mat) irow in
      let! urowendptr := set urowendptr irow e in
      Ok (urowptr, urowendptr, (nnz + (Z.of_nat e - Z.of_nat d))%Z)) (alloc g1 n, alloc g2 n, 0%Z) in
    Ok (SR urowptr (bcolind mat) (vals mat) (diagind mat) urowendptr n (Z.to_nat nnz) (nbstored mat)).
End Views.
