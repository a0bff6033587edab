(** * IluIndex: the positions for the ILU factorisation in index arithmetic of limited range (src/ilu_pattern.cpp)

    [IluPattern] computes with unbounded numbers. Here [imax] is the largest value of the index type
    (the library uses int). The arrays of the matrix hold indices, so the loop counters that run up to their contents
    and the positions looked up in them fit; [numpos] is of type size_t, which is taken to be large enough. *)
From Verif Require Import Base SRMatrix Helpers IluPattern.
From Coq Require Import ZArith.
Open Scope nat_scope.

Section Int.
  Context (imax : nat).
  (** the result of an addition of indices: overflow of a signed type is undefined *)
  Definition chk (x : nat) : res nat := if x <=? imax then Ok x else UB.
  (** conversion of a number to the index type, as every compiler does it: modulo the number of values *)
  Definition wrap (z : Z) : Z :=
    let h := (Z.of_nat imax + 1)%Z in ((z + h) mod (2 * h) - h)%Z.
  (** src/helper_algorithms.cpp:68-74 inclusive_scan *)
  Definition inclusive_scan_int (v : list nat) : res (list nat) :=
    for_ 1 (length v) (fun i v =>
      let! a := get v i in
      let! b := get v (i - 1) in
      let! s := chk (a + b) in
      set v i s) v.
  (** src/ilu_pattern.cpp:31-163 compute_ILU_positions_CSR_CSR. Line 83 converts a count, at most the length of
      a row, to an index. Line 87: the sum is kept in the type of its initial value, which is an int, and converted to size_t at
      the end; line 100: a vector cannot be that long if the int is negative. *)
  Definition compute_ILU_positions_int {A} (M : srmat A) : res ilupos :=
    let! pattern_size := get (browptr M) (nbrows M) in
    let numpos := replicate pattern_size 0 in
    let! size := chk (pattern_size + 1) in
    let! posptr := set (replicate size 0) 0 0 in
    let! (numpos, posptr) := for_rows M (fun irow j '(numpos, posptr) =>
        let! numpos := scan_entry M irow j (fun _ _ numpos =>
          let! x := get numpos j in set numpos j (x + 1)) numpos in
        let! x := get numpos j in
        let! posptr := set posptr (j + 1) x in
        Ok (numpos, posptr)) (numpos, posptr) in
    let totallen := foldl (fun (a : Z) (x : nat) => wrap (a + Z.of_nat x)) 0%Z numpos in
    let! posptr := inclusive_scan_int posptr in
    if (totallen <? 0)%Z then Throw "vector::_M_default_append" else
    let! (lowerp, upperp) := for_rows M (fun irow j '(lowerp, upperp) =>
        let! (_, lowerp, upperp) := scan_entry M irow j (fun k ipos '(offset, lowerp, upperp) =>
          let! p := get posptr j in
          let! e := chk (p + offset) in
          let! lowerp := set lowerp e k in
          let! upperp := set upperp e ipos in
          let! offset := chk (offset + 1) in
          Ok (offset, lowerp, upperp)) (0, lowerp, upperp) in
        Ok (lowerp, upperp)) (replicate (Z.to_nat totallen) 0, replicate (Z.to_nat totallen) 0) in
    Ok (IluPos posptr lowerp upperp).
End Int.
