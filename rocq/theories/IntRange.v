(** * IntRange: the position lists of the ILU factorisation with 32-bit indices

    IluPattern.v keeps every number in [nat]. The code stores counts as [size_t] and
    positions as [index] = [int] (src/ilu_pattern.cpp:165 instantiates it so), and adds
    the counts up in [int]. This is the same function with those types.
    Simplifications: loop counters and the contents of browptr, bcolind and diagind stay
    [nat]; they are at most browptr[nbrows], which the theorems require to be an [int].
    Running out of memory is not modelled. *)
From Coq Require Import ZArith.
From Verif Require Import Base SRMatrix Helpers IluPattern.
Open Scope Z_scope.

(** int has 32 bits, size_t 64 *)
Definition INT_MAX : Z := 2147483647.
Definition INT_MIN : Z := - 2147483648.
Definition fits (z : Z) : bool := (INT_MIN <=? z) && (z <=? INT_MAX).
(** [a + b] in int: undefined on overflow *)
Definition int_add (a b : Z) : res Z := if fits (a + b) then Ok (a + b) else UB.
(** conversions: modulo the number of values *)
Definition to_int (z : Z) : Z := (z - INT_MIN) mod 2 ^ 32 + INT_MIN.
Definition to_size (z : Z) : Z := z mod 2 ^ 64.

(** src/ilu_pattern.cpp:87 [std::accumulate(numpos.begin(), numpos.end(), 0)]: the
    initial value is an int, so each sum (of type size_t) is converted back to int *)
Definition accumulate_int (l : list nat) : Z :=
  foldl (fun acc x => to_int (to_size (to_size acc + Z.of_nat x))) 0 l.
(** src/helper_algorithms.cpp:68-74 inclusive_scan<int> *)
Definition inclusive_scan_int (v : list Z) : res (list Z) :=
  for_ 1 (length v) (fun i v =>
    let! a := get v i in
    let! b := get v (i - 1)%nat in
    let! c := int_add a b in
    set v i c) v.
(** [v.resize(len)] of an empty std::vector<int> *)
Definition vector_of (len : Z) : res (list nat) :=
  if len <=? 2 ^ 61 - 1 then Ok (replicate (Z.to_nat len) 0%nat) else Throw "vector::_M_default_append".
(** [v[i] = x] for an index of type int *)
Definition set_at {T} (v : list T) (i : Z) (x : T) : res (list T) :=
  if i <? 0 then UB else set v (Z.to_nat i) x.

Record ilupos_int := IluPosInt { iposptr : list Z; ilowerp : list nat; iupperp : list nat }.

(** src/ilu_pattern.cpp:31-163 compute_ILU_positions_CSR_CSR<double,int> *)
Definition compute_ILU_positions_int {A} (M : srmat A) : res ilupos_int :=
  let! pattern_size := get (browptr M) (nbrows M) in
  let numpos := replicate pattern_size 0%nat in
  let! len := int_add (Z.of_nat pattern_size) 1 in
  let! posptr := set (replicate (Z.to_nat len) 0) 0 0 in
  let! (numpos, posptr) := for_rows M (fun irow j '(numpos, posptr) =>
      let! numpos := scan_entry M irow j (fun _ _ numpos =>
        let! x := get numpos j in set numpos j (x + 1)%nat) numpos in
      let! x := get numpos j in
      let! posptr := set posptr (j + 1) (to_int (Z.of_nat x)) in
      Ok (numpos, posptr)) (numpos, posptr) in
  let totallen := to_size (accumulate_int numpos) in
  let! posptr := inclusive_scan_int posptr in
  let! lowerp := vector_of totallen in
  let! upperp := vector_of totallen in
  let! (lowerp, upperp) := for_rows M (fun irow j '(lowerp, upperp) =>
      let! (_, lowerp, upperp) := scan_entry M irow j (fun k ipos '(offset, lowerp, upperp) =>
        let! p := get posptr j in
        let! a := int_add p offset in
        let! lowerp := set_at lowerp a k in
        let! upperp := set_at upperp a ipos in
        let! offset := int_add offset 1 in
        Ok (offset, lowerp, upperp)) (0, lowerp, upperp) in
      Ok (lowerp, upperp)) (lowerp, upperp) in
  Ok (IluPosInt posptr lowerp upperp).
