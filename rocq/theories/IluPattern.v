(** * IluPattern: positions needed for the ILU factorisation (src/ilu_pattern.cpp) *)
From Verif Require Import Base SRMatrix Helpers.

(** include/ilu_pattern.hpp ILUPositions *)
Record ilupos := IluPos { posptr : list nat; lowerp : list nat; upperp : list nat }.

(** [for(irow = 0; irow < nbrows; irow++) for(j = browptr[irow]; j < browptr[irow+1]; j++) body] *)
Definition for_rows {A St} (M : srmat A) (body : nat -> nat -> St -> res St) (s : St) : res St :=
  for_ 0 (nbrows M) (fun irow s =>
    let! rs := get (browptr M) irow in
    let! re := get (browptr M) (irow + 1) in
    for_ rs re (body irow) s) s.

(** src/ilu_pattern.cpp:50-60, 66-80, 110-124, 134-152: for each entry [k] of the row
    from the current one on, before column [bound], look for column [c] in the upper
    part of row bcolind[k] and, if it is there at [ipos], do [f k ipos]. The number
    [n] of entries left is the loop's condition k < browptr[irow+1]. *)
Fixpoint kscan {A St} (M : srmat A) (bound c : nat) (f : nat -> nat -> St -> res St) (n k : nat) (s : St) : res St :=
  match n with
  | 0 => Ok s
  | S n' =>
      let! ck := get (bcolind M) k in
      if ck <? bound then
        let! lo := get (diagind M) ck in
        let! hi := get (browptr M) (ck + 1) in
        let! ipos := inner_search (bcolind M) lo hi c in
        let! s' := match ipos with Some p => f k p s | None => Ok s end in
        kscan M bound c f n' (k + 1) s'
      else Ok s
  end.
(** the loop for entry [j] of row [irow]: the C++ has two copies of it, one for the
    lower part (bound bcolind[j]) and one for the rest (bound irow) *)
Definition scan_entry {A St} (M : srmat A) (irow j : nat) (f : nat -> nat -> St -> res St) (s : St) : res St :=
  let! c := get (bcolind M) j in
  let! rs := get (browptr M) irow in
  let! re := get (browptr M) (irow + 1) in
  if c <? irow then kscan M c c f (re - rs) rs s
  else kscan M irow c f (re - rs) rs s.

(** src/ilu_pattern.cpp:31-163 compute_ILU_positions_CSR_CSR; the asserts are not
    modelled (what they state follows from the theorem) *)
Definition compute_ILU_positions {A} (M : srmat A) : res ilupos :=
  let! pattern_size := get (browptr M) (nbrows M) in
  let numpos := replicate pattern_size 0 in
  let! posptr := set (replicate (pattern_size + 1) 0) 0 0 in
  let! (numpos, posptr) := for_rows M (fun irow j '(numpos, posptr) =>
      let! numpos := scan_entry M irow j (fun _ _ numpos =>
        let! x := get numpos j in set numpos j (x + 1)) numpos in
      let! x := get numpos j in
      let! posptr := set posptr (j + 1) x in
      Ok (numpos, posptr)) (numpos, posptr) in
  let totallen := foldl Nat.add 0 numpos in
  let! posptr := inclusive_scan posptr in
  let! (lowerp, upperp) := for_rows M (fun irow j '(lowerp, upperp) =>
      let! (_, lowerp, upperp) := scan_entry M irow j (fun k ipos '(offset, lowerp, upperp) =>
        let! p := get posptr j in
        let! lowerp := set lowerp (p + offset) k in
        let! upperp := set upperp (p + offset) ipos in
        Ok (offset + 1, lowerp, upperp)) (0, lowerp, upperp) in
      Ok (lowerp, upperp)) (replicate totallen 0, replicate totallen 0) in
  Ok (IluPos posptr lowerp upperp).
