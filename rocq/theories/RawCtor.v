(** * RawCtor: the constructors of the matrix classes that take over a raw matrix (src/blockmatrices.ipp), over a heap *)
From Verif Require Import Base SRMatrix ArrayView.

Section RawCtor.
  Context {F : Type}.
  Definition raw_null : raw := Raw None None None None None 0 0 0.
  (** src/blockmatrices.ipp:211-229 BSRMatrix<bs>::BSRMatrix(rmat): the storage, rmat afterwards, the heaps. The
      storage [mat] is first made by the default constructor. *)
  Definition bsr_from_raw (bs : nat) (hi : heap nat) (hf : heap F) (rmat : raw) : res (stor * raw * heap nat * heap F) :=
    let mat := stor_null in
    let! (a, hi) := view_take_control hi (s_browptr mat) (r_browptr rmat) (r_nbrows rmat) in
    let! (b, hi) := view_take_control hi (s_bcolind mat) (r_bcolind rmat) (r_nbstored rmat) in
    let! (c, hf) := view_take_control hf (s_vals mat) (r_vals rmat) (r_nbstored rmat * bs * bs) in
    let! (d, hi) := view_take_control hi (s_diagind mat) (r_diagind rmat) (r_nbrows rmat) in
    let! (e, hi) := if 0 <? r_nbrows rmat then view_rewrap hi (s_browendptr mat) (padd (r_browptr rmat) 1) (r_nbrows rmat)
                    else Ok (s_browendptr mat, hi) in
    Ok (Stor a b c d e (r_nbrows rmat) (r_nnzb rmat) (r_nbstored rmat), raw_null, hi, hf).
  (** src/blockmatrices.ipp:506-525 BSRMatrix<1>::BSRMatrix(rmat) *)
  Definition csr_from_raw (hi : heap nat) (hf : heap F) (rmat : raw) : res (stor * raw * heap nat * heap F) :=
    let mat := stor_wrap (r_browptr rmat) (r_bcolind rmat) (r_vals rmat) (r_diagind rmat)
      (if 0 <? r_nbrows rmat then padd (r_browptr rmat) 1 else None) (r_nbrows rmat) (r_nnzb rmat) (r_nbstored rmat) 1 in
    let! (a, hi) := view_rewrap hi (s_browptr mat) (r_browptr rmat) (r_nbrows rmat + 1) in
    let! (b, hi) := view_rewrap hi (s_bcolind mat) (r_bcolind rmat) (r_nbstored rmat) in
    let! (c, hf) := view_rewrap hf (s_vals mat) (r_vals rmat) (r_nbstored rmat) in
    let! (d, hi) := view_rewrap hi (s_diagind mat) (r_diagind rmat) (r_nbrows rmat) in
    let! (e, hi) := view_rewrap hi (s_browendptr mat) (padd (r_browptr rmat) 1) (r_nbrows rmat) in
    Ok (Stor a b c d e (r_nbrows rmat) (r_nnzb rmat) (r_nbstored rmat), raw_null, hi, hf).
End RawCtor.
