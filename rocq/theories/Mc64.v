(** * Mc64: orderings and scalings computed by HSL's MC64 (src/reorderingscaling.cpp:384-498,
      include/reorderingscaling.hpp:135-152; compiled with HAVE_MC64 only) *)
From Verif Require Import Base Alg SRMatrix Nd Helpers Reorder ColMat.
From Coq Require Import ZArith.
Open Scope nat_scope.

(** what the Fortran subroutine mc64ad_ leaves in its output arguments
    (src/reorderingscaling.cpp:387-392): INFO(1), NUM, CPERM, DW *)
Record mc64_out (F : Type) := McOut { mo_info : Z; mo_num : nat; mo_cperm : list Z; mo_dw : list F }.
Arguments McOut {F}. Arguments mo_info {F}. Arguments mo_num {F}. Arguments mo_cperm {F}. Arguments mo_dw {F}.
(** data members of an MC64 object other than its job (include/reorderingscaling.hpp:89-98, 129-132) *)
Record mc64 (F : Type) := Mc { mc_ord : ordering; mc_scal : scaling (F := F) }.
Arguments Mc {F}. Arguments mc_ord {F}. Arguments mc_scal {F}.
(** how compute ends: normally, or by one of its exceptions (src/reorderingscaling.cpp:435, 470-475) *)
Inductive mc_end := Computed | InvalidJob | Singular | ErrorCode (code : Z).

(** src/reorderingscaling.cpp:407-439 getWorkSizes; [None]: the exception at 435 *)
Definition getWorkSizes (job : Z) (nrows nnz : nat) : option (nat * nat) :=
  match job with
  | 1%Z => Some (5 * nrows, 0)
  | 2%Z => Some (4 * nrows, nrows)
  | 3%Z => Some (10 * nrows + nnz, nnz)
  | 4%Z => Some (5 * nrows, 2 * nrows + nnz)
  | 5%Z => Some (5 * nrows, 3 * nrows + nnz)
  | _ => None
  end.

Section Mc64.
  Context {F : Type} {O : SOps F}.
  (** std::exp, and mc64ad_ as a function of the job, the matrix (in 1-based column storage)
      and the lengths of the work arrays IW and DW *)
  Variables (sexp : F -> F) (mc64ad : Z -> bscmat F -> nat -> nat -> mc64_out F).

  (** src/reorderingscaling.cpp:399-401: construction *)
  Definition mc64_new : mc64 F := Mc ordering_new (Scaling [] []).
  (** [v.resize(n)] of a std::vector<double> *)
  Definition fresize (n : nat) (v : list F) : list F := take n v ++ replicate (n - length v) s0.
  (** the loop at src/reorderingscaling.cpp:486-494. [cperm]: the integers mc64ad_ left in cp.
      An entry 0 would become -1, which line 497 uses as an index. *)
  Definition mc64_store (job : Z) (n : nat) (cperm : list Z) (dw : list F) (sc : scaling)
      : res (list nat * list F * list F) :=
    for_ 0 n (fun i '(cp, rs, cs) =>
      let! (rs, cs) := (if (job =? 5)%Z then
          let! u := get dw i in let! rs := set rs i (sexp u) in
          let! v := get dw (n + i) in let! cs := set cs i (sexp v) in
          Ok (rs, cs)
        else Ok (rs, cs)) in
      let! c := get cperm i in
      if (c =? 0)%Z then UB else
      let! cp := set cp i (Z.abs_nat c - 1) in
      Ok (cp, rs, cs)) (replicate n 0, rowscale sc, colscale sc).
  (** src/reorderingscaling.cpp:441-498 MC64::compute. [gp], [gi], [gv], [gd]: the initial
      contents of the arrays of the column-stored copy. Returns the object, how the call
      ended, and the number of arrays of the copy that have not been freed. The call
      destroyRawBSCMatrix at 482 names a function that does not exist in this commit; it is
      read as alignedDestroyCRawBSCMatrix (src/scmatrix.cpp:147-150). If mc64ad_ fails, negative integers it
      left in cp are read as 0. The output at 477-480 is not modelled. *)
  Definition mc64_compute (job : Z) (gp gi : list nat) (gv : list F) (gd : list Z) (M : srmat F) (m : mc64 F)
      : nd (mc64 F * mc_end * nat) :=
    let n := nbrows M in
    let o := mc_ord m in
    ndo C := convert_BSR_to_BSC_1based 1 gp gi gv gd M in
    ndo nz := nlift (get (browptr M) n) in
    let cp := vresize n (o_cp o) in
    let sc := if (job =? 5)%Z then Scaling (fresize n (rowscale (mc_scal m))) (fresize n (colscale (mc_scal m)))
              else mc_scal m in
    match getWorkSizes job n nz with
    | None => nret (Mc (Ordering (o_rp o) cp (o_irp o) (o_icp o)) sc, InvalidJob, 4)
    | Some (liw, ldw) =>
        let out := mc64ad job C liw ldw in
        if negb (mo_info out =? 0)%Z then
          nret (Mc (Ordering (o_rp o) (Z.to_nat <$> mo_cperm out) (o_irp o) (o_icp o)) sc,
                if (mo_info out =? 1)%Z then Singular else ErrorCode (mo_info out), 4)
        else
          ndo (cp, rs, cs) := nlift (mc64_store job n (mo_cperm out) (mo_dw out) sc) in
          ndo icp := nlift (invertPermutationVector cp) in
          nret (Mc (Ordering (o_rp o) cp (o_irp o) icp) (Scaling rs cs), Computed, 0)
    end.
  (** src/blockmatrices.ipp:721-735 reorderScale (one row and column per block) with an MC64
      object (also 415-430) *)
  Definition mc64_reorderScale (m : mc64 F) (mode : RSApplyMode) (M : srmat F) : nd (srmat F) :=
    reorderScale 1 (mc_ord m) (mc_scal m) mode M.
End Mc64.
