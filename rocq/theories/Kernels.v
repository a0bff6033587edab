(** * Kernels: the row kernels of triangular solves, Gauss-Seidel and relaxation

    The vector being computed is the shared array of the parallel region (reads are
    micro-steps), everything else is read-only there. *)
From Verif Require Import Base Alg SRMatrix Async.

Section Kernels.
  Context {F : Type} {O : SOps F}.
  Notation P := (@P F).

  (** Results of a program over a list of indices. *)
  Fixpoint pmap {B} (f : nat -> P B) (l : list nat) : P (list B) :=
    match l with
    | [] => Ret []
    | a :: l' => let? b := f a in let? bs := pmap f l' in Ret (b :: bs)
    end.

  (** [inter += vals[jj]*x[colind[jj]]] for jj = lo, ..., hi-1: the loops at
      src/kernels/kernels_ilu_apply.hpp:21-24,36-39,
      src/kernels/kernels_sgs.hpp:23-26,38-41,
      src/kernels/kernels_relaxation.hpp:47-51.
      Simplification: the terms are added in order (the simd reduction pragma
      permits the compiler to reassociate; see Reduce.v for every other order). *)
  Definition sdot (vals : list F) (colind : list nat) (lo hi : nat) (inter : F) : P F :=
    pfor lo hi (fun jj inter =>
      let? v := plift (get vals jj) in
      let? c := plift (get colind jj) in
      let? xc := pread c in
      Ret (inter + v * xc)%s) inter.

  (** ** Scalar kernels: the new value of one entry *)
  (** src/kernels/kernels_ilu_apply.hpp:15-27 scalar_unit_lower_triangular *)
  Definition scalar_unit_lower_triangular (vals : list F) (colind : list nat)
      (rowstart diagind : nat) (rhs : F) : P F :=
    let? inter := sdot vals colind rowstart diagind s0 in
    Ret (rhs - inter)%s.
  (** src/kernels/kernels_ilu_apply.hpp:30-42 scalar_upper_triangular *)
  Definition scalar_upper_triangular (vals : list F) (colind : list nat)
      (diagind nextrowstart : nat) (diag_entry_inv rhs : F) : P F :=
    let? inter := sdot vals colind (diagind + 1) nextrowstart s0 in
    Ret (diag_entry_inv * (rhs - inter))%s.
  (** src/kernels/kernels_sgs.hpp:17-29 scalar_fgs *)
  Definition scalar_fgs (vals : list F) (colind : list nat)
      (rowstart diagind : nat) (diag_entry_inv rhs : F) : P F :=
    let? inter := sdot vals colind rowstart diagind s0 in
    Ret (diag_entry_inv * (rhs - inter))%s.
  (** src/kernels/kernels_sgs.hpp:32-44 scalar_bgs (its parameter diag_entry is not
      used) *)
  Definition scalar_bgs (vals : list F) (colind : list nat)
      (diagind nextrowstart : nat) (diag_entry_inv rhs : F) : P F :=
    let? inter := sdot vals colind (diagind + 1) nextrowstart s0 in
    Ret (rhs - diag_entry_inv * inter)%s.
  (** src/kernels/kernels_relaxation.hpp:40-54 scalar_relax, with xL and xU the same
      vector, as at all its call sites *)
  Definition scalar_relax (vals : list F) (colind : list nat)
      (rowstart diagind nextrowstart : nat) (diag_entry_inv rhs : F) : P F :=
    let? inter := sdot vals colind rowstart diagind s0 in
    let? inter := sdot vals colind (diagind + 1) nextrowstart inter in
    Ret (diag_entry_inv * (rhs - inter))%s.

  (** ** Block kernels: the new values of one segment
      Dense blocks are [bs*bs] consecutive scalars in storage order [so]
      (Eigen fixed-size matrices). *)
  Section Block.
    Variables (so : storage) (bs : nat).
    (** Eigen: block times segment, the block starting at scalar [base] of [vals] *)
    Definition bmatvec (vals : list F) (base : nat) (v : list F) : res (list F) :=
      mapr (fun p => for_ 0 bs (fun q acc =>
              let! b := get vals (base + lay so bs p q) in
              let! x := get v q in
              Ok (acc + b * x)%s) s0) (seq 0 bs).
    (** segment sum and difference *)
    Definition vadd (a b : list F) : list F := zip_with sadd a b.
    Definition vsub (a b : list F) : list F := zip_with ssub a b.
    (** segment [i] of a vector *)
    Definition getseg (v : list F) (i : nat) : res (list F) := mapr (fun p => get v (i * bs + p)) (seq 0 bs).
    (** [inter += vals[jj]*x[bcolind[jj]]] for jj = lo, ..., hi-1:
        src/kernels/kernels_ilu_apply.hpp:61-64,86-90,
        src/kernels/kernels_sgs.hpp:53-56,68-72,
        src/kernels/kernels_relaxation.hpp:28-34.
        Entries of the segment of x are read once per row of the block (the product
        is an unevaluated Eigen expression). *)
    Definition bdot (vals : list F) (bcolind : list nat) (lo hi : nat) (inter : list F) : P (list F) :=
      pfor lo hi (fun jj inter =>
        let? c := plift (get bcolind jj) in
        let? prod := pmap (fun p => pfor 0 bs (fun q acc =>
              let? b := plift (get vals (jj * (bs * bs) + lay so bs p q)) in
              let? x := pread (c * bs + q) in
              Ret (acc + b * x)%s) s0) (seq 0 bs) in
        Ret (vadd inter prod)) inter.
    Definition bzero : list F := replicate bs s0.

    (** src/kernels/kernels_ilu_apply.hpp:54-67 block_unit_lower_triangular *)
    Definition block_unit_lower_triangular (vals : list F) (bcolind : list nat)
        (browstart bdiagind : nat) (rhs : list F) : P (list F) :=
      let? inter := bdot vals bcolind browstart bdiagind bzero in
      Ret (vsub rhs inter).
    (** src/kernels/kernels_ilu_apply.hpp:79-94 block_upper_triangular *)
    Definition block_upper_triangular (vals : list F) (bcolind : list nat)
        (bdiagind nextbrowstart : nat) (rhs : list F) : P (list F) :=
      let? inter := bdot vals bcolind (bdiagind + 1) nextbrowstart bzero in
      plift (bmatvec vals (bdiagind * (bs * bs)) (vsub rhs inter)).
    (** src/kernels/kernels_sgs.hpp:47-59 block_fgs; [dbase]: where the inverted
        diagonal block starts in [dblks] *)
    Definition block_fgs (vals : list F) (bcolind : list nat)
        (browstart bdiagind : nat) (dblks : list F) (dbase : nat) (rhs : list F) : P (list F) :=
      let? inter := bdot vals bcolind browstart bdiagind bzero in
      plift (bmatvec dblks dbase (vsub rhs inter)).
    (** src/kernels/kernels_sgs.hpp:62-76 block_bgs *)
    Definition block_bgs (vals : list F) (bcolind : list nat)
        (bdiagind nextbrowstart : nat) (dblks : list F) (dbase : nat) (rhs : list F) : P (list F) :=
      let? inter := bdot vals bcolind (bdiagind + 1) nextbrowstart bzero in
      let? t := plift (bmatvec dblks dbase inter) in
      Ret (vsub rhs t).
    (** src/kernels/kernels_relaxation.hpp:17-37 block_relax_kernel, xL and xU being
        the same vector *)
    Definition block_relax_kernel (vals : list F) (bcolind : list nat)
        (browstart bdiagind nextbrowstart : nat) (dblks : list F) (dbase : nat) (rhs : list F) : P (list F) :=
      let? inter := bdot vals bcolind browstart bdiagind bzero in
      let? inter := bdot vals bcolind (bdiagind + 1) nextbrowstart inter in
      plift (bmatvec dblks dbase (vsub rhs inter)).
  End Block.
End Kernels.
