(** * Matvec: products of a sparse-row matrix and a vector (src/blas/matvecs.cpp)

    Iterations of the parallel loops run as a whole, in any order: each writes only its
    own (segment of the) result and reads only that, the matrix and the input vectors. *)
From Verif Require Import Base Alg SRMatrix Nd.

Section Matvec.
  Context {F : Type} {O : SOps F}.
  Implicit Type M : srmat F.

  (** The argument [yy] of gemv3 may be the same array as the result [zz] (neither is
      declared __restrict): [None]. *)
  Definition arg_y (y : option (list F)) (z : list F) : list F := match y with Some y => y | None => z end.

  (** ** Scalar: struct BLAS_CSR *)
  (** src/blas/matvecs.cpp:78-93 BLAS_CSR::matrix_apply *)
  Definition csr_apply M (x y : list F) : nd (list F) :=
    par_for 0 (nbrows M) (fun irow y =>
      let! y := set y irow s0 in
      let! lo := get (browptr M) irow in
      let! hi := get (browptr M) (irow + 1) in
      for_ lo hi (fun jj y =>
        let! yi := get y irow in
        let! v := get (vals M) jj in
        let! c := get (bcolind M) jj in
        let! xc := get x c in
        set y irow (yi + v * xc)%s) y) y.
  (** src/blas/matvecs.cpp:95-110 BLAS_CSR::gemv3 *)
  Definition csr_gemv3 M (a : F) (x : list F) (b : F) (y : option (list F)) (z : list F) : nd (list F) :=
    par_for 0 (nbrows M) (fun irow z =>
      let! yi := get (arg_y y z) irow in
      let! z := set z irow (b * yi)%s in
      let! lo := get (browptr M) irow in
      let! hi := get (browptr M) (irow + 1) in
      for_ lo hi (fun jj z =>
        let! zi := get z irow in
        let! v := get (vals M) jj in
        let! c := get (bcolind M) jj in
        let! xc := get x c in
        set z irow (zi + a * v * xc)%s) z) z.

  (** ** Blocks: struct BLAS_BSR *)
  Variables (so : storage) (bs : nat).
  (** Eigen: the product of the block at position [jj], its entries changed by [g], and
      segment [c] of [x] *)
  Definition blk_times_seg (g : F -> F) (v x : list F) (jj c : nat) : res (list F) :=
    mapr (fun p => for_ 0 bs (fun q acc =>
      let! b := get v (jj * (bs * bs) + lay so bs p q) in
      let! xc := get x (c * bs + q) in
      Ok (acc + g b * xc)%s) s0) (seq 0 bs).
  (** Eigen: [y[i] += t] for segments *)
  Definition add_seg (y : list F) (i : nat) (t : list F) : res (list F) :=
    for_ 0 bs (fun p y =>
      let! yi := get y (i * bs + p) in
      let! tp := get t p in
      set y (i * bs + p) (yi + tp)%s) y.
  (** src/blas/matvecs.cpp:24-48 BLAS_BSR::matrix_apply *)
  Definition bsr_apply M (x y : list F) : nd (list F) :=
    par_for 0 (nbrows M) (fun irow y =>
      let! y := for_ 0 bs (fun p y => set y (irow * bs + p) s0) y in
      let! lo := get (browptr M) irow in
      let! hi := get (browptr M) (irow + 1) in
      for_ lo hi (fun jj y =>
        let! c := get (bcolind M) jj in
        let! t := blk_times_seg id (vals M) x jj c in
        add_seg y irow t) y) y.
  (** src/blas/matvecs.cpp:50-76 BLAS_BSR::gemv3 *)
  Definition bsr_gemv3 M (a : F) (x : list F) (b : F) (y : option (list F)) (z : list F) : nd (list F) :=
    par_for 0 (nbrows M) (fun irow z =>
      let! z := for_ 0 bs (fun p z =>
        let! yi := get (arg_y y z) (irow * bs + p) in set z (irow * bs + p) (b * yi)%s) z in
      let! lo := get (browptr M) irow in
      let! hi := get (browptr M) (irow + 1) in
      for_ lo hi (fun jj z =>
        let! c := get (bcolind M) jj in
        let! t := blk_times_seg (fun v => a * v)%s (vals M) x jj c in
        add_seg z irow t) z) z.
End Matvec.
