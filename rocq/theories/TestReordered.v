(** * TestReordered: the driver of the test of reordered preconditioning (tests/testreorderedsolve.cpp:45-146)

    Left out: messages, the command line, deleting the objects. *)
From Coq Require Import ZArith Ascii String.
From Verif Require Import Base Alg SRMatrix Nd Reduction Matvec Coo CooRead MMText FileMat IluApply IluFactor Sgs Reorder ReorderedIlu Factory Objects Solvers TestSolve.
Open Scope nat_scope.

(** tests/testreorderedsolve.cpp:30-43 createTrivialColReordering; the constructor of std::vector fills with zeros *)
Definition trivial_reordering (N : nat) : res ordering :=
  let! v := for_ 0 N (fun i v => set v i i) (replicate N 0) in
  let! temp := get v 1 in
  let! a := get v 3 in
  let! v := set v 1 a in
  let! v := set v 3 temp in
  setOrdering (Some v) (Some v) N ordering_new.

Section TestReordered.
  Context {F : Type} {O : SOps F}.
  (** as in TestSolve *)
  Variables (ssqrt sabs : F -> F) (slt sle : F -> F -> bool) (inv : list F -> list F) (hundred : F) (scan_real : string -> F * bool * string).
  Variable nthr : nat.
  (** what new memory contains: in the three conversions, in the two calls of compute(), in the parameters of the first preconditioner *)
  Variables (gp gi : nat -> nat -> nat) (gv : nat -> nat -> F) (gd : nat -> nat -> Z) (gmem gmem2 : @fresh F) (gpar : SolveParams F).

  (** tests/testreorderedsolve.cpp:82-93, 121-131 *)
  Definition run_two (P : tparams F) (N : nat) (Aapply : list F -> list F -> nd (list F)) (Agemv3 : F -> list F -> F -> list F -> list F -> nd (list F))
      (prec : list F -> list F -> nd (list F)) (b x : list F) : nd (list F * SolveInfo F) :=
    if String.eqb (tp_solver P) "richardson" then richardson ssqrt slt N Agemv3 prec (tp_maxiter P) (tp_tol P) b x
    else if String.eqb (tp_solver P) "bcgs" then bicgstab ssqrt slt N Aapply Agemv3 prec (tp_maxiter P) (tp_tol P) hundred b x
    else nlift (Throw "abort").

  (** tests/testreorderedsolve.cpp:96-102, 134-140 *)
  Definition check_error (N : nat) (testtol : F) (x ans : list F) : res unit :=
    let! l2 := for_ 0 N (fun i l2 => let! a := get x i in let! b := get ans i in Ok (l2 + (a - b) * (a - b))%s) s0 in
    if slt (ssqrt l2) testtol then Ok Datatypes.tt else Throw "assertion failed".

  (** prec->apply(r, z) of the reordered preconditioner as the solvers see it (src/solverops_ilu0.cpp:439-467). Simplification: each call may find any
      contents in the work vector of the object and in the temporary; both have [n] places, the number of rows of the matrix and of its copy. *)
  Definition reordered_prec (n : nat) (o : ordering) (st : ilu_state) (R : srmat F) (i : ilu) (r z : list F) : nd (list F) := fun out =>
    exists ytemp rb, length ytemp = n /\ length rb = n /\
      (chunked (i_chunk i) (fun chunk =>
        ndo (_, z') := reordered_apply o st R ytemp (Z.to_nat (i_napply i)) chunk (i_tapply i) nthr (i_ainit i) rb r z in nret z')) out.

  (** tests/testreorderedsolve.cpp:45-146 testSolve: what the two solves return. The calls of the constructor of AsyncILU0 in lines 71-77
      and in src/solverops_ilu0.cpp:405-406 leave out its last parameter (see Factory). *)
  Definition test_reordered (P : tparams F) (mat_file x_file b_file : option string) : nd ((list F * SolveInfo F) * (list F * SolveInfo F)) :=
    ndo coom := readMatrixMarket_text scan_real coo_new mat_file in
    ndo ans := nlift (dense_file scan_real x_file) in
    ndo b := nlift (dense_file scan_real b_file) in
    ndo (M, _) := nlift (getSRMatrixFromCOO 1 (tp_order P) (gp 0) (gi 0) (gv 0) (gd 0) coom) in
    let N := nbrows M in
    let Agemv3 := fun a x b y z => csr_gemv3 M a x b (Some y) z in
    (* 71-80 *)
    ndo (M1, _) := nlift (getSRMatrixFromCOO 1 (tp_order P) (gp 1) (gi 1) (gv 1) (gd 1) coom) in
    ndo fi := nlift (getFactInitFromString (tp_finit P)) in
    ndo ai := nlift (getApplyInitFromString (tp_ainit P)) in
    let p := PIlu Scalar (AsyncILU0_default (tp_nbuild P) (tp_napply P) false (tp_chunk P) fi ai false false) in
    ndo (st, _) := obj_compute ssqrt sabs inv nthr gmem p M1 (p_new gpar) in
    (* 82-102 *)
    ndo (x, info) := run_two P N (csr_apply M) Agemv3 (apply_used nthr p M1 st) b (replicate N s0) in
    ndo _ := nlift (check_error N (tp_testtol P) x ans) in
    (* 111-119; the compute() of the reordering (25-27) does nothing *)
    ndo o := nlift (trivial_reordering N) in
    ndo (M2, _) := nlift (getSRMatrixFromCOO 1 (tp_order P) (gp 2) (gi 2) (gv 2) (gd 2) coom) in
    let i := ReorderedAsyncILU0 (tp_nbuild P) (tp_napply P) (tp_chunk P) fi ai false false in
    ndo (st2, R) := chunked (i_chunk i) (fun chunk =>
      reordered_compute ssqrt sabs (Z.to_nat (i_nbuild i)) chunk (i_tfactor i) nthr (i_finit i)
        (alloc (fr_v gmem2 2) (nnz M2)) (alloc (fr_v gmem2 3) (nbrows M2)) o M2 ilu_new) in
    (* 121-140 *)
    ndo (x2, info2) := run_two P N (csr_apply M) Agemv3 (reordered_prec (nbrows M2) o st2 R i) b (replicate N s0) in
    ndo _ := nlift (check_error N (tp_testtol P) x2 ans) in
    nret ((x, info), (x2, info2)).
End TestReordered.
