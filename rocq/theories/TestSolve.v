(** * TestSolve: the driver of the solver tests (tests/testsolve.cpp:28-123)

    From the text of the files to the solution vector: reading, conversion, the preconditioner that the factory makes for the names given, and the solver.
    Left out: messages, the command line, deleting the objects. *)
From Coq Require Import ZArith Ascii String.
From Verif Require Import Base Alg SRMatrix Nd Reduction Matvec Coo CooRead MMText FileMat Sgs Factory Objects Solvers.
Open Scope nat_scope.

(** tests/testsolve.hpp Params, without the file names and the fields that test_solve does not read *)
Record tparams (F : Type) := TParams {
  tp_solver : string; tp_prec : string; tp_finit : string; tp_ainit : string; tp_order : string;
  tp_nbuild : Z; tp_napply : Z; tp_chunk : Z; tp_maxiter : nat; tp_restart : nat; tp_tol : F; tp_testtol : F }.
Arguments TParams {F}. Arguments tp_solver {F}. Arguments tp_prec {F}. Arguments tp_finit {F}. Arguments tp_ainit {F}. Arguments tp_order {F}.
Arguments tp_nbuild {F}. Arguments tp_napply {F}. Arguments tp_chunk {F}. Arguments tp_maxiter {F}. Arguments tp_restart {F}. Arguments tp_tol {F}. Arguments tp_testtol {F}.

Section TestSolve.
  Context {F : Type} {O : SOps F}.
  (** the library functions of the other files; [hundred] is the literal 100.0 *)
  Variables (ssqrt sabs : F -> F) (slt sle : F -> F -> bool) (inv : list F -> list F) (hundred : F) (scan_real : string -> F * bool * string).
  (** the number of threads *)
  Variable nthr : nat.
  (** what new memory contains: in the two conversions, in compute(), in the parameters of the preconditioner, and in [aparams.compute_precinfo], which
      test_solve does not set (reading such a bool is undefined behaviour in C++; here it is one of the two values) *)
  Variables (gp gi : bool -> nat -> nat) (gv : bool -> nat -> F) (gd : bool -> nat -> Z) (gmem : @fresh F) (gpar : SolveParams F) (ginfo : bool).

  (** the states of a preconditioner object after compute() and any number of applications *)
  Inductive used (p : prec) (M : srmat F) (st0 : @pstate F) : @pstate F -> Prop :=
  | used_new : used p M st0 st0
  | used_apply st g r z st' z' : used p M st0 st -> length r = obj_dim p M -> length z = obj_dim p M ->
      obj_apply nthr g p M st r z (Ok (st', z')) -> used p M st0 st'.
  (** prec->apply(r, z) as the solvers see it. Simplification: each call may find any of these states, not only the one that the last call left. *)
  Definition apply_used (p : prec) (M : srmat F) (st0 : @pstate F) (r z : list F) : nd (list F) := fun o =>
    exists st g, used p M st0 st /\ (ndo (_, z') := obj_apply nthr g p M st r z in nret z') o.

  (** readDenseMatrixMarket(file); the bound on the number of lines is larger than the number of characters *)
  Definition dense_file (text : option string) : res (list F) := readDense_text scan_real (S (S (String.length (default EmptyString text)))) text.

  (** tests/testsolve.cpp:69-84 the settings *)
  Definition test_settings (bs : nat) (P : tparams F) : res settings :=
    let! ty := solverTypeFromString (tp_prec P) in
    let! fi := getFactInitFromString (tp_finit P) in
    let! ai := getApplyInitFromString (tp_ainit P) in
    Ok (Settings ty (Z.of_nat bs) (Layout (if String.eqb (tp_order P) "rowmajor" then RowMajor else ColMajor)) (tp_chunk P)
          false (tp_nbuild P) (tp_napply P) fi ai ginfo).

  (** tests/testsolve.cpp:90-104 *)
  Definition run_solver (P : tparams F) (N : nat) (Aapply : list F -> list F -> nd (list F)) (Agemv3 : F -> list F -> F -> list F -> list F -> nd (list F))
      (prec : list F -> list F -> nd (list F)) (b x : list F) : nd (list F * SolveInfo F) :=
    if String.eqb (tp_solver P) "richardson" then richardson ssqrt slt N Agemv3 prec (tp_maxiter P) (tp_tol P) b x
    else if String.eqb (tp_solver P) "bcgs" then bicgstab ssqrt slt N Aapply Agemv3 prec (tp_maxiter P) (tp_tol P) hundred b x
    else if String.eqb (tp_solver P) "gcr" then gcr ssqrt slt sle N Aapply Agemv3 prec (tp_maxiter P) (tp_tol P) (tp_restart P) b x
    else nlift (Throw "abort").

  (** tests/testsolve.cpp:107-116: the error; [None]: the name of the file is "NONE" *)
  Definition check_solution (N : nat) (testtol : F) (x : list F) (x_file : option (option string)) : res unit :=
    match x_file with
    | None => Ok Datatypes.tt
    | Some text =>
      let! ans := dense_file text in
      let! l2 := for_ 0 N (fun i l2 => let! a := get x i in let! b := get ans i in Ok (l2 + (a - b) * (a - b))%s) s0 in
      if slt (ssqrt l2) testtol then Ok Datatypes.tt else Throw "assertion failed"
    end.

  (** tests/testsolve.cpp:28-123 test_solve<bs>: the solution vector and what the solver returned *)
  Definition test_solve (bs : nat) (P : tparams F) (mat_file b_file : option string) (x_file : option (option string)) : nd (list F * SolveInfo F) :=
    ndo coom := readMatrixMarket_text scan_real coo_new mat_file in
    ndo b := nlift (dense_file b_file) in
    ndo (M, _) := nlift (getSRMatrixFromCOO bs (tp_order P) (gp true) (gi true) (gv true) (gd true) coom) in
    ndo (Mc, _) := nlift (getSRMatrixFromCOO bs (tp_order P) (gp false) (gi false) (gv false) (gd false) coom) in
    let so := if String.eqb (tp_order P) "rowmajor" then RowMajor else ColMajor in
    let N := nbrows M * bs in
    let Aapply := if bs =? 1 then csr_apply M else bsr_apply so bs M in
    let Agemv3 := fun a x b y z => if bs =? 1 then csr_gemv3 M a x b (Some y) z else bsr_gemv3 so bs M a x b (Some y) z in
    ndo opts := nlift (test_settings bs P) in
    ndo made := nlift (create_preconditioner opts) in
    match made with
    | None => nlift UB
    | Some p =>
      ndo (st, _) := obj_compute ssqrt sabs inv nthr gmem p Mc (p_new gpar) in
      ndo (x, info) := run_solver P N Aapply Agemv3 (apply_used p Mc st) b (replicate N s0) in
      ndo _ := nlift (check_solution N (tp_testtol P) x x_file) in
      nret (x, info)
    end.
End TestSolve.
