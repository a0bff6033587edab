(** * Objects: preconditioner objects as a whole, and the PETSc functions that use them

    The classes of the objects are those of Factory; here they get their state and their virtual functions compute(), apply() and
    apply_relax(), put together from the models of the single algorithms. The matrix is passed to each call: the object only keeps
    pointers to the arrays of the caller, who may change the values between calls. *)
From Coq Require Import ZArith.
From Verif Require Import Base Alg SRMatrix Async Nd Kernels IluApply IluPattern IluFactor Sgs Levels ColMat Coo Factory Petsc.
Local Open Scope string_scope.

Section Objects.
  Context {F : Type} {O : SOps F}.
  (** std::sqrt, std::abs, comparison of scalars, and Eigen's inverse of a small dense matrix *)
  Variables (ssqrt sabs : F -> F) (slt : F -> F -> bool) (inv : list F -> list F).
  Implicit Types (M : srmat F) (p : prec).

  (** The members that functions change: [p_d] dblocks (include/solverops_jacobi.hpp:48,84), [p_y] ytemp
      (include/solverops_sgs.hpp:64,108, include/solverops_levels_sgs.hpp:43,75, include/solverops_ilu0.hpp:84,149), [p_ilu] iluvals,
      scale and plist (include/solverops_ilu0.hpp:78-94,143-162), [p_levels] (include/solverops_levels_sgs.hpp:46,78,
      include/solverops_levels_ilu0.hpp:48,83), [p_csc] cmat (include/solverops_sgs.hpp:148), [p_par] solveparams
      (include/solverops_base.hpp:63). [None]: the null pointer. *)
  Record pstate := PState {
    p_d : option (list F); p_y : option (list F); p_ilu : ilu_state (F:=F); p_levels : list nat; p_csc : option (bscmat F);
    p_par : SolveParams F }.
  (** the objects after construction: src/solverops_jacobi.cpp:19-22,123-127, src/solverops_sgs.cpp:18-24,118-124,206-211,
      src/solverops_levels_sgs.cpp:30-33,138-140, src/solverops_ilu0.cpp:19-30,218-229, src/relaxation_chaotic.cpp:14-19,
      src/solverops_base.cpp:11-13: the parameters are not set, they are what was in the memory, [g] *)
  Definition p_new (g : SolveParams F) : pstate := PState None None ilu_new [] None g.
  (** include/solverops_base.hpp:58 setApplyParams *)
  Definition set_params (a : SolveParams F) (st : pstate) : pstate :=
    PState (p_d st) (p_y st) (p_ilu st) (p_levels st) (p_csc st) a.
  (** what freshly allocated memory contains: number of the allocation in the function, position *)
  Record fresh := Fresh { fr_v : nat -> nat -> F; fr_n : nat -> nat -> nat; fr_z : nat -> Z }.

  (** the number of scalars in a row of blocks, and in a block *)
  Definition width (sh : shape) : nat := match sh with Scalar => 1 | Blocks bs _ => bs end.
  Definition bsize (sh : shape) : nat := match sh with Scalar => 1 | Blocks bs _ => bs * bs end.
  Definition pshape (p : prec) : shape :=
    match p with
    | PJacobi sh | PChaotic sh _ _ | PSgs sh _ _ _ | PLevelSgs sh | PIlu sh _ | PLevelIlu sh _ => sh
    | PCscBgs _ _ | PReorderedIlu _ => Scalar
    | PNone bs => Blocks bs ColMajor
    end.
  (** dim(): include/solverops_jacobi.hpp:26,65, include/solverops_ilu0.hpp:49,123, include/solverops_sgs.hpp:42,89,131,
      include/solverops_base.hpp:89 *)
  Definition obj_dim (p : prec) (M : srmat F) : nat := (nbrows M * width (pshape p))%nat.
  (** relaxationAvailable(): include/solverops_base.hpp:91, include/solverops_ilu0.hpp:51,125, include/solverops_jacobi.hpp:28,67,
      include/solverops_levels_sgs.hpp:22,57, include/solverops_sgs.hpp:44,91,133 *)
  Definition relaxationAvailable (p : prec) : bool :=
    match p with PNone _ | PIlu _ _ | PLevelIlu _ _ | PReorderedIlu _ | PCscBgs _ _ => false | _ => true end.

  (** dereferencing a member *)
  Definition member {A B} (x : option A) (k : A -> nd B) : nd B := match x with Some a => k a | None => nlift UB end.
  (** schedule(dynamic, chunk): the chunk size has to be positive *)
  Definition chunked {B} (chunk : Z) (k : nat -> nd B) : nd B := if (chunk <=? 0)%Z then nlift UB else k (Z.to_nat chunk).

  (** loop bodies of the scalar and the block classes *)
  Definition fgs_of sh M d r := match sh with Scalar => scalar_fgsC M d r | Blocks bs so => block_fgsC so bs M d r end.
  Definition bgs_of sh M d y := match sh with Scalar => scalar_bgsC M d y | Blocks bs so => block_bgsC so bs M d y end.
  Definition relax_of sh M d b := match sh with Scalar => scalar_relaxC M d b | Blocks bs so => block_relaxC so bs M d b end.
  Definition setup_of sh M d := match sh with Scalar => jacobi_setup M d | Blocks bs _ => bjacobi_setup inv bs M d end.

  (** ** compute() *)
  (** src/solverops_jacobi.cpp:31-48 (blocks), 150-162 (scalar); the chaotic relaxations inherit it *)
  Definition jacobi_compute sh (g : fresh) M st : nd pstate :=
    let d := match p_d st with Some d => d | None => alloc (fr_v g 0) (nbrows M * bsize sh) end in
    ndo d := setup_of sh M d in
    nret (PState (Some d) (p_y st) (p_ilu st) (p_levels st) (p_csc st) (p_par st)).
  (** src/solverops_sgs.cpp:32-45 (blocks), 131-145 (scalar) *)
  Definition sgs_compute sh (g : fresh) M st : nd pstate :=
    ndo st := jacobi_compute sh g M st in
    match p_y st with
    | Some _ => nret st
    | None =>
      ndo y := fill (nbrows M * width sh) s0 (alloc (fr_v g 1) (nbrows M * width sh)) in
      nret (PState (p_d st) (Some y) (p_ilu st) (p_levels st) (p_csc st) (p_par st))
    end.
  (** src/solverops_levels_sgs.cpp:42-51 (blocks), 148-157 (scalar). The outer loop of computeLevels takes at least one row per
      round if it ends at all. *)
  Definition level_sgs_compute sh (g : fresh) M st : nd pstate :=
    ndo st := match p_y st with
              | Some _ => nret st
              | None =>
                ndo levels := nlift (computeLevels (nbrows M) M) in
                nret (PState (p_d st) (Some (alloc (fr_v g 1) (nbrows M * width sh))) (p_ilu st) levels (p_csc st) (p_par st))
              end in
    jacobi_compute sh g M st.
  (** src/solverops_sgs.cpp:219-228; the old column matrix is freed first *)
  Definition cscbgs_compute (g : fresh) M st : nd pstate :=
    let d := match p_d st with Some d => d | None => alloc (fr_v g 0) (nbrows M) end in
    ndo (d, C) := csc_bgs_compute d (alloc (fr_n g 0) (nbrows M + 1)) (alloc (fr_n g 1) (nnz M)) (alloc (fr_v g 1) (nnz M))
                    (alloc (fr_z g) (nbrows M)) M in
    nret (PState (Some d) (p_y st) (p_ilu st) (p_levels st) (Some C) (p_par st)).
  (** src/solverops_ilu0.cpp:150-201 (blocks), 323-368 (scalar). Where iluvals is null, so is ytemp: both are set in setup_storage *)
  Definition ilu_compute sh (i : ilu) (nthr : nat) (g : fresh) M st : nd (pstate * option (F * F)) :=
    chunked (i_chunk i) (fun chunk =>
      ndo y := match st_ilu (p_ilu st), p_y st with
               | None, None => ndo y := fill (nbrows M * width sh) s0 (alloc (fr_v g 1) (nbrows M * width sh)) in nret (Some y)
               | _, y => nret y
               end in
      let gi := alloc (fr_v g 2) (nnz M * bsize sh) in
      let gs := alloc (fr_v g 3) (nbrows M * width sh) in
      let gd := alloc (fr_v g 4) (nbrows M * bsize sh) in
      ndo (s, info) := match sh with
        | Scalar => scalar_ilu0_compute ssqrt sabs (Z.to_nat (i_nbuild i)) chunk (i_tfactor i) nthr (i_finit i) (i_scale i) (i_info i) gi gs M (p_ilu st)
        | Blocks bs so => block_ilu0_compute ssqrt sabs inv so bs (Z.to_nat (i_nbuild i)) chunk (i_tfactor i) nthr (i_finit i) (i_scale i) (i_info i) gi gs gd M (p_ilu st)
        end in
      nret (PState (p_d st) y s (p_levels st) (p_csc st) (p_par st), info)).
  (** src/solverops_levels_ilu0.cpp:49-55 (blocks), 139-145 (scalar) *)
  Definition level_ilu_compute sh (i : ilu) (nthr : nat) (g : fresh) M st : nd (pstate * option (F * F)) :=
    ndo st := match st_ilu (p_ilu st) with
              | Some _ => nret st
              | None => ndo levels := nlift (computeLevels (nbrows M) M) in
                        nret (PState (p_d st) (p_y st) (p_ilu st) levels (p_csc st) (p_par st))
              end in
    ilu_compute sh i nthr g M st.
  (** The dispatch. The factory makes no [PReorderedIlu] object; nothing is said about them here (see ReorderedIlu). [None]: the
      PrecInfo object made by its default constructor *)
  Definition obj_compute (nthr : nat) (g : fresh) p M st : nd (pstate * option (F * F)) :=
    let plain (m : nd pstate) := ndo st := m in nret (st, None) in
    match p with
    | PNone _ => nret (st, None)                                             (* include/solverops_base.hpp:94 *)
    | PJacobi sh | PChaotic sh _ _ => plain (jacobi_compute sh g M st)
    | PSgs sh _ _ _ => plain (sgs_compute sh g M st)
    | PLevelSgs sh => plain (level_sgs_compute sh g M st)
    | PCscBgs _ _ => plain (cscbgs_compute g M st)
    | PIlu sh i => ilu_compute sh i nthr g M st
    | PLevelIlu sh i => level_ilu_compute sh i nthr g M st
    | PReorderedIlu _ => fun _ => True
    end.

  (** ** apply(): the work vector is changed though the function is const *)
  Definition with_y (st : pstate) (y : list F) : pstate :=
    PState (p_d st) (Some y) (p_ilu st) (p_levels st) (p_csc st) (p_par st).
  (** src/solverops_ilu0.cpp:203-208 (blocks), 370-375 (scalar); ytemp is non-null whenever iluvals is *)
  Definition ilu_apply sh (i : ilu) (nthr : nat) M st r z : nd (pstate * list F) :=
    member (p_y st) (fun y => member (st_ilu (p_ilu st)) (fun lu => chunked (i_chunk i) (fun chunk =>
      let s := IluFactor.st_scale (p_ilu st) in
      ndo (y, z) := match sh with
        | Scalar => scalar_ilu0_apply M lu s y (Z.to_nat (i_napply i)) chunk (i_tapply i) nthr (i_ainit i) r z
        | Blocks bs so => block_ilu0_apply so bs M lu s y (Z.to_nat (i_napply i)) chunk (i_tapply i) nthr (i_ainit i) r z
        end in
      nret (with_y st y, z)))).
  (** src/solverops_levels_ilu0.cpp:58-105 (blocks), 148-192 (scalar) *)
  Definition level_ilu_apply sh (nthr : nat) M st r z : nd (pstate * list F) :=
    member (p_y st) (fun y => member (st_ilu (p_ilu st)) (fun lu =>
      let s := IluFactor.st_scale (p_ilu st) in
      ndo (y, z) := match sh with
        | Scalar => scalar_level_ilu0_apply M lu (p_levels st) s y nthr r z
        | Blocks bs so => block_level_ilu0_apply so bs M lu (p_levels st) s y nthr r z
        end in
      nret (with_y st y, z))).
  (** The dispatch: src/solverops_base.cpp:34-39, src/solverops_jacobi.cpp:51-63,165-171, src/relaxation_chaotic.cpp:21-46,91-107,
      src/solverops_sgs.cpp:47-83,147-177,230-266, src/solverops_levels_sgs.cpp:53-86,159-187. With more than one thread the columns
      of CSC_BGS overlap, which is not modelled: every outcome that leaves the members alone is possible then. *)
  Definition obj_apply (nthr : nat) (g : fresh) p M st (r z : list F) : nd (pstate * list F) :=
    let n := nbrows M in
    match p with
    | PNone bs => ndo z := noprec_apply bs M r z in nret (st, z)
    | PJacobi sh => member (p_d st) (fun d =>
        ndo z := match sh with Scalar => jacobi_apply M d r z | Blocks bs so => bjacobi_apply so bs M d r z end in nret (st, z))
    | PChaotic sh na chunk => member (p_d st) (fun d => chunked chunk (fun chunk =>
        ndo z := chaotic_relax (width sh) n (relax_of sh M d) (Z.to_nat na) chunk nthr r z in nret (st, z)))
    | PSgs sh na ainit chunk => member (p_d st) (fun d => member (p_y st) (fun y => chunked chunk (fun chunk =>
        ndo (y, z) := sgs_apply (width sh) n (fgs_of sh M d) (bgs_of sh M d) y (Z.to_nat na) chunk nthr ainit r z in
        nret (with_y st y, z))))
    | PLevelSgs sh => member (p_d st) (fun d => member (p_y st) (fun y =>
        ndo (y, z) := level_sgs_apply (width sh) (fgs_of sh M d) (bgs_of sh M d) (p_levels st) y nthr r z in
        nret (with_y st y, z)))
    | PCscBgs na chunk => member (p_d st) (fun d => member (p_csc st) (fun C => chunked chunk (fun _ =>
        if Nat.eqb nthr 1 then
          ndo z := csc_bgs_apply C d (one_thread C (Z.to_nat na)) (alloc (fr_v g 0) (nbcols C)) r z in nret (st, z)
        else fun o => forall st' z', o = Ok (st', z') -> st' = st)))
    | PIlu sh i => ilu_apply sh i nthr M st r z
    | PLevelIlu sh _ => level_ilu_apply sh nthr M st r z
    | PReorderedIlu _ => fun _ => True
    end.

  (** ** apply_relax(): src/solverops_base.cpp:41-43, src/solverops_jacobi.cpp:65-121,173-220, src/relaxation_chaotic.cpp:48-72,109-125,
      src/solverops_sgs.cpp:85-116,179-203,268-273, src/solverops_levels_sgs.cpp:88-127,189-222, src/solverops_ilu0.cpp:211-216,378-383,
      src/solverops_levels_ilu0.cpp:107-112,194-199. None of them changes a member. *)
  Definition obj_relax (nthr : nat) (g : fresh) p M st (b x : list F) : nd (list F) :=
    let n := nbrows M in
    let a := p_par st in
    match p with
    | PNone _ => noprec_apply_relax b x
    | PJacobi sh => member (p_d st) (fun d =>
        jacobi_relax ssqrt slt (width sh) n (relax_of sh M d) a (alloc (fr_v g 0) (n * width sh)) b x)
    | PChaotic sh _ chunk => member (p_d st) (fun d => chunked chunk (fun chunk =>
        chaotic_relax (width sh) n (relax_of sh M d) (maxits a) chunk nthr b x))
    | PSgs sh _ _ chunk => member (p_d st) (fun d => chunked chunk (fun chunk =>
        sgs_relax (width sh) n (relax_of sh M d) (maxits a) chunk nthr b x))
    | PLevelSgs sh => member (p_d st) (fun d => level_relax (width sh) (relax_of sh M d) (p_levels st) (maxits a) nthr b x)
    | PCscBgs _ _ => csc_bgs_apply_relax b x
    | PIlu _ _ | PLevelIlu _ _ => nlift (Throw "ILU relaxation not implemented!")
    | PReorderedIlu _ => fun _ => True
    end.

  (** ** The functions given to a PCSHELL *)
  (** call a member function and catch its outcome *)
  Definition attempt {A} (m : nd A) : nd (A + status) := fun o =>
    exists x, m x /\ o = Ok match x with Ok a => inl a | r => inr (status_of r) end.
  Notation ctx := (@ctx F).
  Notation mem := (@mem F (option (F * F))).
  Definition add_apply_times (dcpu dwall : F) (c : ctx) : ctx :=
    Ctx (c_bprec c) (c_factory c) (c_bs c) (c_prectypestr c) (c_prectype c) (c_scale c) (c_chunk c) (c_nbuild c) (c_napply c)
      (c_finit c) (c_ainit c) (c_info c) (c_infolist c) (c_first c) (c_fcpu c) (c_fwall c) (c_acpu c + dcpu)%s (c_awall c + dwall)%s (c_next c).

  (** src/blasted_petsc.cpp:403-430 compute_preconditioner_blasted. Petsc has a model that is given the diagnostics returned by
      compute(); here they are those of the object. [pg]: see p_new. *)
  Definition shell_setup (nthr : nat) (g : fresh) (pg : SolveParams F) (gf : FactInit) (ga : ApplyInit) (diagmissing : bool) (o : options)
      (dcpu dwall : F) (M : srmat F) (m : mem) (c : ctx) (st : pstate) : nd (mem * ctx * pstate * status) :=
    let '(m, c, st, s) :=
      if c_first c then (m, c, st, Fine) else
      match setupDataFromOptions (m_facts m) o c with
      | (c, Fine) => let '(m, c, s) := createNewPreconditioner gf ga diagmissing m c in (m, c, p_new pg, s)
      | (c, s) => (m, c, st, s)
      end in
    match s, c_bprec c with
    | Fine, Some p =>
      ndo x := attempt (obj_compute nthr g p M st) in
      match x with
      | inl (st, info) =>
        match updatePreconditioner info m c with
        | (m, Fine) =>
          nret (m, Ctx (c_bprec c) (c_factory c) (c_bs c) (c_prectypestr c) (c_prectype c) (c_scale c) (c_chunk c) (c_nbuild c) (c_napply c)
                (c_finit c) (c_ainit c) (c_info c) (c_infolist c) (c_first c) (c_fcpu c + dcpu)%s (c_fwall c + dwall)%s (c_acpu c) (c_awall c) (c_next c), st, Fine)
        | (m, s) => nret (m, c, st, s)
        end
      | inr s => nret (m, c, st, s)
      end
    | Fine, None => nret (m, c, st, Undefined)
    | s, _ => nret (m, c, st, s)
    end.
  (** What a call leaves behind: the context, the object, the array of the output vector, whether the arrays of the vectors are still
      held (VecRestoreArray not called), and how the function ends. If apply() does not return, nothing is said about the output. *)
  Record after := After { a_ctx : ctx; a_obj : pstate; a_vec : option (list F); a_held : bool; a_status : status }.
  (** src/blasted_petsc.cpp:474-517 apply_local_blasted. [dbg]: compiled with DEBUG. The vectors are given by their local arrays. *)
  Definition apply_local_blasted (dbg : bool) (nthr : nat) (g : fresh) (dcpu dwall : F) M (c : ctx) (st : pstate) (r z : list F) : nd after :=
    match c_bprec c with
    | None => nret (After c st None false Undefined)
    | Some p =>
      if dbg && negb (Nat.eqb (obj_dim p M) (length r))
      then nret (After c st (Some z) false (PetscErr "BLASTed: Dimension of vector does not match that of the matrix")) else
      ndo x := attempt (obj_apply nthr g p M st r z) in
      match x with
      | inl (st, z) => nret (After (add_apply_times dcpu dwall c) st (Some z) false Fine)
      | inr s => nret (After c st None true s)
      end
    end.
  (** src/blasted_petsc.cpp:519-576 relax_local_blasted; also returns the number of iterations reported in outits and whether
      reason was set to PCRICHARDSON_CONVERGED_ITS *)
  Definition relax_local_blasted (dbg : bool) (nthr : nat) (g : fresh) (dcpu dwall : F) (rtol abstol dtol : F) (it : Z) (guesszero : bool)
      M (c : ctx) (st : pstate) (rhs x : list F) : nd (after * option Z) :=
    match c_bprec c with
    | None => nret (After c st None false Undefined, None)
    | Some p =>
      let st := set_params {| Sgs.rtol := rtol; atol := abstol; Sgs.dtol := dtol; ctol := false; maxits := Z.to_nat it |} st in
      let x := if guesszero then replicate (length x) s0 else x in
      if dbg && negb (Nat.eqb (obj_dim p M) (length rhs))
      then nret (After c st (Some x) false (PetscErr "BLASTed: Dimension of vector does not match that of the matrix"), None) else
      ndo y := attempt (obj_relax nthr g p M st rhs x) in
      match y with
      | inl x => nret (After (add_apply_times dcpu dwall c) st (Some x) false Fine, Some it)
      | inr s => nret (After c st None true s, None)
      end
    end.
End Objects.
