(** * Factory: preconditioner names and the objects the factory makes (include/solverfactory.hpp, src/solverfactory.cpp)

    A preconditioner object is represented by its class and by the members which its constructor stores. The matrix it takes over is
    left out (see RawCtor and ArrayView for those), and so are the members which every constructor sets to null. *)
From Coq Require Import ZArith.
From Verif Require Import Base SRMatrix IluApply IluFactor.
Local Open Scope string_scope.

(** include/solvertypes.h:14-26 BlastedSolverType *)
Inductive ptype := JACOBI | GS | SGS | ILU0 | SEQILU0 | SFILU0 | SAPILU0 | CSC_BGS | LEVEL_SGS | ASYNC_LEVEL_ILU0 | NO_PREC | EXTERNAL.
Global Instance ptype_eq : EqDecision ptype.
Proof. solve_decision. Defined.
(** the values of Eigen::StorageOptions, include/blasted_config.hpp:15: RowMajor, ColMajor, or another one such as DontAlign *)
Inductive stopt := Layout (so : storage) | OtherOption.

(** include/solverfactory.hpp:22-42 the names *)
Definition noprecstr := "none".
Definition jacobistr := "jacobi".
Definition gsstr := "gs".
Definition sgsstr := "sgs".
Definition ilu0str := "ilu0".
Definition seqilu0str := "seqilu0".
Definition sfilu0str := "sfilu0".
Definition sapilu0str := "sapilu0".
Definition cscbgsstr := "cscbgs".
Definition levelsgsstr := "level_sgs".
Definition asynclevelilustr := "async_level_ilu0".

(** src/solverfactory.cpp:34-64 SRFactory::solverTypeFromString *)
Definition solverTypeFromString (s : string) : res ptype :=
  if String.eqb s jacobistr then Ok JACOBI
  else if String.eqb s gsstr then Ok GS
  else if String.eqb s sgsstr then Ok SGS
  else if String.eqb s ilu0str then Ok ILU0
  else if String.eqb s seqilu0str then Ok SEQILU0
  else if String.eqb s sfilu0str then Ok SFILU0
  else if String.eqb s sapilu0str then Ok SAPILU0
  else if String.eqb s cscbgsstr then Ok CSC_BGS
  else if String.eqb s levelsgsstr then Ok LEVEL_SGS
  else if String.eqb s asynclevelilustr then Ok ASYNC_LEVEL_ILU0
  else if String.eqb s noprecstr then Ok NO_PREC
  else Throw "BLASTed: Preconditioner type not available!".

(** include/async_initialization_decl.hpp:37-48 *)
Definition getFactInitFromString (itype : string) : res FactInit :=
  if String.eqb itype "init_zero" then Ok INIT_F_ZERO
  else if String.eqb itype "init_original" then Ok INIT_F_ORIGINAL
  else if String.eqb itype "init_sgs" then Ok INIT_F_SGS
  else if String.eqb itype "init_none" then Ok INIT_F_NONE
  else Throw "Factor initialization not recongnized!".
(** include/async_initialization_decl.hpp:51-60 *)
Definition getApplyInitFromString (itype : string) : res ApplyInit :=
  if String.eqb itype "init_zero" then Ok INIT_A_ZERO
  else if String.eqb itype "init_jacobi" then Ok INIT_A_JACOBI
  else if String.eqb itype "init_none" then Ok INIT_A_NONE
  else Throw "Apply initialization not recongnized!".

(** include/solverfactory.hpp:46-68 SolverSettings and AsyncSolverSettings. ([relax] is not read by the factory.) *)
Record settings := Settings {
  st_prectype : ptype; st_bs : Z; st_blockstorage : stopt; st_chunk : Z;
  st_scale : bool; st_nbuild : Z; st_napply : Z; st_finit : FactInit; st_ainit : ApplyInit; st_info : bool }.

(** The class template's instance: the scalar specialisation, or blocks of a size and a layout *)
Inductive shape := Scalar | Blocks (bs : nat) (so : storage).
(** the members of the ILU(0) classes: include/solverops_ilu0.hpp:80-94 (blocks), 150-162 (scalar) *)
Record ilu := Ilu {
  i_nbuild : Z; i_napply : Z; i_scale : bool; i_chunk : Z; i_finit : FactInit; i_ainit : ApplyInit;
  i_tfactor : bool; i_tapply : bool; i_info : bool }.
Inductive prec :=
| PJacobi (sh : shape)                                               (* include/solverops_jacobi.hpp *)
| PChaotic (sh : shape) (napply chunk : Z)                           (* include/relaxation_chaotic.hpp *)
| PCscBgs (napply chunk : Z)                                         (* include/solverops_sgs.hpp CSC_BGS_Preconditioner *)
| PSgs (sh : shape) (napply : Z) (ainit : ApplyInit) (chunk : Z)    (* include/solverops_sgs.hpp *)
| PLevelSgs (sh : shape)                                             (* include/solverops_levels_sgs.hpp *)
| PIlu (sh : shape) (i : ilu)                                        (* include/solverops_ilu0.hpp *)
| PLevelIlu (sh : shape) (i : ilu)                                   (* include/solverops_levels_ilu0.hpp *)
| PReorderedIlu (i : ilu)                                            (* include/solverops_ilu0.hpp ReorderedAsyncILU0 *)
| PNone (bs : nat).                                                  (* include/solverops_base.hpp NoPreconditioner *)

(** src/solverops_ilu0.cpp:19-30 AsyncBlockILU0_SRPreconditioner: parameters in the order of the source *)
Definition AsyncBlockILU0 (nbuildswp napplyswp : Z) (uscl : bool) (tcs : Z) (finit : FactInit) (ainit : ApplyInit) (tf ta comp_rem : bool) : ilu :=
  Ilu nbuildswp napplyswp uscl tcs finit ainit tf ta comp_rem.
(** src/solverops_ilu0.cpp:218-229 AsyncILU0_SRPreconditioner; the diagnostics flag comes before the threading flags *)
Definition AsyncILU0 (nbuildswp napplyswp : Z) (uscal : bool) (tcs : Z) (fi : FactInit) (ai : ApplyInit)
    (compute_preconditioner_info tf ta : bool) : ilu :=
  Ilu nbuildswp napplyswp uscal tcs fi ai tf ta compute_preconditioner_info.
(** include/solverops_ilu0.hpp:121-126: the default value of the last parameter, used by calls with one argument less *)
Definition AsyncILU0_default nb na uscal tcs fi ai compute_preconditioner_info tf : ilu :=
  AsyncILU0 nb na uscal tcs fi ai compute_preconditioner_info tf true.
(** src/solverops_levels_ilu0.cpp:31-41 *)
Definition Async_Level_BlockILU0 (nbuildsweeps : Z) (use_scaling : bool) (thread_chunk_size : Z) (fact_inittype : FactInit)
    (threadedfactor compute_remainder : bool) : ilu :=
  AsyncBlockILU0 nbuildsweeps 1 use_scaling thread_chunk_size fact_inittype INIT_A_NONE threadedfactor true compute_remainder.
(** src/solverops_levels_ilu0.cpp:123-131: nine arguments, the last parameter of AsyncILU0 has its default *)
Definition Async_Level_ILU0 (nbuildsweeps : Z) (use_scaling : bool) (thread_chunk_size : Z) (fact_inittype : FactInit)
    (threadedfactor compute_remainder : bool) : ilu :=
  AsyncILU0_default nbuildsweeps 1 use_scaling thread_chunk_size fact_inittype INIT_A_NONE threadedfactor true.
(** src/solverops_ilu0.cpp:398-408 ReorderedAsyncILU0_SRPreconditioner (the reordering itself is left out) *)
Definition ReorderedAsyncILU0 (nbuildsweeps napplysweeps tcs : Z) (finit : FactInit) (ainit : ApplyInit)
    (threadedfactor threadedapply : bool) : ilu :=
  AsyncILU0_default nbuildsweeps napplysweeps true tcs finit ainit threadedfactor threadedapply.

(** src/solverfactory.cpp:70-123 create_srpreconditioner_of_type *)
Definition create_srpreconditioner_of_type (bs : nat) (so : storage) (opts : settings) : res (option prec) :=
  let sh := Blocks bs so in
  let block_ilu tf ta := Ok (Some (PIlu sh (AsyncBlockILU0 (st_nbuild opts) (st_napply opts) (st_scale opts) (st_chunk opts)
                                              (st_finit opts) (st_ainit opts) tf ta (st_info opts)))) in
  match st_prectype opts with
  | JACOBI => Ok (Some (PJacobi sh))
  | GS => Ok (Some (PChaotic sh (st_napply opts) (st_chunk opts)))
  | SGS => Ok (Some (PSgs sh (st_napply opts) (st_ainit opts) (st_chunk opts)))
  | ILU0 => block_ilu true true
  | SEQILU0 => block_ilu false false
  | SFILU0 => block_ilu false true
  | SAPILU0 => block_ilu true false
  | LEVEL_SGS => Ok (Some (PLevelSgs sh))
  | ASYNC_LEVEL_ILU0 => Ok (Some (PLevelIlu sh (Async_Level_BlockILU0 (st_nbuild opts) (st_scale opts) (st_chunk opts) (st_finit opts) true (st_info opts))))
  | NO_PREC => Ok (Some (PNone bs))
  | _ => Throw "Invalid preconditioner!"
  end.
(** src/solverfactory.cpp:129-230 create_preconditioner; the null pointer, with which [p] starts, is [None]. The text of the exceptions
    is shortened. [BUILD_BLOCK_SIZE] is not defined. *)
Definition create_preconditioner (opts : settings) : res (option prec) :=
  let scalar_ilu tf ta := Ok (Some (PIlu Scalar (AsyncILU0 (st_nbuild opts) (st_napply opts) (st_scale opts) (st_chunk opts)
                                                   (st_finit opts) (st_ainit opts) (st_info opts) tf ta))) in
  if Z.eqb (st_bs opts) 1 then
    match st_prectype opts with
    | JACOBI => Ok (Some (PJacobi Scalar))
    | GS => Ok (Some (PChaotic Scalar (st_napply opts) (st_chunk opts)))
    | CSC_BGS => Ok (Some (PCscBgs (st_napply opts) (st_chunk opts)))
    | SGS => Ok (Some (PSgs Scalar (st_napply opts) (st_ainit opts) (st_chunk opts)))
    | LEVEL_SGS => Ok (Some (PLevelSgs Scalar))
    | ILU0 => scalar_ilu true true
    | SEQILU0 => scalar_ilu false false
    | SFILU0 => scalar_ilu false true
    | SAPILU0 => scalar_ilu true false
    | ASYNC_LEVEL_ILU0 => Ok (Some (PLevelIlu Scalar (Async_Level_ILU0 (st_nbuild opts) (st_scale opts) (st_chunk opts) (st_finit opts) true (st_info opts))))
    | NO_PREC => Ok (Some (PNone 1))
    | EXTERNAL => Throw "Invalid preconditioner!"
    end
  else match st_blockstorage opts with
  | Layout RowMajor =>
      if Z.eqb (st_bs opts) 4 then create_srpreconditioner_of_type 4 RowMajor opts
      else Throw "Block size not supported for row major!"
  | Layout ColMajor =>
      if Z.eqb (st_bs opts) 4 then create_srpreconditioner_of_type 4 ColMajor opts
      else if Z.eqb (st_bs opts) 5 then create_srpreconditioner_of_type 5 ColMajor opts
      else Throw "Block size not supported for column major!"
  | OtherOption => Throw "Block ordering must be either rowmajor or colmajor!"
  end.
