(** * ReorderedIlu: ReorderedAsyncILU0_SRPreconditioner (src/solverops_ilu0.cpp:398-474) *)
From Verif Require Import Base Alg SRMatrix Async Nd IluPattern IluApply IluFactor Reorder.

Section ReorderedIlu.
  Context {F : Type} {O : SOps F}.
  Variables ssqrt sabs : F -> F.
  Implicit Type M : srmat F.

  (** The copy of the matrix (src/rawsrmatrixutils.cpp:120-159) has row end pointers that
      alias browptr+1 (line 151), so they follow every change of browptr; the rest of the
      copy is an equal matrix. *)
  Definition alias_end M : srmat F :=
    SR (browptr M) (bcolind M) (vals M) (diagind M) (drop 1 (browptr M)) (nbrows M) (nnzb M) (nbstored M).
  (** src/solverops_ilu0.cpp:417-437 compute (with setup_storage, 323-355). The
      constructor (399-409) passes [true] for the base class's use_scaling. [o] is the
      ordering that reord->compute(mat) leaves in reord (a virtual function; any ordering).
      Returns the state and rsmat. *)
  Definition reordered_compute (nbuildsweeps chunk : nat) (usethreads : bool) (nthr : nat)
      (finit : FactInit) (gi gs : list F) (o : ordering) M (st : ilu_state) : nd (ilu_state * srmat F) :=
    ndo (ilu, scale) := match st_ilu st with
      | Some ilu => nret (ilu, st_scale st)
      | None =>
          ndo len := nlift (get (browptr M) (nbrows M)) in
          ndo ilu := vcopy len (vals M) gi in
          nret (ilu, Some gs)
      end in
    ndo R := applyOrdering_mat 1 o FORWARD M in
    ndo R := nret (alias_end R) in
    ndo pl := nlift (compute_ILU_positions R) in
    ndo (ilu, scale, _) :=
      scalar_ilu0_factorize ssqrt sabs R pl nbuildsweeps chunk usethreads nthr finit false ilu scale in
    nret (IluState (Some ilu) scale pl, R).
  (** src/solverops_ilu0.cpp:439-467 apply; [rb]: the temporary's initial contents *)
  Definition reordered_apply (o : ordering) (st : ilu_state) (R : srmat F) (ytemp : list F) (nsweeps chunk : nat)
      (usethreads : bool) (nthr : nat) (init : ApplyInit) (rb ra za : list F) : nd (list F * list F) :=
    ndo ilu := nlift (match st_ilu st with Some ilu => Ok ilu | None => UB end) in
    ndo r := if isRowReordering o
             then ndo rb := vcopy (nbrows R) ra rb in applyOrdering_vec 1 o FORWARD ROW rb
             else nret ra in
    ndo (y, z) := scalar_ilu0_apply R ilu (st_scale st) ytemp nsweeps chunk usethreads nthr init r za in
    ndo z := applyOrdering_vec 1 o FORWARD COLUMN z in
    nret (y, z).
End ReorderedIlu.
