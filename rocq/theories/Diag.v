(** * Diag: the diagnostic record of a factorisation (include/preconditioner_diagnostics.hpp) *)
From Verif Require Import Base Alg SRMatrix Nd Reduction MatProps IluPattern IluApply IluFactor.
From Coq Require Import Strings.String.
Open Scope nat_scope.

(** include/preconditioner_diagnostics.hpp:18,21-31 PrecInfo: the array of six numbers; the positions of the named ones *)
Definition prec_remainder_norm : nat := 0.
Definition prec_rem_initial_norm : nat := 1.
Definition upper_min_diag_dom : nat := 2.
Definition upper_avg_diag_dom : nat := 3.
Definition lower_min_diag_dom : nat := 4.
Definition lower_avg_diag_dom : nat := 5.
(** src/solverfactory.cpp:19-21 PrecInfoList::descr, the headings under which the numbers are listed *)
Definition descr : list string :=
  ["factor_remainder"; "factor_init_rem"; "upperF_min_dgdom"; "upperF_avg_dgdom"; "lowerF_min_dgdom"; "lowerF_avg_dgdom"]%string.

Section Diag.
  Context {F : Type} {O : SOps F} (ssqrt sabs : F -> F) (slt : F -> F -> bool) (snat : nat -> F).
  (** src/async_ilu_factor.cpp:89-92, src/async_blockilu_factor.cpp:131-134: the matrix given to diagonal_dominance *)
  Definition with_factors (M : srmat F) (ilu : list F) : srmat F :=
    SR (browptr M) (bcolind M) ilu (diagind M) (browendptr M) (nbrows M) (nnzb M) (nbstored M).
  (** src/async_ilu_factor.cpp:89-96, src/async_blockilu_factor.cpp:131-138. [big], [top]: see MatProps.v *)
  Definition put_dominance (so : storage) (bs : nat) (big top : F) (M : srmat F) (ilu pinfo : list F) : nd (list F) :=
    ndo (a0, a1, a2, a3) := diagonal_dominance sabs slt snat so bs big top (with_factors M ilu) in
    nlift (
      let! pinfo := set pinfo lower_avg_diag_dom a0 in
      let! pinfo := set pinfo lower_min_diag_dom a1 in
      let! pinfo := set pinfo upper_avg_diag_dom a2 in
      set pinfo upper_min_diag_dom a3).
  (** src/async_ilu_factor.cpp:36-98 scalar_ilu0_factorize with the whole record; [pinfo]: the contents of the uninitialised
      record. IluFactor.scalar_ilu0_factorize has the same without the dominances. *)
  Definition scalar_ilu0_factorize_info (big top : F) M (pl : ilupos) (nbuildsweeps chunk : nat) (usethreads : bool) (nthr : nat)
      (finit : FactInit) (compute_info : bool) (pinfo : list F) (ilu : list F) (scale : option (list F))
    : nd (list F * option (list F) * list F) :=
    ndo scale := match scale with
                 | Some s => ndo s := getScalingVector ssqrt 1 M s in nret (Some s)
                 | None => nret None
                 end in
    ndo ilu := fact_init M finit scale ilu in
    ndo pinfo := if compute_info then
                   ndo r := nonlinear_res sabs M pl scale ilu in nlift (set pinfo prec_rem_initial_norm r)
                 else nret pinfo in
    ndo ilu := execute_ilu0 M pl scale nbuildsweeps chunk usethreads nthr ilu in
    ndo pinfo := if compute_info then
                   ndo r := nonlinear_res sabs M pl scale ilu in
                   ndo pinfo := nlift (set pinfo prec_remainder_norm r) in
                   put_dominance ColMajor 1 big top M ilu pinfo
                 else nret pinfo in
    nret (ilu, scale, pinfo).
  (** src/async_blockilu_factor.cpp:46-148 block_ilu0_factorize with the whole record; the diagonal blocks are inverted
      after the dominances have been taken *)
  Definition block_ilu0_factorize_info (inv : list F -> list F) (so : storage) (bs : nat) (big top : F) M (pl : ilupos)
      (nbuildsweeps chunk : nat) (usethreads : bool) (nthr : nat)
      (finit : FactInit) (compute_info : bool) (pinfo dblks ilu : list F) (scale : option (list F))
    : nd (list F * option (list F) * list F) :=
    ndo scale := match scale with
                 | Some s => ndo s := getScalingVector ssqrt bs M s in nret (Some s)
                 | None => nret None
                 end in
    ndo ilu := bfact_init inv so bs M finit scale dblks ilu in
    ndo pinfo := if compute_info then
                   ndo r := bnonlinear_res sabs so bs M pl scale ilu in nlift (set pinfo prec_rem_initial_norm r)
                 else nret pinfo in
    ndo ilu := bilu0_sweeps inv so bs M pl scale nbuildsweeps chunk usethreads nthr ilu in
    ndo pinfo := if compute_info then
                   ndo r := bnonlinear_res sabs so bs M pl scale ilu in
                   ndo pinfo := nlift (set pinfo prec_remainder_norm r) in
                   put_dominance so bs big top M ilu pinfo
                 else nret pinfo in
    ndo ilu := invert_diag inv bs M ilu in
    nret (ilu, scale, pinfo).
End Diag.
