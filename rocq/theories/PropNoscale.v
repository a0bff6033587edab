(** * PropNoscale (C108): the separate factorisation without scaling is the general one; the approximate-inverse class does nothing *)
From Verif Require Import Base Alg SRMatrix Async AsyncSystem Nd Kernels IluPattern IluApply Sgs IluFactor IluFactorMain IluApplyMain PropIluFactor IluNoscale Inst.
From Coq Require Import ZArith QArith.Qcanon.
Open Scope nat_scope.

Section C108.
  Context {F : Type} {O : SOps F}.
  (** what an outcome of the general function becomes when only the factors are returned *)
  Definition factors_only (o : res (list F * option (list F) * option (F * F))) : res (list F) :=
    match o with Ok (lu, _, _) => Ok lu | UB => UB | Throw e => Throw e | Fuel => Fuel end.

  (** The two functions have the same outcomes for every matrix, history of threads and option: every possible result of one
      is a possible result of the other, undefined behaviour included. *)
  Theorem C108_noscale (ssqrt sabs : F -> F) (M : srmat F) pl nsweeps chunk usethreads nthr finit ilu o :
    scalar_ilu0_factorize_noscale M pl nsweeps chunk usethreads nthr finit ilu o <->
    exists o', scalar_ilu0_factorize ssqrt sabs M pl nsweeps chunk usethreads nthr finit false ilu None o' /\ factors_only o' = o.
  Proof.
    assert (forall i o1, (match finit with
      | INIT_F_ZERO => ndo len := nlift (get (browptr M) (nbrows M)) in ndo ilu := fill len s0 i in
          ndo len := nlift (get (browptr M) (nbrows M)) in par_for 0 len (fun k l => let! v := get (vals M) k in set l k v) ilu
      | INIT_F_ORIGINAL => ndo len := nlift (get (browptr M) (nbrows M)) in par_for 0 len (fun k l => let! v := get (vals M) k in set l k v) i
      | INIT_F_SGS => fact_init_sgs M None i
      | INIT_F_NONE => nret i end : nd (list F)) o1 <-> fact_init M finit None i o1) as E.
    { intros i o1. destruct finit; reflexivity. }
    unfold scalar_ilu0_factorize_noscale, scalar_ilu0_factorize. split.
    - intros (x & Hx & Hk). apply E in Hx. destruct x as [l| |e|].
      + exists (match o with Ok lu => Ok (lu, None, None) | UB => UB | Throw e => Throw e | Fuel => Fuel end). split; [|destruct o; reflexivity].
        exists (Ok None). split; [reflexivity|]. exists (Ok l). split; [exact Hx|]. exists (Ok s0). split; [reflexivity|].
        exists o. split; [exact Hk|]. destruct o; try reflexivity. exists (Ok s0). split; reflexivity.
      + subst o. exists UB. split; [|reflexivity]. exists (Ok None). split; [reflexivity|]. exists UB. split; [exact Hx|reflexivity].
      + subst o. exists (Throw e). split; [|reflexivity]. exists (Ok None). split; [reflexivity|]. exists (Throw e). split; [exact Hx|reflexivity].
      + subst o. exists Fuel. split; [|reflexivity]. exists (Ok None). split; [reflexivity|]. exists Fuel. split; [exact Hx|reflexivity].
    - intros (o' & (x0 & H0 & Hr) & <-). assert (x0 = Ok None) as -> by exact H0. destruct Hr as (x & Hx & Hk).
      exists x. split; [apply E; exact Hx|]. destruct x as [l| |e|]; [|subst; reflexivity..].
      destruct Hk as (x1 & H1 & Hk). assert (x1 = Ok s0) as -> by exact H1. destruct Hk as (x2 & H2 & Hk). destruct x2 as [lu| |e|]; [|subst; exact H2..].
      destruct Hk as (x3 & H3 & Hk). assert (x3 = Ok s0) as -> by exact H3. assert (o' = Ok (lu, None, None)) as -> by exact Hk. exact H2.
  Qed.

  (** Not an approximate inverse: whatever the matrix and the vector, apply leaves the output as it was, so two different
      outputs stay different; and relaxation always throws. *)
  Theorem C108_left_sai_refuted (x y : list F) :
    nok (ndo _ := left_sai_compute in left_sai_apply x y) (fun y' => y' = y) /\
    left_sai_apply_relax x y (Throw "SAI does not provide relaxation!") /\ forall o, left_sai_apply_relax x y o -> o = Throw "SAI does not provide relaxation!".
  Proof.
    split; [|split; [reflexivity|intros o H; exact H]].
    split; [exists (Ok y); exists (Ok ()); split; reflexivity|]. intros o (u & Hu & Ho). assert (u = Ok ()) as -> by exact Hu. assert (o = Ok y) as -> by exact Ho. reflexivity.
  Qed.
End C108.

(** on the 3x3 matrix the same factors are a result of both *)
Example C108_case : exists pl lu, compute_ILU_positions exM = Ok pl /\
  scalar_ilu0_factorize_noscale exM pl 2 1 true 1 INIT_F_NONE (vals exM) (Ok lu) /\
  exists o, scalar_ilu0_factorize (fun x => x) (fun x => x) exM pl 2 1 true 1 INIT_F_NONE false (vals exM) None o /\ factors_only o = Ok lu.
Proof.
  assert (wf_mat exM) as Hwf by (split; [apply exM_pat|split; [apply exM_diag|apply exM_sorted]]).
  eexists. destruct (C29_sequential_sweeps Qc Qc_ops exM _ None Hwf eq_refl eq_refl Logic.I) as (lu & H).
  destruct (H (vals exM) 2 1 true 1 eq_refl ltac:(lia) ltac:(lia) ltac:(auto)) as [[o Ho] Ha]. pose proof (Ha o Ho) as E. destruct o as [x| | |]; [|destruct E..]. simpl in E. subst x.
  assert (forall pl, execute_ilu0 exM pl None 2 1 true 1 (vals exM) (Ok lu) -> scalar_ilu0_factorize_noscale exM pl 2 1 true 1 INIT_F_NONE (vals exM) (Ok lu)) as N.
  { intros pl He. exists (Ok (vals exM)). split; [reflexivity|exact He]. }
  apply N in Ho. exists lu. split; [reflexivity|]. split; [exact Ho|]. apply (C108_noscale (fun x => x) (fun x => x)), Ho.
Qed.

Print Assumptions C108_noscale.
Print Assumptions C108_left_sai_refuted.
