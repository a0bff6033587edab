(** * IluNoscale: the factorisation without scaling as a separate function, and the unfinished approximate-inverse preconditioner *)
From Verif Require Import Base Alg SRMatrix Async AsyncSystem Nd Kernels IluPattern IluApply Sgs IluFactor.

Section Noscale.
  Context {F : Type} {O : SOps F}.
  Implicit Type M : srmat F.
  (** src/async_ilu_factor.cpp:236-268 scalar_ilu0_factorize_noscale: its own initialisation loops (the zero case falls
      through, 249-261) and the sweeps without scaling (264-266) *)
  Definition scalar_ilu0_factorize_noscale M (pl : ilupos) (nbuildsweeps chunk : nat) (usethreads : bool) (nthr : nat)
      (finit : FactInit) (ilu : list F) : nd (list F) :=
    ndo ilu := match finit with
      | INIT_F_ZERO =>
          ndo len := nlift (get (browptr M) (nbrows M)) in
          ndo ilu := fill len s0 ilu in
          ndo len := nlift (get (browptr M) (nbrows M)) in
          par_for 0 len (fun i ilu => let! v := get (vals M) i in set ilu i v) ilu
      | INIT_F_ORIGINAL =>
          ndo len := nlift (get (browptr M) (nbrows M)) in
          par_for 0 len (fun i ilu => let! v := get (vals M) i in set ilu i v) ilu
      | INIT_F_SGS => fact_init_sgs M None ilu
      | INIT_F_NONE => nret ilu
      end in
    execute_ilu0 M pl None nbuildsweeps chunk usethreads nthr ilu.

  (** src/solverops_sai.cpp:23-41 LeftSAIPreconditioner: compute returns a default record and stores nothing, apply has an
      empty body, apply_relax throws *)
  Definition left_sai_compute : nd unit := nret ().
  Definition left_sai_apply (x y : list F) : nd (list F) := nret y.
  Definition left_sai_apply_relax (x y : list F) : nd (list F) := nlift (Throw "SAI does not provide relaxation!").
End Noscale.
