(** * ReduceFactor: the sums of the incomplete factorisation as a compiler may evaluate them

    [#pragma omp simd reduction(-:sum)] (src/kernels/kernels_ilu0_factorize.hpp:41) lets a
    compiler keep several partial results: each starts from 0, products are subtracted
    from it, and at the end the partial results are added to the value on entry. The loop
    of src/async_ilu_factor.cpp:202-203 has no such clause; both may be contracted to
    fused operations. IluFactor.v subtracts the terms one after the other; here the order
    and the use of fused operations are arbitrary.
    Simplifications: the loop reads the factors for k upwards, whatever the order of the
    subtractions; the products with the scaling factors (30-33) are not fused. *)
From Verif Require Import Base Alg SRMatrix Async AsyncSystem AsyncFlat Nd Reduction Kernels IluPattern IluApply Sgs IluFactor Reduce.

(** [SNeg f k]: a partial result after its first subtraction, of the product of iteration
    [k]; [SSub f a k]: the next one; [f]: by one fused operation; [SAdd a b]: two partial
    results are added. *)
Inductive sorder :=
| SInit
| SNeg (fused : bool) (k : nat)
| SSub (fused : bool) (a : sorder) (k : nat)
| SAdd (a b : sorder).
(** what occurs in it: [None] for the value on entry *)
Fixpoint suses (o : sorder) : list (option nat) :=
  match o with
  | SInit => [None]
  | SNeg _ k => [Some k]
  | SSub _ a k => Some k :: suses a
  | SAdd a b => suses a ++ suses b
  end.
(** every iteration once, and the value on entry *)
Definition scovers (o : sorder) (lo hi : nat) : Prop := suses o ≡ₚ None :: (Some <$> range lo hi).
(** [ord lo hi]: what has been compiled for the loop from [lo] to [hi] *)
Definition valid_sorder (ord : nat -> nat -> sorder) : Prop := forall lo hi, scovers (ord lo hi) lo hi.

Section Factor.
  Context {F : Type} {O : SOps F}.
  Notation P := (@P F).
  Implicit Type M : srmat F.
  Variable sfnma : F -> F -> F -> F.

  (** [msub] (Reduce.v): rhs - a*b, in one operation or two *)
  Fixpoint seval (v x : nat -> F) (init : F) (o : sorder) : F :=
    match o with
    | SInit => init
    | SNeg f k => msub sfnma f s0 (v k) (x k)
    | SSub f a k => msub sfnma f (seval v x init a) (v k) (x k)
    | SAdd a b => (seval v x init a + seval v x init b)%s
    end.
  (** src/kernels/kernels_ilu0_factorize.hpp:29-45, src/async_ilu_factor.cpp:197-203; in
      order: [entry_sum] (IluFactor.v) *)
  Definition entry_rsum (ord : nat -> nat -> sorder) M (pl : ilupos) (scale : option (list F)) (irow j : nat) : P F :=
    let? sum := plift (scaled_entry M scale irow j) in
    let? lo := plift (get (posptr pl) j) in
    let? hi := plift (get (posptr pl) (j + 1)) in
    let? vx := pfor lo hi (fun k (vx : nat -> F * F) =>
      let? l := plift (get (lowerp pl) k) in
      let? u := plift (get (upperp pl) k) in
      let? a := pread l in
      let? b := pread u in
      Ret (fun k' => if decide (k' = k) then (a, b) else vx k')) (fun _ => (s0, s0)) in
    Ret (seval (fun k => (vx k).1) (fun k => (vx k).2) sum (ord lo hi)).
End Factor.

(** The factorisation with given ways [es] and [es'] of summing, in the sweeps and in the
    residual; with [entry_sum] for both it is that of IluFactor.v. *)
Section With.
  Context {F : Type} {O : SOps F}.
  Notation P := (@P F).
  Implicit Type M : srmat F.
  Variables (ssqrt sabs : F -> F).
  Variables es es' : srmat F -> ilupos -> option (list F) -> nat -> nat -> P F.
  (** [ms rhs a b] is rhs - a*b *)
  Variable ms : F -> F -> F -> F.

  (** src/kernels/kernels_ilu0_factorize.hpp:27-52 *)
  Definition factor_with M pl scale (irow j : nat) : P (list F) :=
    let? sum := es M pl scale irow j in
    let? c := plift (get (bcolind M) j) in
    if c <? irow then
      let? d := plift (get (diagind M) c) in
      let? dv := pread d in
      Ret [sum / dv]%s
    else Ret [sum].
  (** src/async_ilu_factor.cpp:153-177 *)
  Definition execute_with M pl scale (nbuildsweeps chunk : nat) (usethreads : bool) (nthr : nat)
      (ilu : list F) : nd (list F) :=
    omp_region usethreads (row_task 1 M (factor_with M pl scale)) nthr
      (nowait_sweeps nbuildsweeps chunk (seq 0 (nbrows M))) ilu.
  (** src/async_ilu_factor.cpp:179-217 *)
  Definition res_entry_with M pl scale (irow j : nat) : P F :=
    let? sum := es' M pl scale irow j in
    let? c := plift (get (bcolind M) j) in
    let? x := pread j in
    if c <? irow then
      let? d := plift (get (diagind M) c) in
      let? dv := pread d in
      Ret (ms sum x dv)
    else Ret (sum - x)%s.
  Definition nonlinear_res_with M pl scale (ilu : list F) : nd F :=
    reduce_for s0 sadd 0 (nbrows M) (fun irow acc =>
      let! rs := get (browptr M) irow in
      let! re := get (browptr M) (irow + 1) in
      for_ rs re (fun j acc =>
        let! (r, _) := exec ilu (res_entry_with M pl scale irow j) in
        Ok (acc + sabs r)%s) acc) s0.
  (** src/async_ilu_factor.cpp:36-98 *)
  Definition factorize_with M (pl : ilupos) (nbuildsweeps chunk : nat) (usethreads : bool) (nthr : nat)
      (finit : FactInit) (compute_info : bool) (ilu : list F) (scale : option (list F))
    : nd (list F * option (list F) * option (F * F)) :=
    ndo scale := match scale with
                 | Some s => ndo s := getScalingVector ssqrt 1 M s in nret (Some s)
                 | None => nret None
                 end in
    ndo ilu := fact_init M finit scale ilu in
    ndo r0 := if compute_info then nonlinear_res_with M pl scale ilu else nret s0 in
    ndo ilu := execute_with M pl scale nbuildsweeps chunk usethreads nthr ilu in
    ndo r1 := if compute_info then nonlinear_res_with M pl scale ilu else nret s0 in
    nret (ilu, scale, if compute_info then Some (r0, r1) else None).
  (** src/solverops_ilu0.cpp:323-355,357-368 *)
  Definition compute_with (nbuildsweeps chunk : nat) (usethreads : bool) (nthr : nat)
      (finit : FactInit) (usescaling compute_info : bool) (gi gs : list F) M (st : ilu_state)
    : nd (ilu_state * option (F * F)) :=
    ndo (ilu, scale, pl) := match st_ilu st with
      | Some ilu => nret (ilu, st_scale st, st_plist st)
      | None =>
          ndo len := nlift (get (browptr M) (nbrows M)) in
          ndo ilu := vcopy len (vals M) gi in
          ndo pl := nlift (compute_ILU_positions M) in
          nret (ilu, if usescaling then Some gs else None, pl)
      end in
    ndo (ilu, scale, info) :=
      factorize_with M pl nbuildsweeps chunk usethreads nthr finit compute_info ilu scale in
    nret (IluState (Some ilu) scale pl, info).
End With.
