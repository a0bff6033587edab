(** * IluFactor: computing an incomplete LU factorisation
      (src/kernels/kernels_ilu0_factorize.hpp, src/async_ilu_factor.cpp,
      src/async_blockilu_factor.cpp, setup and compute in src/solverops_ilu0.cpp) *)
From Verif Require Import Base Alg SRMatrix Async AsyncSystem AsyncFlat Nd Reduction Kernels IluPattern IluApply Sgs.

(** include/async_initialization_decl.hpp:15-25 *)
Inductive FactInit := INIT_F_ZERO | INIT_F_ORIGINAL | INIT_F_SGS | INIT_F_NONE.

Section Factor.
  Context {F : Type} {O : SOps F}.
  Notation P := (@P F).
  Implicit Type M : srmat F.

  (** [ssqrt] is std::sqrt, [sabs] std::abs *)
  Variables (ssqrt sabs : F -> F).

  (** One row of a factorisation: a loop over its entries, each computed by [EC irow j]
      ([w] scalars) and then stored. The two kernels below are of this form. *)
  Definition row_task (w : nat) M (EC : nat -> nat -> P (list F)) (irow : nat) : P unit :=
    let? rs := plift (get (browptr M) irow) in
    let? re := plift (get (browptr M) (irow + 1)) in
    pseq (fun j => pbind (EC irow j) (pwseg (j * w))) (range rs re).

  (** ** Scalar *)
  (** src/kernels/kernels_ilu0_factorize.hpp:29-33: the (scaled) matrix entry. Row and
      column scaling are the same vector at all call sites. *)
  Definition scaled_entry M (scale : option (list F)) (irow j : nat) : res F :=
    let! v := get (vals M) j in
    match scale with
    | None => Ok v
    | Some s =>
        let! a := get s irow in
        let! c := get (bcolind M) j in
        let! b := get s c in
        Ok (v * a * b)%s
    end.
  (** lines 29-46, and src/async_ilu_factor.cpp:197-205: matrix entry minus products of
      factor entries. Simplification: terms are subtracted in order; any other order:
      ReduceFactor.v. *)
  Definition entry_sum M (pl : ilupos) (scale : option (list F)) (irow j : nat) : P F :=
    let? sum := plift (scaled_entry M scale irow j) in
    let? lo := plift (get (posptr pl) j) in
    let? hi := plift (get (posptr pl) (j + 1)) in
    pfor lo hi (fun k sum =>
      let? l := plift (get (lowerp pl) k) in
      let? u := plift (get (upperp pl) k) in
      let? a := pread l in
      let? b := pread u in
      Ret (sum - a * b)%s) sum.
  (** src/kernels/kernels_ilu0_factorize.hpp:19-53 async_ilu0_factorize_kernel, the
      body of its loop *)
  Definition factor_entry M pl scale (irow j : nat) : P (list F) :=
    let? sum := entry_sum M pl scale irow j in
    let? c := plift (get (bcolind M) j) in
    if c <? irow then
      let? d := plift (get (diagind M) c) in
      let? dv := pread d in
      Ret [sum / dv]%s
    else Ret [sum].
  (** src/async_ilu_factor.cpp:153-177 executeILU0Factorization *)
  Definition execute_ilu0 M pl scale (nbuildsweeps chunk : nat) (usethreads : bool) (nthr : nat)
      (ilu : list F) : nd (list F) :=
    omp_region usethreads (row_task 1 M (factor_entry M pl scale)) nthr
      (nowait_sweeps nbuildsweeps chunk (seq 0 (nbrows M))) ilu.
  (** src/async_ilu_factor.cpp:179-217 scalar_ilu0_nonlinear_res *)
  Definition res_entry M pl scale (irow j : nat) : P F :=
    let? sum := entry_sum M pl scale irow j in
    let? c := plift (get (bcolind M) j) in
    let? x := pread j in
    if c <? irow then
      let? d := plift (get (diagind M) c) in
      let? dv := pread d in
      Ret (sum - x * dv)%s
    else Ret (sum - x)%s.
  Definition nonlinear_res M pl scale (ilu : list F) : nd F :=
    reduce_for s0 sadd 0 (nbrows M) (fun irow acc =>
      let! rs := get (browptr M) irow in
      let! re := get (browptr M) (irow + 1) in
      for_ rs re (fun j acc =>
        let! (r, _) := exec ilu (res_entry M pl scale irow j) in
        Ok (acc + sabs r)%s) acc) s0.
  (** src/rawsrmatrixutils.cpp:343-350 getScalingVector *)
  Definition getScalingVector bs M (scale : list F) : nd (list F) :=
    par_for 0 (nbrows M) (fun i scale =>
      let! di := get (diagind M) i in
      for_ 0 bs (fun j scale =>
        let! v := get (vals M) (di * bs * bs + j * bs + j) in
        set scale (i * bs + j) (s1 / ssqrt v)%s) scale) scale.
  (** src/async_ilu_factor.cpp:135-151 fact_init_original *)
  Definition fact_init_original M (scale : option (list F)) (ilu : list F) : nd (list F) :=
    match scale with
    | Some s => par_for 0 (nbrows M) (fun i ilu =>
        let! rs := get (browptr M) i in
        let! re := get (browptr M) (i + 1) in
        for_ rs re (fun j ilu =>
          let! a := get s i in let! v := get (vals M) j in
          let! c := get (bcolind M) j in let! b := get s c in
          set ilu j (a * v * b)%s) ilu) ilu
    | None =>
        ndo len := nlift (get (browptr M) (nbrows M)) in vcopy len (vals M) ilu
    end.
  (** src/async_ilu_factor.cpp:109-133 fact_init_sgs; note the index of [s] in the
      scaled case *)
  Definition fact_init_sgs M (scale : option (list F)) (ilu : list F) : nd (list F) :=
    par_for 0 (nbrows M) (fun i ilu =>
      let! rs := get (browptr M) i in
      let! re := get (browptr M) (i + 1) in
      let! di := get (diagind M) i in
      let! ilu := for_ rs re (fun j ilu =>
        let! v := get (vals M) j in
        match scale with
        | Some s => let! a := get s i in let! c := get (bcolind M) j in let! b := get s c in
                    set ilu j (a * v * b)%s
        | None => set ilu j v
        end) ilu in
      for_ rs di (fun j ilu =>
        let! c := get (bcolind M) j in
        let! dc := get (diagind M) c in
        let! dv := get (vals M) dc in
        let! x := get ilu j in
        match scale with
        | Some s => let! b := get s dc in set ilu j (x * (s1 / (dv * b * b)))%s
        | None => set ilu j (x * (s1 / dv))%s
        end) ilu) ilu.
  (** the initialisation switch of src/async_ilu_factor.cpp:47-59: the zero case falls
      through to the next one *)
  Definition fact_init M (finit : FactInit) (scale : option (list F)) (ilu : list F) : nd (list F) :=
    match finit with
    | INIT_F_ZERO =>
        ndo len := nlift (get (browptr M) (nbrows M)) in
        ndo ilu := fill len s0 ilu in
        fact_init_original M scale ilu
    | INIT_F_ORIGINAL => fact_init_original M scale ilu
    | INIT_F_SGS => fact_init_sgs M scale ilu
    | INIT_F_NONE => nret ilu
    end.
  (** src/async_ilu_factor.cpp:36-98 scalar_ilu0_factorize: factors, scaling vector
      and, if asked for, the initial and final residual. The four diagonal dominance
      figures of PrecInfo are in MatProps.v. *)
  Definition scalar_ilu0_factorize M (pl : ilupos) (nbuildsweeps chunk : nat) (usethreads : bool) (nthr : nat)
      (finit : FactInit) (compute_info : bool) (ilu : list F) (scale : option (list F))
    : nd (list F * option (list F) * option (F * F)) :=
    ndo scale := match scale with
                 | Some s => ndo s := getScalingVector 1 M s in nret (Some s)
                 | None => nret None
                 end in
    ndo ilu := fact_init M finit scale ilu in
    ndo r0 := if compute_info then nonlinear_res M pl scale ilu else nret s0 in
    ndo ilu := execute_ilu0 M pl scale nbuildsweeps chunk usethreads nthr ilu in
    ndo r1 := if compute_info then nonlinear_res M pl scale ilu else nret s0 in
    nret (ilu, scale, if compute_info then Some (r0, r1) else None).

  (** ** Block *)
  Section Block.
    Variables (inv : list F -> list F) (so : storage) (bs : nat).
    Notation bb := (bs * bs).
    (** row and column of scalar [e] of a block *)
    Definition unlay (e : nat) : nat * nat :=
      match so with RowMajor => (e / bs, e mod bs) | ColMajor => (e mod bs, e / bs) end.

    (** src/kernels/kernels_ilu0_factorize.hpp:61-69 scaleBlock; [val] in storage order *)
    Definition scaleBlock (scale : list F) (brow bcol : nat) (val : list F) : res (list F) :=
      mapr (fun e =>
        let! v := get val e in
        let! a := get scale (brow * bs + fst (unlay e)) in
        let! b := get scale (bcol * bs + snd (unlay e)) in
        Ok (v * (a * b))%s) (seq 0 bb).
    (** block [j] of the matrix, scaled: lines 82-84 *)
    Definition scaled_block M (scale : option (list F)) (irow j : nat) : res (list F) :=
      let! c := get (bcolind M) j in
      let! b := getblk (vals M) (j * bb) bb in
      match scale with None => Ok b | Some s => scaleBlock s irow c b end.
    (** block product of local blocks *)
    Definition bmatmul (a b : list F) : res (list F) :=
      mapr (fun e => for_ 0 bs (fun t acc =>
          let! x := get a (lay so bs (fst (unlay e)) t) in
          let! y := get b (lay so bs t (snd (unlay e))) in
          Ok (acc + x * y)%s) s0) (seq 0 bb).
    (** the product of factor blocks [l] and [u], entry by entry (Eigen evaluates small
        products lazily); terms are added in order to 0 *)
    Definition pbmatmul (l u : nat) : P (list F) :=
      pmap (fun e => pfor 0 bs (fun t acc =>
          let? x := pread (l * bb + lay so bs (fst (unlay e)) t) in
          let? y := pread (u * bb + lay so bs t (snd (unlay e))) in
          Ret (acc + x * y)%s) s0) (seq 0 bb).
    (** block [j] of the factor storage *)
    Definition preadblk (j : nat) : P (list F) := pmap (fun e => pread (j * bb + e)) (seq 0 bb).
    (** lines 80-87 and src/async_blockilu_factor.cpp:276-281 *)
    Definition block_sum M (pl : ilupos) (scale : option (list F)) (irow j : nat) : P (list F) :=
      let? sum := plift (scaled_block M scale irow j) in
      let? lo := plift (get (posptr pl) j) in
      let? hi := plift (get (posptr pl) (j + 1)) in
      pfor lo hi (fun k sum =>
        let? l := plift (get (lowerp pl) k) in
        let? u := plift (get (upperp pl) k) in
        let? prod := pbmatmul l u in
        Ret (vsub sum prod)) sum.
    (** src/kernels/kernels_ilu0_factorize.hpp:71-98 async_block_ilu0_factorize, the body
        of its loop *)
    Definition bfactor_entry M pl scale (irow j : nat) : P (list F) :=
      let? sum := block_sum M pl scale irow j in
      let? c := plift (get (bcolind M) j) in
      if c <? irow then
        let? d := plift (get (diagind M) c) in
        let? dv := preadblk d in
        plift (bmatmul sum (inv dv))
      else Ret sum.
    (** src/async_blockilu_factor.cpp:186-204 async_bilu0_sweeps *)
    Definition bilu0_sweeps M pl scale (nbuildsweeps chunk : nat) (usethreads : bool) (nthr : nat)
        (ilu : list F) : nd (list F) :=
      omp_region usethreads (row_task bb M (bfactor_entry M pl scale)) nthr
        (nowait_sweeps nbuildsweeps chunk (seq 0 (nbrows M))) ilu.
    (** src/async_blockilu_factor.cpp:256-297 block_ilu0_nonlinear_res *)
    Definition bres_entry M pl scale (irow j : nat) : P (list F) :=
      let? sum := block_sum M pl scale irow j in
      let? c := plift (get (bcolind M) j) in
      if c <? irow then
        let? d := plift (get (diagind M) c) in
        let? prod := pbmatmul j d in
        Ret (vsub sum prod)
      else
        let? x := preadblk j in
        Ret (vsub sum x).
    Definition block_norm (r : list F) : res F :=
      for_ 0 bs (fun i acc => for_ 0 bs (fun j acc =>
        let! x := get r (lay so bs i j) in Ok (acc + sabs x)%s) acc) s0.
    Definition bnonlinear_res M pl scale (ilu : list F) : nd F :=
      reduce_for s0 sadd 0 (nbrows M) (fun irow acc =>
        let! rs := get (browptr M) irow in
        let! re := get (browptr M) (irow + 1) in
        for_ rs re (fun j acc =>
          let! (r, _) := exec ilu (bres_entry M pl scale irow j) in
          let! x := block_norm r in
          Ok (acc + x)%s) acc) s0.
    (** src/async_blockilu_factor.cpp:206-254 fact_init_sgs; [dblks] is the uninitialised
        allocation *)
    Definition bfact_init_sgs M (scale : option (list F)) (dblks ilu : list F) : nd (list F) :=
      ndo (dblks, ilu) := par_for 0 (nbrows M) (fun i '(dblks, ilu) =>
          let! di := get (diagind M) i in
          let! b := getblk (vals M) (di * bb) bb in
          let! b := match scale with None => Ok b | Some s => scaleBlock s i i b end in
          let! dblks := setblk dblks (i * bb) (inv b) in
          let! rs := get (browptr M) i in
          let! re := get (browptr M) (i + 1) in
          let! ilu := for_ rs re (fun j ilu =>
            let! b := scaled_block M scale i j in setblk ilu (j * bb) b) ilu in
          Ok (dblks, ilu)) (dblks, ilu) in
      par_for 0 (nbrows M) (fun i ilu =>
        let! rs := get (browptr M) i in
        let! di := get (diagind M) i in
        for_ rs di (fun j ilu =>
          let! c := get (bcolind M) j in
          let! x := getblk ilu (j * bb) bb in
          let! d := getblk dblks (c * bb) bb in
          let! y := bmatmul x d in
          setblk ilu (j * bb) y) ilu) ilu.
    (** src/async_blockilu_factor.cpp:64-95, the initialisation switch (here the zero case
        has a break; the scaled original case uses browendptr) *)
    Definition bfact_init M (finit : FactInit) (scale : option (list F)) (dblks ilu : list F) : nd (list F) :=
      match finit with
      | INIT_F_ZERO =>
          ndo len := nlift (get (browptr M) (nbrows M)) in fill (len * bb) s0 ilu
      | INIT_F_ORIGINAL =>
          match scale with
          | Some s => par_for 0 (nbrows M) (fun i ilu =>
              let! rs := get (browptr M) i in
              let! re := get (browendptr M) i in
              for_ rs re (fun j ilu =>
                let! b := scaled_block M (Some s) i j in setblk ilu (j * bb) b) ilu) ilu
          | None => ndo len := nlift (get (browptr M) (nbrows M)) in vcopy (len * bb) (vals M) ilu
          end
      | INIT_F_SGS => bfact_init_sgs M scale dblks ilu
      | INIT_F_NONE => nret ilu
      end.
    (** src/async_blockilu_factor.cpp:143-146 *)
    Definition invert_diag M (ilu : list F) : nd (list F) :=
      par_for 0 (nbrows M) (fun i ilu =>
        let! di := get (diagind M) i in
        let! b := getblk ilu (di * bb) bb in
        setblk ilu (di * bb) (inv b)) ilu.
    (** src/async_blockilu_factor.cpp:46-149 block_ilu0_factorize *)
    Definition block_ilu0_factorize M (pl : ilupos) (nbuildsweeps chunk : nat) (usethreads : bool) (nthr : nat)
        (finit : FactInit) (compute_info : bool) (dblks ilu : list F) (scale : option (list F))
      : nd (list F * option (list F) * option (F * F)) :=
      ndo scale := match scale with
                   | Some s => ndo s := getScalingVector bs M s in nret (Some s)
                   | None => nret None
                   end in
      ndo ilu := bfact_init M finit scale dblks ilu in
      ndo r0 := if compute_info then bnonlinear_res M pl scale ilu else nret s0 in
      ndo ilu := bilu0_sweeps M pl scale nbuildsweeps chunk usethreads nthr ilu in
      ndo r1 := if compute_info then bnonlinear_res M pl scale ilu else nret s0 in
      ndo ilu := invert_diag M ilu in
      nret (ilu, scale, if compute_info then Some (r0, r1) else None).
  End Block.

  (** ** The preconditioner objects *)
  (** data members of AsyncILU0_SRPreconditioner / AsyncBlockILU0_SRPreconditioner
      (include/solverops_ilu0.hpp) that compute touches; [st_ilu = None]: nullptr.
      The work vector ytemp is zeroed at setup and never read by compute. *)
  Record ilu_state := IluState { st_ilu : option (list F); st_scale : option (list F); st_plist : ilupos }.
  (** the objects after construction: src/solverops_ilu0.cpp:20-30,212-223 *)
  Definition ilu_new : ilu_state := IluState None None (IluPos [] [] []).
  (** src/solverops_ilu0.cpp:323-355,357-368 (setup_storage, compute; scalar). [gi], [gs]:
      the contents of freshly allocated memory. *)
  Definition scalar_ilu0_compute (nbuildsweeps chunk : nat) (usethreads : bool) (nthr : nat)
      (finit : FactInit) (usescaling compute_info : bool) (gi gs : list F) M (st : ilu_state)
    : nd (ilu_state * option (F * F)) :=
    ndo (ilu, scale, pl) := match st_ilu st with
      | Some ilu => nret (ilu, st_scale st, st_plist st)
      | None =>
          ndo len := nlift (get (browptr M) (nbrows M)) in
          ndo ilu := vcopy len (vals M) gi in
          ndo pl := nlift (compute_ILU_positions M) in
          nret (ilu, if usescaling then Some gs else None, pl)
      end in
    ndo (ilu, scale, info) :=
      scalar_ilu0_factorize M pl nbuildsweeps chunk usethreads nthr finit compute_info ilu scale in
    nret (IluState (Some ilu) scale pl, info).
  (** src/solverops_ilu0.cpp:150-183,189-201 (block) *)
  Definition block_ilu0_compute inv so bs (nbuildsweeps chunk : nat) (usethreads : bool) (nthr : nat)
      (finit : FactInit) (usescaling compute_info : bool) (gi gs dblks : list F) M (st : ilu_state)
    : nd (ilu_state * option (F * F)) :=
    ndo (ilu, scale, pl) := match st_ilu st with
      | Some ilu => nret (ilu, st_scale st, st_plist st)
      | None =>
          ndo len := nlift (get (browptr M) (nbrows M)) in
          ndo ilu := vcopy (len * (bs * bs)) (vals M) gi in
          ndo pl := nlift (compute_ILU_positions M) in
          nret (ilu, if usescaling then Some gs else None, pl)
      end in
    ndo (ilu, scale, info) :=
      block_ilu0_factorize inv so bs M pl nbuildsweeps chunk usethreads nthr finit compute_info dblks ilu scale in
    nret (IluState (Some ilu) scale pl, info).
End Factor.
