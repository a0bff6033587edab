(** * Sgs: Jacobi, symmetric Gauss-Seidel, relaxations and the identity *)
From Verif Require Import Base Alg SRMatrix Async AsyncSystem Nd Reduction Kernels IluApply.

(** include/solverops_base.hpp:17-25 *)
Record SolveParams (F : Type) := { rtol : F; atol : F; dtol : F; ctol : bool; maxits : nat }.
Arguments rtol {F}. Arguments atol {F}. Arguments dtol {F}. Arguments ctol {F}. Arguments maxits {F}.

Section Sgs.
  Context {F : Type} {O : SOps F}.
  Notation P := (@P F).
  Implicit Type M : srmat F.

  (** ** Inverting the diagonal *)
  (** src/solverops_jacobi.cpp:137-147 scalar_jacobi_setup, called by compute
      (150-162). [d] is the array on entry: fresh or from an earlier call. *)
  Definition jacobi_setup M (d : list F) : nd (list F) :=
    par_for 0 (nbrows M) (fun i d =>
      let! di := get (diagind M) i in
      let! v := get (vals M) di in
      set d i (s1 / v)%s) d.
  (** the [k] scalars from [base] on *)
  Definition getblk (v : list F) (base k : nat) : res (list F) := mapr (fun p => get v (base + p)) (seq 0 k).
  (** store a block or segment *)
  Definition setblk (v : list F) (base : nat) (seg : list F) : res (list F) :=
    let! (_, v') := exec v (pwseg base seg) in Ok v'.
  (** src/solverops_jacobi.cpp:31-48 BJacobi compute. [inv]: Eigen's inverse of a
      dense block, given and returned as [bs*bs] scalars in storage order. *)
  Definition bjacobi_setup (inv : list F -> list F) (bs : nat) M (d : list F) : nd (list F) :=
    par_for 0 (nbrows M) (fun i d =>
      let! di := get (diagind M) i in
      let! b := getblk (vals M) (di * (bs * bs)) (bs * bs) in
      setblk d (i * (bs * bs)) (inv b)) d.
  (** src/solverops_jacobi.cpp:165-171 scalar apply *)
  Definition jacobi_apply M (d r z : list F) : nd (list F) :=
    par_for 0 (nbrows M) (fun i z =>
      let! di := get d i in let! ri := get r i in set z i (di * ri)%s) z.
  (** src/solverops_jacobi.cpp:51-63 block apply *)
  Definition bjacobi_apply so bs M (d r z : list F) : nd (list F) :=
    par_for 0 (nbrows M) (fun i z =>
      let! seg := getseg bs r i in
      let! u := bmatvec so bs d (i * (bs * bs)) seg in
      setblk z (i * bs) u) z.

  (** ** Loop bodies *)
  (** src/kernels/kernels_sgs.hpp:88-92, src/solverops_levels_sgs.cpp:169-171 *)
  Definition scalar_fgsC M (d r : list F) (i : nat) : P (list F) :=
    let? rs := plift (get (browptr M) i) in
    let? di := plift (get (diagind M) i) in
    let? dinv := plift (get d i) in
    let? rhs := plift (get r i) in
    let? x := scalar_fgs (vals M) (bcolind M) rs di dinv rhs in
    Ret [x].
  (** src/kernels/kernels_sgs.hpp:103-107, src/solverops_levels_sgs.cpp:181-184 *)
  Definition scalar_bgsC M (d y : list F) (i : nat) : P (list F) :=
    let? di := plift (get (diagind M) i) in
    let? re := plift (get (browptr M) (i + 1)) in
    let? _ := plift (get (vals M) di) in
    let? dinv := plift (get d i) in
    let? rhs := plift (get y i) in
    let? x := scalar_bgs (vals M) (bcolind M) di re dinv rhs in
    Ret [x].
  (** src/kernels/kernels_sgs.hpp:128-132, src/solverops_levels_sgs.cpp:71-72 *)
  Definition block_fgsC so bs M (d r : list F) (i : nat) : P (list F) :=
    let? rs := plift (get (browptr M) i) in
    let? di := plift (get (diagind M) i) in
    let? rhs := plift (getseg bs r i) in
    block_fgs so bs (vals M) (bcolind M) rs di d (i * (bs * bs)) rhs.
  (** src/kernels/kernels_sgs.hpp:153-157, src/solverops_levels_sgs.cpp:82-83 *)
  Definition block_bgsC so bs M (d y : list F) (i : nat) : P (list F) :=
    let? di := plift (get (diagind M) i) in
    let? re := plift (get (browptr M) (i + 1)) in
    let? rhs := plift (getseg bs y i) in
    block_bgs so bs (vals M) (bcolind M) di re d (i * (bs * bs)) rhs.
  (** src/solverops_sgs.cpp:187-201, src/relaxation_chaotic.cpp:97-103,115-121,
      src/solverops_levels_sgs.cpp:202-205,214-217, src/solverops_jacobi.cpp:184-189 *)
  Definition scalar_relaxC M (d b : list F) (i : nat) : P (list F) :=
    let? rs := plift (get (browptr M) i) in
    let? di := plift (get (diagind M) i) in
    let? re := plift (get (browptr M) (i + 1)) in
    let? dinv := plift (get d i) in
    let? rhs := plift (get b i) in
    let? x := scalar_relax (vals M) (bcolind M) rs di re dinv rhs in
    Ret [x].
  (** src/solverops_sgs.cpp:101-113, src/relaxation_chaotic.cpp:37-42,63-68,
      src/solverops_levels_sgs.cpp:107-110,120-123, src/solverops_jacobi.cpp:84-89 *)
  Definition block_relaxC so bs M (d b : list F) (i : nat) : P (list F) :=
    let? rs := plift (get (browptr M) i) in
    let? di := plift (get (diagind M) i) in
    let? re := plift (get (browptr M) (i + 1)) in
    let? rhs := plift (getseg bs b i) in
    block_relax_kernel so bs (vals M) (bcolind M) rs di re d (i * (bs * bs)) rhs.

  (** ** Drivers, common to scalar and block versions ([w] entries per row) *)
  (** src/solverops_sgs.cpp:147-177 (scalar), 47-83 (block). The forward sweeps are
      work-sharing loops outside a parallel region and so are run by one thread.
      Returns work vector and output. *)
  Definition sgs_apply (w n : nat) (fgsC bgsC : list F -> nat -> P (list F)) (ytemp : list F)
      (napplysweeps chunk nthr : nat) (ainit : ApplyInit) (r z : list F) : nd (list F * list F) :=
    ndo y := match ainit with
             | INIT_A_JACOBI | INIT_A_ZERO => fill (n * w) s0 ytemp
             | INIT_A_NONE => nret ytemp
             end in
    ndo y := nlift (exec_seq (T w (fgsC r)) (concat (nowait_sweeps napplysweeps chunk (seq 0 n))) y) in
    ndo z := match ainit with
             | INIT_A_JACOBI => vcopy (n * w) y z
             | INIT_A_ZERO => fill (n * w) s0 z
             | INIT_A_NONE => nret z
             end in
    ndo z := omp_region true (T w (bgsC y)) nthr (nowait_sweeps napplysweeps chunk (rev (seq 0 n))) z in
    nret (y, z).
  (** src/solverops_levels_sgs.cpp:156-186 (scalar), 53-86 (block) *)
  Definition level_sgs_apply (w : nat) (fgsC bgsC : list F -> nat -> P (list F)) (levels : list nat)
      (ytemp : list F) (nthr : nat) (r z : list F) : nd (list F * list F) :=
    ndo y := level_fwd w (fgsC r) levels nthr ytemp in
    ndo z := level_bwd w (bgsC y) levels nthr z in
    nret (y, z).
  (** src/solverops_sgs.cpp:179-203 (scalar), 85-116 (block) apply_relax *)
  Definition sgs_relax (w n : nat) (relaxC : list F -> nat -> P (list F)) (maxits chunk nthr : nat)
      (b x : list F) : nd (list F) :=
    omp_region true (T w (relaxC b)) nthr
      (concat (replicate maxits (chunks chunk (seq 0 n) ++ chunks chunk (rev (seq 0 n))))) x.
  (** src/relaxation_chaotic.cpp:91-107,109-125 (scalar), 21-46,48-72 (block); apply
      and apply_relax differ only in where the number of steps comes from *)
  Definition chaotic_relax (w n : nat) (relaxC : list F -> nat -> P (list F)) (steps chunk nthr : nat)
      (b x : list F) : nd (list F) :=
    omp_region true (T w (relaxC b)) nthr (nowait_sweeps steps chunk (seq 0 n)) x.
  (** src/solverops_levels_sgs.cpp:189-222 (scalar), 88-127 (block) apply_relax *)
  Definition level_relax (w : nat) (relaxC : list F -> nat -> P (list F)) (levels : list nat)
      (maxits nthr : nat) (b x : list F) : nd (list F) :=
    nfor 0 maxits (fun _ x =>
      ndo x := level_fwd w (relaxC b) levels nthr x in
      level_bwd w (relaxC b) levels nthr x) x.

  (** src/solverops_jacobi.cpp:173-220 (scalar), 65-121 (block) apply_relax.
      [ssqrt] is std::sqrt, [slt] the comparison of scalars. [step] counts up, [k] is the number of steps left. *)
  Section JacobiRelax.
    Variables (ssqrt : F -> F) (slt : F -> F -> bool).
    (** one row: the kernel reads x, which does not change during the loop *)
    Definition jacobi_row (w : nat) (relaxC : list F -> nat -> P (list F)) (b x : list F)
        (i : nat) (xtemp : list F) : res (list F) :=
      let! (seg, _) := exec x (relaxC b i) in setblk xtemp (i * w) seg.
    Definition jacobi_diff (len : nat) (xtemp x : list F) : nd (F * list F) :=
      reduce_shared s0 sadd 0 len (fun i dn x =>
        let! t := get xtemp i in
        let! xi := get x i in
        let! x := set x i t in
        Ok ((dn + (t - xi) * (t - xi))%s, x)) s0 x.
    Definition jacobi_stop (p : SolveParams F) (dn ref : F) : bool :=
      slt dn (atol p) || slt (dn / ref)%s (rtol p) || slt (dtol p) (dn / ref)%s.
    Fixpoint jacobi_loop (w n : nat) (relaxC : list F -> nat -> P (list F)) (p : SolveParams F)
        (b : list F) (k step : nat) (ref : F) (xtemp x : list F) : nd (list F) :=
      match k with
      | 0 => nret x
      | S k' =>
          ndo xtemp := par_for 0 n (jacobi_row w relaxC b x) xtemp in
          if ctol p then
            ndo (dn, x) := jacobi_diff (n * w) xtemp x in
            let dn := ssqrt dn in
            let ref := if step =? 0 then dn else ref in
            if jacobi_stop p dn ref then nret x
            else jacobi_loop w n relaxC p b k' (step + 1) ref xtemp x
          else
            ndo x := vcopy (n * w) xtemp x in
            jacobi_loop w n relaxC p b k' (step + 1) ref xtemp x
      end.
    (** [xtemp]: the freshly allocated work vector *)
    Definition jacobi_relax (w n : nat) (relaxC : list F -> nat -> P (list F)) (p : SolveParams F)
        (xtemp b x : list F) : nd (list F) :=
      jacobi_loop w n relaxC p b (maxits p) 0 s1 xtemp x.
  End JacobiRelax.

  (** ** The identity: src/solverops_base.cpp:26-43 *)
  Definition noprec_apply bs M (x y : list F) : nd (list F) := vcopy (nbrows M * bs) x y.
  Definition noprec_apply_relax (x y : list F) : nd (list F) := nret y.
End Sgs.
