(** * IluApply: applying an incomplete LU factorisation *)
From Verif Require Import Base Alg SRMatrix Async AsyncSystem Nd Kernels.

(** include/async_initialization_decl.hpp:27-34 *)
Inductive ApplyInit := INIT_A_ZERO | INIT_A_JACOBI | INIT_A_NONE.

Section Apply.
  Context {F : Type} {O : SOps F}.
  Notation P := (@P F).

  (** z[i] = scale[i]*r[i], or z[i] = r[i] without scaling, for i < len:
      src/solverops_ilu0.cpp:71-81,248-257, src/solverops_levels_ilu0.cpp:68-78,153-163 *)
  Definition init_z (len : nat) (scale : option (list F)) (r z : list F) : nd (list F) :=
    par_for 0 len (fun i z =>
      let! ri := get r i in
      match scale with
      | Some s => let! si := get s i in set z i (si * ri)%s
      | None => set z i ri
      end) z.
  (** z[i] = z[i]*scale[i]: src/solverops_ilu0.cpp:143-147,316-320,
      src/solverops_levels_ilu0.cpp:100-104,187-191 *)
  Definition final_scale (len : nat) (scale : option (list F)) (z : list F) : nd (list F) :=
    match scale with
    | None => nret z
    | Some s => par_for 0 len (fun i z =>
        let! zi := get z i in let! si := get s i in set z i (zi * si)%s) z
    end.
  Definition fill (len : nat) (a : F) (v : list F) : nd (list F) :=
    par_for 0 len (fun i v => set v i a) v.
  Definition vcopy (len : nat) (src v : list F) : nd (list F) :=
    par_for 0 len (fun i v => let! a := get src i in set v i a) v.

  (** The statements of scalar_ilu0_apply (src/solverops_ilu0.cpp:239-321) and
      block_ilu0_apply (55-148), which differ only in the kernels: [lowC z i] is the
      body of the forward loop, [upC y i] that of the backward loop, [w] the number
      of vector entries per (block) row, [n] the number of (block) rows.
      Returns the work vector and the output vector. A non-positive number of
      sweeps is 0 here. [nthr] is the size of the thread team. *)
  Definition ilu0_apply (w n : nat) (lowC upC : list F -> nat -> P (list F))
      (scale : option (list F)) (ytemp : list F) (napplysweeps chunk : nat) (usethreads : bool)
      (nthr : nat) (init_type : ApplyInit) (r z : list F) : nd (list F * list F) :=
    ndo z := init_z (n * w) scale r z in
    ndo y := match init_type with
             | INIT_A_JACOBI | INIT_A_ZERO => fill (n * w) s0 ytemp
             | INIT_A_NONE => nret ytemp
             end in
    ndo y := omp_region usethreads (T w (lowC z)) nthr
               (nowait_sweeps napplysweeps chunk (seq 0 n)) y in
    ndo z := match init_type with
             | INIT_A_JACOBI => vcopy (n * w) y z
             | INIT_A_ZERO => fill (n * w) s0 z
             | INIT_A_NONE => nlift (Throw " scalar_ilu0_apply: Invalid init type!")
             end in
    ndo z := omp_region usethreads (T w (upC y)) nthr
               (nowait_sweeps napplysweeps chunk (rev (seq 0 n))) z in
    ndo z := final_scale (n * w) scale z in
    nret (y, z).

  (** One parallel loop per level, levels in increasing order, rows of a level in
      increasing order: src/solverops_levels_ilu0.cpp:80-88,165-173,
      src/solverops_levels_sgs.cpp:65-73,103-113,163-172,197-207 *)
  Definition level_fwd (w : nat) (C : nat -> P (list F)) (levels : list nat) (nthr : nat) (m : list F) : nd (list F) :=
    nfor 0 (length levels - 1) (fun ilvl m =>
      ndo lo := nlift (get levels ilvl) in
      ndo hi := nlift (get levels (ilvl + 1)) in
      omp_for (T w C) nthr (range lo hi) m) m.
  (** the same downwards: src/solverops_levels_ilu0.cpp:90-98,175-185,
      src/solverops_levels_sgs.cpp:76-84,115-125,175-185,209-219 *)
  Definition level_bwd (w : nat) (C : nat -> P (list F)) (levels : list nat) (nthr : nat) (m : list F) : nd (list F) :=
    nrfor 0 (length levels - 1) (fun l m =>
      ndo hi := nlift (get levels (l + 1)) in
      ndo lo := nlift (get levels l) in
      omp_for (T w C) nthr (rev (range lo hi)) m) m.
  (** src/solverops_levels_ilu0.cpp:58-105 and 148-192 (block and scalar):
      forward then backward. *)
  Definition level_ilu0_apply (w n : nat) (lowC upC : list F -> nat -> P (list F)) (levels : list nat)
      (scale : option (list F)) (ytemp : list F) (nthr : nat) (r z : list F) : nd (list F * list F) :=
    ndo z := init_z (n * w) scale r z in
    ndo y := level_fwd w (lowC z) levels nthr ytemp in
    ndo z := level_bwd w (upC y) levels nthr z in
    ndo z := final_scale (n * w) scale z in
    nret (y, z).

  Implicit Type M : srmat F.
  (** loop bodies, scalar: src/solverops_ilu0.cpp:278-282 and 309-313,
      src/solverops_levels_ilu0.cpp:171-172 and 181-183 *)
  Definition scalar_lowC M (ilu z : list F) (i : nat) : P (list F) :=
    let? rs := plift (get (browptr M) i) in
    let? di := plift (get (diagind M) i) in
    let? rhs := plift (get z i) in
    let? x := scalar_unit_lower_triangular ilu (bcolind M) rs di rhs in
    Ret [x].
  Definition scalar_upC M (ilu y : list F) (i : nat) : P (list F) :=
    let? di := plift (get (diagind M) i) in
    let? re := plift (get (browptr M) (i + 1)) in
    let? d := plift (get ilu di) in
    let? rhs := plift (get y i) in
    let? x := scalar_upper_triangular ilu (bcolind M) di re (s1 / d)%s rhs in
    Ret [x].
  (** block: src/solverops_ilu0.cpp:103-107 and 136-140,
      src/solverops_levels_ilu0.cpp:85-86 and 95-96 *)
  Definition block_lowC so bs M (ilu z : list F) (i : nat) : P (list F) :=
    let? rs := plift (get (browptr M) i) in
    let? di := plift (get (diagind M) i) in
    let? rhs := plift (getseg bs z i) in
    block_unit_lower_triangular so bs ilu (bcolind M) rs di rhs.
  Definition block_upC so bs M (ilu y : list F) (i : nat) : P (list F) :=
    let? di := plift (get (diagind M) i) in
    let? re := plift (get (browptr M) (i + 1)) in
    let? rhs := plift (getseg bs y i) in
    block_upper_triangular so bs ilu (bcolind M) di re rhs.

  (** src/solverops_ilu0.cpp:239-321 *)
  Definition scalar_ilu0_apply M (ilu : list F) :=
    ilu0_apply 1 (nbrows M) (scalar_lowC M ilu) (scalar_upC M ilu).
  (** src/solverops_ilu0.cpp:55-148 *)
  Definition block_ilu0_apply so bs M (ilu : list F) :=
    ilu0_apply bs (nbrows M) (block_lowC so bs M ilu) (block_upC so bs M ilu).
  (** src/solverops_levels_ilu0.cpp:148-192 *)
  Definition scalar_level_ilu0_apply M (ilu : list F) :=
    level_ilu0_apply 1 (nbrows M) (scalar_lowC M ilu) (scalar_upC M ilu).
  (** src/solverops_levels_ilu0.cpp:58-105 *)
  Definition block_level_ilu0_apply so bs M (ilu : list F) :=
    level_ilu0_apply bs (nbrows M) (block_lowC so bs M ilu) (block_upC so bs M ilu).
End Apply.
