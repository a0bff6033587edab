(** * Reduce: the sums of the row kernels as a compiler may evaluate them

    [#pragma omp simd reduction(+:inter)] (src/kernels/kernels_ilu_apply.hpp:22,37,
    src/kernels/kernels_sgs.hpp:24,39) lets a compiler keep several partial sums and add
    them at the end; the loops of src/kernels/kernels_relaxation.hpp:47-51 have no such
    clause but may be contracted to fused multiply-adds, like those before. Kernels.v
    adds the terms one after the other and rounds every product; here the order and the
    use of fused operations are arbitrary.
    Simplifications: the loop reads x[colind[jj]] for jj upwards, whatever the order of
    the additions; the lanes' initial zeros are left out (adding 0 is exact). *)
From Verif Require Import Base Alg SRMatrix Async AsyncSystem Nd Kernels IluApply Sgs.

(** How the value of [inter] on entry and the products are combined: [OTerm jj] is the
    product of iteration [jj], [OFma jj a] adds it to [a] in one operation. *)
Inductive order :=
| OInit
| OTerm (jj : nat)
| OAdd (a b : order)
| OFma (jj : nat) (a : order).
(** what occurs in it: [None] for the value on entry *)
Fixpoint uses (o : order) : list (option nat) :=
  match o with
  | OInit => [None]
  | OTerm jj => [Some jj]
  | OAdd a b => uses a ++ uses b
  | OFma jj a => Some jj :: uses a
  end.
(** every iteration once, and the value on entry *)
Definition covers (o : order) (lo hi : nat) : Prop := uses o ≡ₚ None :: (Some <$> range lo hi).
(** [ord lo hi]: what has been compiled for the loop from [lo] to [hi] *)
Definition valid_order (ord : nat -> nat -> order) : Prop := forall lo hi, covers (ord lo hi) lo hi.

Section Reduce.
  Context {F : Type} {O : SOps F}.
  Notation P := (@P F).
  (** the fused operations: [sfma a b c] is a*b+c, [sfnma a b c] is c-a*b *)
  Variables sfma sfnma : F -> F -> F -> F.

  Fixpoint oeval (v x : nat -> F) (init : F) (o : order) : F :=
    match o with
    | OInit => init
    | OTerm jj => (v jj * x jj)%s
    | OAdd a b => (oeval v x init a + oeval v x init b)%s
    | OFma jj a => sfma (v jj) (x jj) (oeval v x init a)
    end.
  (** the loops cited at [sdot] (Kernels.v): src/kernels/kernels_ilu_apply.hpp:21-24,36-39,
      src/kernels/kernels_sgs.hpp:23-26,38-41, src/kernels/kernels_relaxation.hpp:47-51 *)
  Definition rdot (ord : nat -> nat -> order) (vals : list F) (colind : list nat) (lo hi : nat) (inter : F) : P F :=
    let? vx := pfor lo hi (fun jj (vx : nat -> F * F) =>
      let? v := plift (get vals jj) in
      let? c := plift (get colind jj) in
      let? xc := pread c in
      Ret (fun k => if decide (k = jj) then (v, xc) else vx k)) (fun _ => (s0, s0)) in
    Ret (oeval (fun k => (vx k).1) (fun k => (vx k).2) inter (ord lo hi)).
  (** the last line of scalar_bgs, src/kernels/kernels_sgs.hpp:43: [fused] if it has
      become one operation *)
  Definition msub (fused : bool) (rhs a b : F) : F := if fused then sfnma a b rhs else (rhs - a * b)%s.
End Reduce.

(** The row kernels with a given way [dot] of summing. *)
Section With.
  Context {F : Type} {O : SOps F}.
  Notation P := (@P F).
  Implicit Type M : srmat F.
  Variable dot : list F -> list nat -> nat -> nat -> F -> P F.

  (** src/kernels/kernels_ilu_apply.hpp:15-27, called as in [scalar_lowC] (IluApply.v):
      src/solverops_ilu0.cpp:278-282, src/solverops_levels_ilu0.cpp:171-172 *)
  Definition low_with M (ilu z : list F) (i : nat) : P (list F) :=
    let? rs := plift (get (browptr M) i) in
    let? di := plift (get (diagind M) i) in
    let? rhs := plift (get z i) in
    let? x := (let? inter := dot ilu (bcolind M) rs di s0 in Ret (rhs - inter)%s) in
    Ret [x].
  (** src/kernels/kernels_ilu_apply.hpp:30-42, called as in [scalar_upC]:
      src/solverops_ilu0.cpp:309-313, src/solverops_levels_ilu0.cpp:181-183 *)
  Definition up_with M (ilu y : list F) (i : nat) : P (list F) :=
    let? di := plift (get (diagind M) i) in
    let? re := plift (get (browptr M) (i + 1)) in
    let? d := plift (get ilu di) in
    let? rhs := plift (get y i) in
    let? x := (let? inter := dot ilu (bcolind M) (di + 1) re s0 in Ret (s1 / d * (rhs - inter))%s) in
    Ret [x].
  (** src/kernels/kernels_sgs.hpp:17-29, called as in [scalar_fgsC] (Sgs.v):
      src/kernels/kernels_sgs.hpp:88-92, src/solverops_levels_sgs.cpp:169-171 *)
  Definition fgs_with M (d r : list F) (i : nat) : P (list F) :=
    let? rs := plift (get (browptr M) i) in
    let? di := plift (get (diagind M) i) in
    let? dinv := plift (get d i) in
    let? rhs := plift (get r i) in
    let? x := (let? inter := dot (vals M) (bcolind M) rs di s0 in Ret (dinv * (rhs - inter))%s) in
    Ret [x].
  (** src/kernels/kernels_sgs.hpp:32-44, called as in [scalar_bgsC]:
      src/kernels/kernels_sgs.hpp:103-107, src/solverops_levels_sgs.cpp:181-184.
      [ms rhs a b] is rhs - a*b *)
  Definition bgs_with (ms : F -> F -> F -> F) M (d y : list F) (i : nat) : P (list F) :=
    let? di := plift (get (diagind M) i) in
    let? re := plift (get (browptr M) (i + 1)) in
    let? _ := plift (get (vals M) di) in
    let? dinv := plift (get d i) in
    let? rhs := plift (get y i) in
    let? x := (let? inter := dot (vals M) (bcolind M) (di + 1) re s0 in Ret (ms rhs dinv inter)) in
    Ret [x].
  (** src/kernels/kernels_relaxation.hpp:40-54, called as in [scalar_relaxC]:
      src/solverops_sgs.cpp:187-201, src/relaxation_chaotic.cpp:97-103,115-121,
      src/solverops_levels_sgs.cpp:202-205,214-217, src/solverops_jacobi.cpp:184-189 *)
  Definition relax_with M (d b : list F) (i : nat) : P (list F) :=
    let? rs := plift (get (browptr M) i) in
    let? di := plift (get (diagind M) i) in
    let? re := plift (get (browptr M) (i + 1)) in
    let? dinv := plift (get d i) in
    let? rhs := plift (get b i) in
    let? x := (let? inter := dot (vals M) (bcolind M) rs di s0 in
               let? inter := dot (vals M) (bcolind M) (di + 1) re inter in
               Ret (dinv * (rhs - inter))%s) in
    Ret [x].
End With.

(** the subtraction in scalar_bgs without a fused operation, as in Kernels.v *)
Definition msub_plain {F} {O : SOps F} (rhs a b : F) : F := (rhs - a * b)%s.
