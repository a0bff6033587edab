(** * Rounding: what is meant by arithmetic with rounding errors

    Scalars are rational numbers (every finite double is one). [rounds u O]: the
    operations [O] are those of a machine that rounds the exact result of each
    operation with a relative error of at most [u], the usual standard model of
    floating-point arithmetic in the absence of overflow and underflow. Nothing here
    refers to the library. *)
From Coq Require Import QArith.Qcanon.
From Verif Require Import Base Alg Inst.

Open Scope Qc_scope.

(** the operations of a machine, kept apart from the exact operations on rationals *)
Definition machine := SOps Qc.

(** [x] is [e] rounded with relative error at most [u] *)
Definition rounded (u e x : Qc) : Prop := exists d, - u <= d /\ d <= u /\ x = e * (1 + d).

Record rounds (u : Qc) (O : machine) : Prop := {
  rd_nonneg : 0 <= u;
  rd_lt : u < 1;
  rd_zero : @s0 Qc O = 0;
  rd_one : @s1 Qc O = 1;
  rd_add : forall x y, rounded u (x + y) (@sadd Qc O x y);
  rd_sub : forall x y, rounded u (x - y) (@ssub Qc O x y);
  rd_mul : forall x y, rounded u (x * y) (@smul Qc O x y);
  rd_div : forall x y, y <> 0 -> rounded u (x / y) (@sdiv Qc O x y)
}.

(** [t] differs from 1 by no more than [k] roundings can make it differ:
    it lies between (1-u)^k and 1/(1-u)^k *)
Definition close (u : Qc) (k : nat) (t : Qc) : Prop := (1 - u) ^ k <= t /\ t * (1 - u) ^ k <= 1.

(** [B] is the matrix [A] with each entry changed by a factor that is close to 1; [k]
    says how many roundings went into each row. In particular entries that are zero
    stay zero. *)
Definition perturbed (u : Qc) (n : nat) (k : nat -> nat) (A B : nat -> nat -> Qc) : Prop :=
  forall i j, (i < n)%nat -> (j < n)%nat -> exists t, close u (k i) t /\ B i j = A i j * t.
(** the same for a vector *)
Definition vperturbed (u : Qc) (n k : nat) (a b : list Qc) : Prop :=
  length b = length a /\ forall i, (i < n)%nat -> exists t, close u k t /\ vat b i = vat a i * t.
(** a scaling vector, if there is one, costs a rounding each time it is used *)
Definition scale_roundings (scale : option (list Qc)) : nat := match scale with Some _ => 1 | None => 0 end.
