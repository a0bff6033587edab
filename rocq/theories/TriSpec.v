(** * TriSpec: dense linear algebra in which the properties are stated

    A matrix is a function from row and column to a scalar; nothing here refers to
    how the library stores or computes anything. *)
From Verif Require Import Base Alg.

Section Spec.
  Context {F : Type} {O : SOps F}.
  Open Scope s_scope.
  Implicit Types A B D : nat -> nat -> F.

  (** A x = b, for n unknowns *)
  Definition is_prod (n : nat) A (x b : list F) : Prop :=
    forall i, (i < n)%nat -> bsum n (fun j => A i j * vat x j) = vat b i.
  (** the matrix product *)
  Definition mprod (n : nat) A B : nat -> nat -> F := fun i j => bsum n (fun k => A i k * B k j).
  Definition ident : nat -> nat -> F := fun i j => if decide (i = j) then s1 else s0.
  (** X and Y are inverse to each other *)
  Definition is_inverse (n : nat) (X Y : nat -> nat -> F) : Prop :=
    forall i j, (i < n)%nat -> (j < n)%nat -> mprod n X Y i j = ident i j /\ mprod n Y X i j = ident i j.

  (** parts of a matrix *)
  Definition unitlower A : nat -> nat -> F := fun i j =>
    if decide (j < i)%nat then A i j else if decide (i = j) then s1 else s0.
  Definition upper A : nat -> nat -> F := fun i j => if decide (i <= j)%nat then A i j else s0.
  Definition lower A : nat -> nat -> F := fun i j => if decide (j <= i)%nat then A i j else s0.
  (** the same for block size [bs] (row I is in block row I/bs); [D] has the
      diagonal blocks *)
  Definition bunitlower (bs : nat) A : nat -> nat -> F := fun I J =>
    if decide (J / bs < I / bs)%nat then A I J else if decide (I = J) then s1 else s0.
  Definition bupper (bs : nat) A D : nat -> nat -> F := fun I J =>
    if decide (I / bs < J / bs)%nat then A I J else if decide (I / bs = J / bs)%nat then D I J else s0.
  Definition blower (bs : nat) A D : nat -> nat -> F := fun I J =>
    if decide (J / bs < I / bs)%nat then A I J else if decide (I / bs = J / bs)%nat then D I J else s0.
  (** the (block) diagonal part *)
  Definition bdiag (bs : nat) A : nat -> nat -> F := fun I J =>
    if decide (I / bs = J / bs)%nat then A I J else s0.
  Definition diag A : nat -> nat -> F := fun i j => if decide (i = j) then A i j else s0.
  (** the inverse of a diagonal matrix with nonzero diagonal *)
  Definition diag_inv A : nat -> nat -> F := fun i j => if decide (i = j) then s1 / A i i else s0.
  (** diagonal block number [i] *)
  Definition dblock (bs : nat) A (i : nat) : nat -> nat -> F := fun p q => A (i * bs + p)%nat (i * bs + q)%nat.

  (** S r and S z for an optional diagonal scaling S of the rows and columns *)
  Definition scaled_rhs (scale : option (list F)) (r : list F) : list F :=
    match scale with Some s => zip_with smul s r | None => r end.
  Definition scaled_sol (scale : option (list F)) (z : list F) : list F :=
    match scale with Some s => zip_with smul z s | None => z end.
  (** S A S *)
  Definition scaled_mat (scale : option (list F)) A : nat -> nat -> F := fun i j =>
    match scale with Some s => vat s i * A i j * vat s j | None => A i j end.
  Definition scale_ok (scale : option (list F)) (len : nat) : Prop :=
    match scale with Some s => length s = len | None => True end.
End Spec.
