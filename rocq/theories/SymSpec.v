(** * SymSpec: symmetric and positive definite matrices, linear combinations, ordered fields

    Nothing here refers to how the library stores or computes anything. *)
From Verif Require Import Base Alg.

Section Spec.
  Context {F : Type} {O : SOps F}.
  Open Scope s_scope.
  (** [A] is symmetric *)
  Definition symm (n : nat) (A : nat -> nat -> F) : Prop := forall i j, (i < n)%nat -> (j < n)%nat -> A i j = A j i.
  (** the inner product *)
  Definition dot (n : nat) (u v : list F) : F := bsum n (fun i => vat u i * vat v i).
  (** a u + b v *)
  Definition combine (a b : F) (u v : list F) : list F := zip_with (fun x y => a * x + b * y) u v.
  (** x^T A x *)
  Definition form (n : nat) (A : nat -> nat -> F) (x : nat -> F) : F := bsum n (fun i => x i * bsum n (fun j => A i j * x j)).
  (** [pos] are the positive elements of an ordered field *)
  Record ordered (pos : F -> Prop) : Prop := {
    pos_add : forall a b, pos a -> pos b -> pos (a + b);
    pos_mul : forall a b, pos a -> pos b -> pos (a * b);
    pos_zero : ~ pos s0;
    pos_total : forall a, a = s0 \/ pos a \/ pos (sopp a) }.
  (** [A] is positive definite *)
  Definition pos_def (pos : F -> Prop) (n : nat) (A : nat -> nat -> F) : Prop :=
    forall x : nat -> F, (exists i, (i < n)%nat /\ x i <> s0) -> pos (form n A x).
End Spec.
