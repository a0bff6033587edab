(** * PoissonSpec: what the discretised Poisson problem should be

    Finite differences on a tensor-product grid with zero values outside of it. *)
From Coq Require Import ZArith.
From Verif Require Import Base Alg Poisson.

Section Spec.
  Context {F : Type} {O : SOps F}.
  Open Scope s_scope.

  (** the coordinates increase along an axis *)
  Definition increasing (pos : F -> Prop) (x : list F) : Prop := forall i, (i + 1 < length x)%nat -> pos (vat x (i + 1) - vat x i).
  (** the points at which the unknowns live: the mesh points that are not on the boundary. Point (k,j,i) lies at
      (x_{i+1}, y_{j+1}, z_{k+1}). *)
  Definition on_axis (x : list F) (i : Z) : Prop := (0 <= i /\ i + 2 < Z.of_nat (length x))%Z.
  Definition grid (m : mesh F) (p : pnt) : Prop :=
    match p with (k, j, i) => on_axis (cz m) k /\ on_axis (cy m) j /\ on_axis (cx m) i end.
  Definition place (x : list F) (i : Z) : F := vat x (Z.to_nat (i + 1)).
  (** the second difference quotient at x_I for the values [w], [c], [e] at x_{I-1}, x_I, x_{I+1}: the change of slope over
      half of the distance *)
  Definition second_difference (x : list F) (i : Z) (w c e : F) : F :=
    let h1 := place x i - place x (i - 1) in let h2 := place x (i + 1) - place x i in
    ((e - c) / h2 - (c - w) / h1) / ((h1 + h2) / (s1 + s1)).
  (** minus the discrete Laplacian of the grid function [u] *)
  Definition minus_laplacian (m : mesh F) (u : pnt -> F) (p : pnt) : F :=
    match p with (k, j, i) =>
      sopp (second_difference (cx m) i (u (k, j, i - 1)%Z) (u p) (u (k, j, i + 1)%Z)
          + second_difference (cy m) j (u (k, j - 1, i)%Z) (u p) (u (k, j + 1, i)%Z)
          + second_difference (cz m) k (u (k - 1, j, i)%Z) (u p) (u (k + 1, j, i)%Z)) end.

  (** row [p] of the matrix with entries [E] (row, column, value) applied to [u]. Columns outside of the grid are dropped by
      PETSc, which is the same as [u] vanishing there. *)
  Definition row_apply (E : list (pnt * pnt * F)) (u : pnt -> F) (p : pnt) : F :=
    lsum (fun e => match e with (r, c, v) => if decide (r = p) then v * u c else s0 end) E.

  (** the processes own disjoint boxes that cover the grid *)
  Definition in_box (b : box) (p : pnt) : Prop :=
    match p with (k, j, i) =>
      (Z.of_nat (bz b) <= k < Z.of_nat (bz b + nz b) /\ Z.of_nat (by_ b) <= j < Z.of_nat (by_ b + ny b) /\ Z.of_nat (bx b) <= i < Z.of_nat (bx b + nx b))%Z end.
  Definition box_fits (m : mesh F) (b : box) : Prop := forall p, in_box b p -> grid m p.
  Definition partition (m : mesh F) (bs : list box) : Prop :=
    (forall b, b ∈ bs -> box_fits m b) /\
    (forall p, grid m p -> exists n b, bs !! n = Some b /\ in_box b p) /\
    (forall p n n' b b', bs !! n = Some b -> bs !! n' = Some b' -> in_box b p -> in_box b' p -> n = n').

  (** greater than or equal to zero *)
  Definition at_least_zero (pos : F -> Prop) (a : F) : Prop := a = s0 \/ pos a.
End Spec.
