(** * SolveSpec: residuals of linear systems and spans, in terms of which the iterative solvers are specified

    Nothing here refers to how a solver works. *)
From Verif Require Import Base Alg SymSpec.

Section Spec.
  Context {F : Type} {O : SOps F}.
  Open Scope s_scope.
  (** A x *)
  Definition times (n : nat) (A : nat -> nat -> F) (x : list F) : list F := (fun i => bsum n (fun j => A i j * vat x j)) <$> seq 0 n.
  (** b - A x *)
  Definition resid (n : nat) (A : nat -> nat -> F) (b x : list F) : list F :=
    (fun i => vat b i - bsum n (fun j => A i j * vat x j)) <$> seq 0 n.
  (** the square of the 2-norm *)
  Definition sqnorm (n : nat) (v : list F) : F := dot n v v.
  (** x + y *)
  Definition vadd (n : nat) (x y : list F) : list F := (fun i => vat x i + vat y i) <$> seq 0 n.
  (** x + c_0 z_0 + c_1 z_1 + ... *)
  Definition along (n : nat) (x : list F) (c : list F) (zs : list (list F)) : list F :=
    (fun i => vat x i + bsum (length zs) (fun j => vat c j * vat (default [] (zs !! j)) i)) <$> seq 0 n.
  (** not the zero vector *)
  Definition nonzero (n : nat) (v : list F) : Prop := exists i, (i < n)%nat /\ vat v i <> s0.
  (** x_0, x_1 = x_0 + d_0, x_2 = x_1 + d_1, ..., where d_k is one of the answers of a preconditioner to the residual of x_k *)
  Inductive iterates (n : nat) (A : nat -> nat -> F) (answer : list F -> list F -> Prop) (b x0 : list F) : nat -> list F -> Prop :=
  | it_start : iterates n A answer b x0 0 x0
  | it_next k x d : iterates n A answer b x0 k x -> answer (resid n A b x) d -> iterates n A answer b x0 (S k) (vadd n x d).

  (** a <= b *)
  Definition leq (pos : F -> Prop) (a b : F) : Prop := a = b \/ pos (b - a).
  (** among the vectors xc + c_0 z_0 + c_1 z_1 + ..., [x] has the smallest residual *)
  Definition best (pos : F -> Prop) (n : nat) (A : nat -> nat -> F) (b xc : list F) (zs : list (list F)) (x : list F) : Prop :=
    (exists c, x = along n xc c zs) /\
    forall c, leq pos (sqnorm n (resid n A b x)) (sqnorm n (resid n A b (along n xc c zs))).
  (** Flexible GMRES from xc: each direction is an answer of the preconditioner to the residual of the vector so far, and the next
      vector is the best one for all the directions so far. *)
  Inductive fgmres (pos : F -> Prop) (n : nat) (A : nat -> nat -> F) (answer : list F -> list F -> Prop) (b xc : list F) : list (list F) -> list F -> Prop :=
  | fg_start : fgmres pos n A answer b xc [] xc
  | fg_next zs x z x' : fgmres pos n A answer b xc zs x -> answer (resid n A b x) z -> best pos n A b xc (zs ++ [z]) x' ->
      fgmres pos n A answer b xc (zs ++ [z]) x'.
  (** the same, started again after every [m] directions; the number counts the directions *)
  Inductive restarted (pos : F -> Prop) (n : nat) (A : nat -> nat -> F) (answer : list F -> list F -> Prop) (m : nat) (b x0 : list F) : nat -> list F -> Prop :=
  | rs_start : restarted pos n A answer m b x0 0 x0
  | rs_next j x zs x' : restarted pos n A answer m b x0 j x -> fgmres pos n A answer b x zs x' -> length zs = m ->
      restarted pos n A answer m b x0 (j + m) x'.
End Spec.
