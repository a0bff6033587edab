(** * BicgSpec: the textbook BiCGSTAB with a linear preconditioner (van der Vorst 1992), and its breakdowns

    Vectors are lists of n entries. [A] is the matrix of the system, [K] the matrix of the preconditioner. Nothing here refers
    to the program. *)
From Verif Require Import Base Alg SymSpec SolveSpec.

Section Spec.
  Context {F : Type} {O : SOps F}.
  Open Scope s_scope.
  Variables (n : nat) (A K : nat -> nat -> F) (b x0 : list F).
  (** a u + c v *)
  Definition comb (a : F) (u : list F) (c : F) (v : list F) : list F := (fun i => a * vat u i + c * vat v i) <$> seq 0 n.
  (** A K v *)
  Definition AK (v : list F) : list F := times n A (times n K v).
  (** the first residual *)
  Definition tb_r0 : list F := resid n A b x0.
  (** x_i, its residual r_i and the direction p_i with which the next step begins *)
  Record tb := TB { tb_x : list F; tb_r : list F; tb_p : list F }.
  Definition tb_rho (s : tb) : F := dot n tb_r0 (tb_r s).
  Definition tb_v (s : tb) : list F := AK (tb_p s).
  Definition tb_sigma (s : tb) : F := dot n tb_r0 (tb_v s).
  Definition tb_alpha (s : tb) : F := tb_rho s / tb_sigma s.
  (** the residual after half a step *)
  Definition tb_s (s : tb) : list F := comb s1 (tb_r s) (sopp (tb_alpha s)) (tb_v s).
  Definition tb_t (s : tb) : list F := AK (tb_s s).
  Definition tb_omega (s : tb) : F := dot n (tb_t s) (tb_s s) / dot n (tb_t s) (tb_t s).
  Definition tb_step (s : tb) : tb :=
    let x := comb s1 (comb s1 (tb_x s) (tb_alpha s) (times n K (tb_p s))) (tb_omega s) (times n K (tb_s s)) in
    let r := comb s1 (tb_s s) (sopp (tb_omega s)) (tb_t s) in
    let beta := dot n tb_r0 r * tb_alpha s / (tb_rho s * tb_omega s) in
    TB x r (comb s1 r beta (comb s1 (tb_p s) (sopp (tb_omega s)) (tb_v s))).
  Fixpoint tb_at (i : nat) : tb :=
    match i with
    | 0%nat => TB x0 tb_r0 tb_r0
    | S i => tb_step (tb_at i)
    end.
  (** a step from a nonzero residual breaks down if it divides by zero, or if its second half has step length zero *)
  Definition tb_breakdown (s : tb) : Prop :=
    tb_rho s = s0 \/ tb_sigma s = s0 \/ (nonzero n (tb_s s) /\ dot n (tb_t s) (tb_s s) = s0).
End Spec.
