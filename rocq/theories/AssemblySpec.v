(** * AssemblySpec: what the assembly calls are meant to do, in terms of matrix entries *)
From Verif Require Import Base Alg SRMatrix BlockMat.
Open Scope nat_scope.

(** the two matrices have the same structure; only values may differ *)
Definition same_structure {F} (M M' : srmat F) : Prop :=
  browptr M' = browptr M /\ bcolind M' = bcolind M /\ diagind M' = diagind M /\ browendptr M' = browendptr M /\
  nbrows M' = nbrows M /\ nnzb M' = nnzb M /\ nbstored M' = nbstored M /\ length (vals M') = length (vals M).

(** entry (I,J) is in the bs-by-bs block in which (i,j) is *)
Definition in_block (bs i j I J : nat) : Prop := I / bs = i / bs /\ J / bs = j / bs.
(** entry (I,J) is in the rectangle of height h and width w with upper left corner (i,j) *)
Definition in_rect (i j h w I J : nat) : Prop := i <= I < i + h /\ j <= J < j + w.
Global Instance in_block_dec bs i j I J : Decision (in_block bs i j I J) := _.
Global Instance in_rect_dec i j h w I J : Decision (in_rect i j h w I J) := _.

Section Share.
  Context {F : Type} {O : SOps F}.
  (** what a call should add to entry (I,J) of a block matrix; the buffer holds the block by rows *)
  Definition block_share (bs : nat) (c : call F) (I J : nat) : F :=
    match c with
    | Update i j b _ _ => if decide (in_block bs i j I J) then vat b (I mod bs * bs + J mod bs) else s0
    | UpdateDiag i b _ => if decide (in_block bs i i I J) then vat b (I mod bs * bs + J mod bs) else s0
    end.
  (** ... of a scalar matrix; the buffer holds the rectangle by rows *)
  Definition scalar_share (c : call F) (I J : nat) : F :=
    match c with
    | Update i j b h w => if decide (in_rect i j h w I J) then vat b ((I - i) * w + (J - j)) else s0
    | UpdateDiag i b n => if decide (in_rect i i n n I J) then vat b ((I - i) * n + (J - i)) else s0
    end.
  (** legal calls for block matrices: a row of the matrix, a buffer holding a block *)
  Definition block_call (bs : nat) (M : srmat F) (c : call F) : Prop :=
    match c with
    | Update i j b _ _ => i < nbrows M * bs /\ bs * bs <= length b
    | UpdateDiag i b _ => i < nbrows M * bs /\ bs * bs <= length b
    end.
  (** the whole rectangle lies in the pattern *)
  Definition rect_stored (M : srmat F) (i j h w : nat) : Prop :=
    i + h <= nbrows M /\ forall I J, in_rect i j h w I J -> pos M I J <> None.
  (** legal calls for scalar matrices *)
  Definition scalar_call (M : srmat F) (c : call F) : Prop :=
    match c with
    | Update i j b h w => rect_stored M i j h w /\ h * w <= length b
    | UpdateDiag i b n => rect_stored M i i n n /\ n * n <= length b
    end.
  (** the rectangle is a square *)
  Definition square_call (c : call F) : Prop :=
    match c with Update _ _ _ h w => h = w | UpdateDiag _ _ _ => True end.
End Share.
