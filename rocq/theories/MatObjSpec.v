(** * MatObjSpec: what a matrix object is to its user

    A square matrix with a pattern of blocks, whose entries are given values by the calls. Nothing here refers to arrays of
    the object. *)
From Verif Require Import Base Alg AssemblySpec BlockMat Reorder ReorderMain MatObj.
Open Scope nat_scope.

Section Spec.
  Context {F : Type} {O : SOps F}.
  Variable cl : option nat.
  Notation bs := (width cl).

  Record amat := AMat {
    a_rows : nat;                         (** block rows (and columns) *)
    a_stored : nat -> nat -> bool;        (** is block (i,j) in the pattern? *)
    a_num : nat -> nat -> option F;       (** what entry (I,J) has been set to; None: nothing yet *)
    a_diag : bool                         (** the positions of the diagonal blocks are known *)
  }.
  (** the entries of the matrix: zero outside the pattern, and unknown until they are set *)
  Definition entry_of (a : amat) (I J : nat) : option F :=
    if a_stored a (I / bs) (J / bs) then a_num a I J else Some s0.
  (** all entries are known *)
  Definition is_matrix (a : amat) (A : nat -> nat -> F) : Prop :=
    forall I J, I < a_rows a * bs -> J < a_rows a * bs -> entry_of a I J = Some (A I J).

  (** the columns of row i *)
  Definition row_cols (bcinds brptrs : list nat) (i : nat) : list nat :=
    take (brptrs !!! (i + 1) - brptrs !!! i) (drop (brptrs !!! i) bcinds).
  (** the index that an ordering sends to i *)
  Definition oback (x : option (list nat)) (i : nat) : nat :=
    match x with Some p => match list_find (fun v => v = i) p with Some (k, _) => k | None => 0 end | None => i end.
  (** what a call adds to entry (I,J) *)
  Definition share (c : call F) (I J : nat) : F :=
    match cl with Some bs => block_share bs c I J | None => scalar_share c I J end.

  (** the effect of each call *)
  Definition aset (a : amat) (num : nat -> nat -> option F) : amat := AMat (a_rows a) (a_stored a) num (a_diag a).
  Definition astep (c : mcall F) (a : amat) : amat :=
    match c with
    | MSetStructure n bcinds brptrs =>
        let st i j := bool_decide (j ∈ row_cols bcinds brptrs i) in
        AMat n st (fun _ _ => None) (forallb (fun i => st i i) (seq 0 n))
    | MSetAllZero => aset a (fun _ _ => Some s0)
    | MSetDiagZero => aset a (fun I J => if I / bs =? J / bs then Some s0 else a_num a I J)
    | MScaleAll f => aset a (fun I J => (fun x => x * f)%s <$> a_num a I J)
    | MSubmitBlock i j b h w => aset a (fun I J =>
        match cl with
        | Some bs => if decide (in_block bs i j I J) then Some (vat b (I mod bs * bs + J mod bs)) else a_num a I J
        | None => if decide (in_rect i j h w I J) then Some (vat b ((I - i) * w + (J - j))) else a_num a I J
        end)
    | MAssemble threads => aset a (fun I J => (fun x => x + lsum (fun c => share c I J) (concat threads))%s <$> a_num a I J)
    | MReorderScale rord cord sc mode =>
        (** block (i,j) of the result comes from block (p i, q j) *)
        let p i := match mode with FORWARD => oget rord i | INVERSE => oback rord i end in
        let q j := match mode with FORWARD => oget cord j | INVERSE => oback cord j end in
        (** factors belong to the rows and columns of the unordered matrix *)
        let r i := match mode with FORWARD => p i | INVERSE => i end in
        let c j := match mode with FORWARD => q j | INVERSE => j end in
        AMat (a_rows a) (fun i j => a_stored a (p i) (q j))
          (fun I J => (fun x => scl mode (colscale sc) (c (J / bs)) (scl mode (rowscale sc) (r (I / bs)) x)) <$>
                      a_num a (p (I / bs) * bs + I mod bs) (q (J / bs) * bs + J mod bs))
          (a_diag a && match rord, cord with None, None => true | _, _ => false end)
    | MCopy => a
    end.
  Fixpoint acalls (h : list (mcall F)) (a : amat) : amat :=
    match h with [] => a | c :: h => acalls h (astep c a) end.

  (** ** What a program may call *)
  (** the whole rectangle lies in the pattern *)
  Definition rect_in (a : amat) (i j h w : nat) : Prop :=
    i + h <= a_rows a /\ j + w <= a_rows a /\ forall I J, in_rect i j h w I J -> a_stored a I J = true.
  Definition legal_update (a : amat) (c : call F) : Prop :=
    match cl, c with
    | Some bs, Update i j b _ _ => i < a_rows a * bs /\ bs * bs <= length b
    | Some bs, UpdateDiag i b _ => i < a_rows a * bs /\ bs * bs <= length b /\ a_diag a = true
    | None, Update i j b h w => rect_in a i j h w /\ h * w <= length b /\ h = w
    | None, UpdateDiag i b n => rect_in a i i n n /\ n * n <= length b /\ a_diag a = true
    end.
  Record legal_pattern (n : nat) (bcinds brptrs : list nat) : Prop := {
    lp_pos : 0 < n;
    lp_len : length brptrs = n + 1;
    lp_0 : brptrs !!! 0 = 0;
    lp_mono : forall i, i < n -> brptrs !!! i <= brptrs !!! (i + 1);
    lp_cols : brptrs !!! n <= length bcinds;
    lp_range : forall j, j < brptrs !!! n -> bcinds !!! j < n;
    (** no column twice in a row; in the scalar class in increasing order *)
    lp_order : forall i j1 j2, i < n -> brptrs !!! i <= j1 -> j1 < j2 -> j2 < brptrs !!! (i + 1) ->
      match cl with Some _ => bcinds !!! j1 <> bcinds !!! j2 | None => bcinds !!! j1 < bcinds !!! j2 end
  }.
  Definition legal (c : mcall F) (a : amat) : Prop :=
    match c with
    | MSetStructure n bcinds brptrs => legal_pattern n bcinds brptrs
    | MSetDiagZero => a_diag a = true
    | MSubmitBlock i j b h w =>
        match cl with
        | Some bs => i < a_rows a * bs /\ bs * bs <= length b
        | None => rect_in a i j h w /\ h * w <= length b
        end
    | MAssemble threads => forall c, c ∈ concat threads -> legal_update a c
    | MReorderScale rord cord sc _ => is_order (a_rows a) rord /\ is_order (a_rows a) cord /\
        is_scale (a_rows a) (rowscale sc) /\ is_scale (a_rows a) (colscale sc)
    | MSetAllZero | MScaleAll _ | MCopy => True
    end.
  Fixpoint legal_calls (h : list (mcall F)) (a : amat) : Prop :=
    match h with [] => True | c :: h => legal c a /\ legal_calls h (astep c a) end.
  (** a new object *)
  Definition anew : amat := AMat 0 (fun _ _ => false) (fun _ _ => None) false.
  (** a history begins with the pattern *)
  Definition legal_history (h : list (mcall F)) : Prop :=
    match h with MSetStructure n bcinds brptrs :: _ => legal_calls h anew | _ => False end.
End Spec.
Arguments amat : clear implicits.
