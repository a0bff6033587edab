(** * CooSpec: what a correct coordinate matrix is *)
From Verif Require Import Base Alg SRMatrix Coo.
Open Scope nat_scope.

(** The row pointers start at 0, end at the number of entries and do not decrease; row
    pointers i and i+1 delimit exactly the entries of row i; indices are in range. *)
Record coo_ok {F} (c : coo F) : Prop := {
  co_nnz : coo_nnz c = length (entries c);
  co_len : length (rowptr c) = nrows c + 1;
  co_0 : rowptr c !! 0 = Some 0;
  co_last : rowptr c !! nrows c = Some (coo_nnz c);
  co_mono : forall i a b, rowptr c !! i = Some a -> rowptr c !! (i + 1) = Some b -> a <= b;
  co_row : forall k e, entries c !! k = Some e -> rowind e < nrows c /\ colind e < ncols c;
  co_delim : forall i a b k e, rowptr c !! i = Some a -> rowptr c !! (i + 1) = Some b -> entries c !! k = Some e ->
    (rowind e = i <-> a <= k < b)
}.
(** columns increase inside each row *)
Definition coo_sorted {F} (c : coo F) : Prop :=
  forall k1 k2 e1 e2, k1 < k2 -> entries c !! k1 = Some e1 -> entries c !! k2 = Some e2 -> rowind e1 = rowind e2 -> colind e1 < colind e2.
(** no place is listed twice *)
Definition coo_nodup {F} (c : coo F) : Prop :=
  forall k1 k2 e1 e2, entries c !! k1 = Some e1 -> entries c !! k2 = Some e2 -> rowind e1 = rowind e2 -> colind e1 = colind e2 -> k1 = k2.
(** number [x] is the entry (i,j) of the matrix listed by [es]: the listed value, or zero *)
Definition coo_entry {F} {O : SOps F} (es : list (entry F)) (i j : nat) (x : F) : Prop :=
  Entry i j x ∈ es \/ (x = s0 /\ forall v, Entry i j v ∉ es).
