(** * ViewSpec: who may do what with views and blocks, and what arrays hold

    The ledger follows a history of operations without looking at the program's
    memory: which views are alive, and for each block whether it belongs to the client, to the
    views (allocated by one, or handed over to one) or has been freed by the client. *)
From Verif Require Import Base SRMatrix ArrayView.

Inductive holder := Client | Views | Gone.
Record ledger := Ledger { who : list holder; alive : list bool }.

(** What the client may do: use living views only; hand over only blocks it holds; free only
    blocks it holds. It may lend any pointer, as often as it likes. *)
Definition may_hand (w : list holder) (p : ptr) : Prop :=
  match p with Some (b, o) => o = 0 /\ w !! b = Some Client | None => True end.
Definition legal {T} (s : ledger) (o : op T) : Prop :=
  match o with
  | Null | Alloc _ _ | Wrap _ _ | ClientAlloc _ => True
  | WrapOwn p _ own => own = true -> may_hand (who s) p
  | Move v | MoveConst v _ | Resize v _ _ | Rewrap v _ _ | Destroy v => alive s !! v = Some true
  | Take v p _ => alive s !! v = Some true /\ may_hand (who s) p
  | ClientFree b => who s !! b = Some Client
  end.
Definition hand (w : list holder) (p : ptr) : list holder :=
  match p with Some (b, _) => <[b := Views]> w | None => w end.
Definition alloced {T} (w : list holder) (g : option (nat -> T)) : list holder :=
  match g with Some _ => w ++ [Views] | None => w end.
Definition after {T} (s : ledger) (o : op T) : ledger :=
  let w := who s in
  let a := alive s in
  match o with
  | Null | Wrap _ _ | Move _ | MoveConst _ _ => Ledger w (a ++ [true])
  | Alloc _ g => Ledger (alloced w g) (a ++ [true])
  | WrapOwn p _ own => Ledger (if own then hand w p else w) (a ++ [true])
  | Resize _ _ g => Ledger (alloced w g) a
  | Rewrap _ _ _ => s
  | Take _ p _ => Ledger (hand w p) a
  | Destroy v => Ledger w (<[v := false]> a)
  | ClientAlloc _ => Ledger (w ++ [Client]) a
  | ClientFree b => Ledger (<[b := Gone]> w) a
  end.
Fixpoint legal_all {T} (s : ledger) (ops : list (op T)) : Prop :=
  match ops with [] => True | o :: ops => legal s o /\ legal_all (after s o) ops end.
Definition ledger_after {T} (s : ledger) (ops : list (op T)) : ledger := foldl after s ops.

(** block [b] is allocated; view number [v] is alive, owns block [b] *)
Definition live {T} (h : heap T) (b : nat) : Prop := exists l, h !! b = Some (Some l).
Definition owns {T} (m : mem T) (v b : nat) : Prop :=
  exists x o, views m !! v = Some (Some x) /\ owner x = true /\ data x = Some (b, o).

(** ** The array behind a pointer and a length *)
Definition arr {T} (h : heap T) (p : ptr) (n : nat) : option (list T) :=
  match p with
  | Some (b, o) => match h !! b with
                   | Some (Some l) => if decide (o + n <= length l) then Some (take n (drop o l)) else None
                   | _ => None end
  | None => if decide (n = 0) then Some [] else None
  end.
(** The matrix a storage stands for *)
Definition stor_mat {F} (hi : heap nat) (hf : heap F) (s : stor) : option (srmat F) :=
  a ← arr hi (data (s_browptr s)) (len (s_browptr s));
  b ← arr hi (data (s_bcolind s)) (len (s_bcolind s));
  c ← arr hf (data (s_vals s)) (len (s_vals s));
  d ← arr hi (data (s_diagind s)) (len (s_diagind s));
  e ← arr hi (data (s_browendptr s)) (len (s_browendptr s));
  Some (SR a b c d e (s_nbrows s) (s_nnzb s) (s_nbstored s)).
(** The matrix a raw matrix with blocks of size [bs] stands for *)
Definition raw_mat {F} (bs : nat) (hi : heap nat) (hf : heap F) (r : raw) : option (srmat F) :=
  a ← arr hi (r_browptr r) (r_nbrows r + 1);
  b ← arr hi (r_bcolind r) (r_nbstored r);
  c ← arr hf (r_vals r) (r_nbstored r * (bs * bs));
  d ← arr hi (r_diagind r) (r_nbrows r);
  e ← arr hi (r_browendptr r) (r_nbrows r);
  Some (SR a b c d e (r_nbrows r) (r_nnzb r) (r_nbstored r)).
