(** * TripleSpec: how many products an ILU(0) factorisation of a matrix has

    A specification, independent of the code: entry (i,c) of L+U is
    a(i,c) minus the sum over t < min(i,c) of l(i,t) u(t,c), so a product belongs to
    each (i,t,c) for which all three entries are stored. *)
From Verif Require Import Base SRMatrix.

(** entry (i,c) is stored *)
Definition stored {A} (M : srmat A) (i c : nat) : Prop :=
  c ∈ (col M <$> range (rp M i) (rp M (i + 1))).
Global Instance stored_dec {A} (M : srmat A) i c : Decision (stored M i c).
Proof. unfold stored. apply _. Defined.
(** all (i,t,c) with t < i < n and t < c < n *)
Definition all_triples (n : nat) : list (nat * nat * nat) :=
  t ← seq 0 n; i ← range (t + 1) n; c ← range (t + 1) n; [(i, t, c)].
Definition triples {A} (M : srmat A) : list (nat * nat * nat) :=
  filter (fun x => stored M x.1.1 x.1.2 /\ stored M x.1.2 x.2 /\ stored M x.1.1 x.2) (all_triples (nbrows M)).
Definition ntriples {A} (M : srmat A) : nat := length (triples M).

(** every entry is stored, row by row *)
Definition dense {A} (n : nat) (v : list A) : srmat A :=
  SR ((fun i => i * n) <$> seq 0 (n + 1)) ((fun j => j mod n) <$> seq 0 (n * n)) v
     ((fun i => i * n + i) <$> seq 0 n) ((fun i => (i + 1) * n) <$> seq 0 n) n (n * n) (n * n).
