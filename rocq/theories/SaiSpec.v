(** * SaiSpec: what the sparse approximate inverse is meant to be

    Row i of the approximate inverse M has the pattern of row i of A. Its unknowns are the columns of row i of A; its equations are the columns
    of (M A) in which it can be non-zero (full) or its own pattern (incomplete). *)
From Coq Require Import ZArith Sorting.Sorted.
From Verif Require Import Base Alg SRMatrix PropTriView Sai.
Local Open Scope nat_scope.

Section Pattern.
  Context {A : Type} (V : srmat A).
  (** row i is stored from browptr i up to browendptr i *)
  Definition wf_view : Prop :=
    nbrows V <= length (browptr V) /\ nbrows V <= length (browendptr V) /\
    (forall i, i < nbrows V -> browptr V !!! i <= browendptr V !!! i <= length (bcolind V)) /\
    (forall i j, i < nbrows V -> j ∈ vrange V i -> bcolind V !!! j < nbrows V).
  (** the columns of a row, as stored *)
  Definition unknowns (i : nat) : list nat := (fun j => bcolind V !!! j) <$> vrange V i.
  Definition nodup_rows : Prop := forall i, i < nbrows V -> NoDup (unknowns i).
  Definition diag_present : Prop := forall i, i < nbrows V -> i ∈ unknowns i.
  (** the equations of row [i] of a full approximate inverse, in increasing order *)
  Definition full_equations (i : nat) (E : list nat) : Prop :=
    StronglySorted lt E /\ forall c, c ∈ E <-> exists u, u ∈ unknowns i /\ c ∈ unknowns u.

  (** [sp] describes the small systems with equations [E i]: the sizes, the equation of the diagonal, and for the [q]-th unknown, the entries
      of its row of A that occur in the equations, with the number of the equation *)
  Record describes (E : nat -> list nat) (sp : saipat) : Prop := {
    sp_nvars : forall i, i < nbrows V -> nVars sp !! i = Some (length (unknowns i));
    sp_neqns : forall i, i < nbrows V -> nEqns sp !! i = Some (length (E i));
    sp_central : forall i, i < nbrows V -> i ∈ E i -> exists z, localCentralRow sp !! i = Some (Z.of_nat z) /\ E i !! z = Some i;
    sp_column : forall i q j, i < nbrows V -> vrange V i !! q = Some j -> exists s f (l : list (nat * nat)),
      sairowptr sp !! i = Some s /\ bcolptr sp !! (s + q) = Some f /\ bcolptr sp !! (s + q + 1) = Some (f + length l) /\
      l.*1 = filter (fun k => bcolind V !!! k ∈ E i) (vrange V (bcolind V !!! j)) /\
      forall t k z, l !! t = Some (k, z) ->
        bpos sp !! (f + t) = Some k /\ browind sp !! (f + t) = Some (Z.of_nat z) /\ E i !! z = Some (bcolind V !!! k);
    (** the systems fill the arrays one after the other *)
    sp_first : sairowptr sp !! 0 = Some 0 /\ bcolptr sp !! 0 = Some 0;
    sp_next : forall i s, i < nbrows V -> sairowptr sp !! i = Some s -> sairowptr sp !! (i + 1) = Some (s + length (unknowns i));
    sp_total : exists e, sairowptr sp !! nbrows V = Some e /\ length (bcolptr sp) = e + 1 /\ bcolptr sp !! e = Some (length (bpos sp)) /\
      length (browind sp) = length (bpos sp) }.
End Pattern.

Section System.
  Context {F : Type} {O : SOps F}.
  (** entry of a dense matrix *)
  Definition lent (m : lmat F) (r c : nat) : F := default s0 (ldata m !! (r + c * lrows m)).
  Definition lwf (m : lmat F) (r c : nat) : Prop := lrows m = r /\ lcols m = c /\ length (ldata m) = r * c.
  (** the small system of row [i]: the transposed restriction of A to unknowns and equations, and columns [i] of the identity *)
  Definition is_lhs (so : storage) (bs : nat) (V : srmat F) (E : list nat) (i : nat) (L : lmat F) : Prop :=
    lwf L (length E * bs) (length (unknowns V i) * bs) /\
    forall q u z e a b, unknowns V i !! q = Some u -> E !! z = Some e -> a < bs -> b < bs ->
      lent L (z * bs + b) (q * bs + a) = vdense so bs V (u * bs + a) (e * bs + b).
  Definition is_rhs (bs : nat) (E : list nat) (i : nat) (R : lmat F) : Prop :=
    lwf R (length E * bs) bs /\
    forall z e a b, E !! z = Some e -> a < bs -> b < bs -> lent R (z * bs + b) a = if decide (e = i /\ b = a) then s1 else s0.
  (** a solver returning a matrix of the right size *)
  Definition right_size (solve : lmat F -> lmat F -> lmat F) : Prop :=
    forall L R r c k, lwf L r c -> lwf R r k -> lwf (solve L R) c k.
  (** entry (I,J) of (M A), for [N] columns *)
  Definition prod (so : storage) (bs N : nat) (M V : srmat F) (I J : nat) : F :=
    bsum N (fun K => (vdense so bs M I K * vdense so bs V K J)%s).
  Definition delta (I J : nat) : F := if decide (I = J) then s1 else s0.
End System.
