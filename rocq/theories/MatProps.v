(** * MatProps: diagonal dominance and the maximum norm (src/matrix_properties.cpp, src/blas/blas1.cpp) *)
From Verif Require Import Base Alg SRMatrix Nd Reduction.

Section MatProps.
  (** [sabs], [slt]: std::abs and the comparison <; [snat]: conversion of an integer *)
  Context {F : Type} {O : SOps F} (sabs : F -> F) (slt : F -> F -> bool) (snat : nat -> F).
  (** src/matrix_properties.cpp:31-34 ([skip]), 39-41, 47-49: the magnitudes of the entries of block [jj], added up by rows *)
  Definition add_block (so : storage) (bs : nat) (skip : bool) (mat : srmat F) (jj : nat) (rowdd : list F) : res (list F) :=
    for_ 0 bs (fun i r => for_ 0 bs (fun j r =>
      if skip && (i =? j) then Ok r else
      let! a := get (vals mat) (jj * (bs * bs) + lay so bs i j) in
      let! x := get r i in
      set r i (x + sabs a)%s) r) rowdd.
  (** uddavg, uddmin, lddavg, lddmin *)
  Definition dd : Type := F * F * F * F.
  (** src/matrix_properties.cpp:21-73, the body of the loop. The arrays of the row start with zeros, 22-25. [big] is 1e30. *)
  Definition dd_row (so : storage) (bs : nat) (big : F) (mat : srmat F) (irow : nat) (s : dd) : res dd :=
    let '(uddavg, uddmin, lddavg, lddmin) := s in
    let! diagp := get (diagind mat) irow in
    let! rowddu := add_block so bs true mat diagp (replicate bs s0) in
    let! e := get (browendptr mat) irow in
    let! rowddu := for_ (diagp + 1) e (fun jj r => add_block so bs false mat jj r) rowddu in
    let! b := get (browptr mat) irow in
    let! rowddl := for_ b diagp (fun jj r => add_block so bs false mat jj r) (replicate bs s0) in
    (* 52-55 *)
    let! (rowddl, rowddu) := for_ 0 bs (fun i r =>
      let '(rowddl, rowddu) := r in
      let! x := get rowddl i in
      let! rowddl := set rowddl i (s1 - x)%s in
      let! y := get rowddu i in
      let! d := get (vals mat) (diagp * (bs * bs) + lay so bs i i) in
      let! rowddu := set rowddu i (s1 - y / sabs d)%s in
      Ok (rowddl, rowddu)) (rowddl, rowddu) in
    (* 57-66 *)
    let! (uavg_blk, umin_blk, lavg_blk, lmin_blk) := for_ 0 bs (fun i r =>
      let '(uavg_blk, umin_blk, lavg_blk, lmin_blk) := r in
      let! u := get rowddu i in
      let! l := get rowddl i in
      Ok ((uavg_blk + u)%s, if slt u umin_blk then u else umin_blk, (lavg_blk + l)%s, if slt l lmin_blk then l else lmin_blk))
      (s0, big, s0, big) in
    Ok ((uddavg + uavg_blk)%s, if slt umin_blk uddmin then umin_blk else uddmin,
        (lddavg + lavg_blk)%s, if slt lmin_blk lddmin then lmin_blk else lddmin).
  Definition dd_comb (x y : dd) : dd :=
    let '(ua, um, la, lm) := x in
    let '(ua', um', la', lm') := y in
    ((ua + ua')%s, if slt um' um then um' else um, (la + la')%s, if slt lm' lm then lm' else lm).
  (** src/matrix_properties.cpp:10-77 diagonal_dominance. [top]: the identity of the min reduction, the largest number *)
  Definition diagonal_dominance (so : storage) (bs : nat) (big top : F) (mat : srmat F) : nd (F * F * F * F) :=
    ndo (uddavg, uddmin, lddavg, lddmin) := reduce_for (s0, top, s0, top) dd_comb 0 (nbrows mat) (dd_row so bs big mat) (s0, big, s0, big) in
    let n := snat (nbrows mat * bs) in
    nret ((lddavg / n)%s, lddmin, (uddavg / n)%s, uddmin).

  (** src/blas/blas1.cpp:12-24 maxnorm. [tiny]: numeric_limits::min(), [bottom]: the identity of the max reduction *)
  Definition maxnorm (tiny bottom : F) (vec : list F) : nd F :=
    reduce_for bottom (fun x y => if slt x y then y else x) 0 (length vec) (fun i smax =>
      let! a := get vec i in Ok (if slt smax (sabs a) then sabs a else smax)) tiny.
End MatProps.
