(** * Reorder: reordering and scaling matrices and vectors
      (src/reorderingscaling.cpp, include/reorderingscaling.hpp) *)
From Verif Require Import Base Alg SRMatrix Async Nd Helpers IluApply.

(** include/reorderingscaling.hpp:28-31 *)
Inductive RSApplyMode := FORWARD | INVERSE.
Inductive RSApplyDir := ROW | COLUMN.

(** src/reorderingscaling.cpp:32-39 invertPermutationVector. [invp(p.size())] is zeroed. *)
Definition invertPermutationVector (p : list nat) : res (list nat) :=
  for_ 0 (length p) (fun i invp =>
    let! pi := get p i in set invp pi i) (replicate (length p) 0).

(** data members of Reordering, include/reorderingscaling.hpp:89-98 *)
Record ordering := Ordering { o_rp : list nat; o_cp : list nat; o_irp : list nat; o_icp : list nat }.
(** after construction: src/reorderingscaling.cpp:41-43 *)
Definition ordering_new : ordering := Ordering [] [] [] [].
(** [v.resize(n)] of a std::vector<index> *)
Definition vresize (n : nat) (v : list nat) : list nat := take n v ++ replicate (n - length v) 0.
(** the two halves of src/reorderingscaling.cpp:49-73 setOrdering *)
Definition set_half (ord p ip : list nat) (len : nat) : res (list nat * list nat) :=
  let! p := for_ 0 len (fun i p => let! a := get ord i in set p i a) (vresize len p) in
  let! ip := for_ 0 len (fun i ip => let! a := get ord i in set ip a i) (vresize len ip) in
  Ok (p, ip).
(** src/reorderingscaling.cpp:49-73 setOrdering; a null pointer is [None] *)
Definition setOrdering (rord cord : option (list nat)) (len : nat) (o : ordering) : res ordering :=
  let! o := match rord with
            | None => Ok o
            | Some r => let! (p, ip) := set_half r (o_rp o) (o_irp o) len in
                        Ok (Ordering p (o_cp o) ip (o_icp o))
            end in
  match cord with
  | None => Ok o
  | Some c => let! (p, ip) := set_half c (o_cp o) (o_icp o) len in
              Ok (Ordering (o_rp o) p (o_irp o) ip)
  end.
(** include/reorderingscaling.hpp:58-64 isRowReordering *)
Definition isRowReordering (o : ordering) : bool :=
  (0 <? length (o_rp o)) && (length (o_irp o) =? length (o_rp o)).

Section Reorder.
  Context {F : Type} {O : SOps F}.
  Implicit Type M : srmat F.
  Variable bs : nat.
  Notation bb := (bs * bs).

  (** [for(k = 0; k < bs*bs; k++) dst[d*bs*bs+k] = src[s*bs*bs+k]] *)
  Definition copyblk (src dst : list F) (s d : nat) : res (list F) :=
    for_ 0 bb (fun k dst => let! v := get src (s * bb + k) in set dst (d * bb + k) v) dst.
  Definition with_arrays M (rptr cind : list nat) (v : list F) : srmat F :=
    SR rptr cind v (diagind M) (browendptr M) (nbrows M) (nnzb M) (nbstored M).

  (** src/reorderingscaling.cpp:80-112: forward, rows; [p] is the row permutation.
      The assert at 100 is not modelled (for a permutation it holds). *)
  Definition forward_rows (p : list nat) M : res (srmat F) :=
    let! total := get (browptr M) (nbrows M) in
    let! temprptr := set (replicate (nbrows M + 1) 0) (nbrows M) total in
    let! (tempval, tempcind, temprptr, pos) :=
      for_ 0 (nbrows M) (fun i '(tempval, tempcind, temprptr, pos) =>
        let! ni := get p i in
        let! temprptr := set temprptr i pos in
        let! lo := get (browptr M) ni in
        let! hi := get (browptr M) (ni + 1) in
        let! (tempval, tempcind, pos) := for_ lo hi (fun jj '(tempval, tempcind, pos) =>
          let! c := get (bcolind M) jj in
          let! tempcind := set tempcind pos c in
          let! tempval := copyblk (vals M) tempval jj pos in
          Ok (tempval, tempcind, pos + 1)) (tempval, tempcind, pos) in
        Ok (tempval, tempcind, temprptr, pos)) (replicate (total * bb) s0, replicate total 0, temprptr, 0) in
    let! rptr := for_ 0 (nbrows M) (fun i rptr => let! a := get temprptr i in set rptr i a) (browptr M) in
    let! (cind, v) := for_ 0 pos (fun jj '(cind, v) =>
      let! c := get tempcind jj in
      let! cind := set cind jj c in
      let! v := copyblk tempval v jj jj in
      Ok (cind, v)) (bcolind M, vals M) in
    Ok (with_arrays M rptr cind v).
  (** src/reorderingscaling.cpp:114-133 and 176-196: rename the columns with [ip] (the
      inverse permutation forwards, the permutation backwards) and sort each row *)
  Definition rename_cols (ip : list nat) M : nd (srmat F) :=
    ndo (cind, v) := par_for 0 (nbrows M) (fun i '(cind, v) =>
      let! lo := get (browptr M) i in
      let! hi := get (browptr M) (i + 1) in
      let rsize := hi - lo in
      let! ocinds := mapr (get cind) (range lo hi) in
      let! cind := for_ 0 rsize (fun jj cind =>
        let! oc := get ocinds jj in let! c := get ip oc in set cind (lo + jj) c) cind in
      sort_inner bb rsize lo (cind, v)) (bcolind M, vals M) in
    nret (with_arrays M (browptr M) cind v).
  (** src/reorderingscaling.cpp:138-174: inverse, rows. A row under construction is a
      list of column-block pairs; the assert at 149 is not modelled. *)
  Definition inverse_rows (p : list nat) M : res (srmat F) :=
    let! brows := for_ 0 (nbrows M) (fun i brows =>
      let! destr := get p i in
      let! lo := get (browptr M) i in
      let! hi := get (browptr M) (i + 1) in
      let! row := mapr (fun jj =>
        let! c := get (bcolind M) jj in
        let! b := mapr (fun k => get (vals M) (jj * bb + k)) (seq 0 bb) in
        Ok (c, b)) (range lo hi) in
      set brows destr row) (replicate (nbrows M) []) in
    let! rptr := set (browptr M) 0 0 in
    let! (rptr, cind, v) := for_ 0 (nbrows M) (fun i '(rptr, cind, v) =>
      let! row := get brows i in
      let! lo := get rptr i in
      let! rptr := set rptr (i + 1) (length row + lo) in
      let! (cind, v) := for_ lo (length row + lo) (fun jj '(cind, v) =>
        let! (c, b) := get row (jj - lo) in
        let! cind := set cind jj c in
        let! v := for_ 0 bb (fun k v => let! x := get b k in set v (jj * bb + k) x) v in
        Ok (cind, v)) (cind, v) in
      Ok (rptr, cind, v)) (rptr, bcolind M, vals M) in
    Ok (with_arrays M rptr cind v).
  (** src/reorderingscaling.cpp:75-198 applyOrdering(matrix) *)
  Definition applyOrdering_mat (o : ordering) (mode : RSApplyMode) M : nd (srmat F) :=
    match mode with
    | FORWARD =>
        ndo M := if 0 <? length (o_rp o) then nlift (forward_rows (o_rp o) M) else nret M in
        if 0 <? length (o_cp o) then rename_cols (o_icp o) M else nret M
    | INVERSE =>
        ndo M := if 0 <? length (o_rp o) then nlift (inverse_rows (o_rp o) M) else nret M in
        if 0 <? length (o_cp o) then rename_cols (o_cp o) M else nret M
    end.
  (** src/reorderingscaling.cpp:203-252 applyOrdering(vector) *)
  Definition applyOrdering_vec (o : ordering) (mode : RSApplyMode) (dir : RSApplyDir) (vec : list F) : nd (list F) :=
    let p := match dir with ROW => o_rp o | COLUMN => o_cp o end in
    let size := length p in
    if size =? 0 then nret vec else
    ndo tv := vcopy (size * bs) vec (replicate (size * bs) s0) in
    par_for 0 size (fun i vec =>
      for_ 0 bs (fun k vec =>
        let! pi := get p i in
        match mode with
        | FORWARD => let! a := get tv (pi * bs + k) in set vec (i * bs + k) a
        | INVERSE => let! a := get tv (i * bs + k) in set vec (pi * bs + k) a
        end) vec) vec.

  (** data members rowscale and colscale, include/reorderingscaling.hpp:129-132 *)
  Record scaling := Scaling { rowscale : list F; colscale : list F }.
  (** multiply (forward) or divide (inverse) *)
  Definition scale_op (mode : RSApplyMode) (x s : F) : F :=
    match mode with FORWARD => (x * s)%s | INVERSE => (x / s)%s end.
  (** src/reorderingscaling.cpp:267-322 applyScaling(matrix) *)
  Definition applyScaling_mat (sc : scaling) (mode : RSApplyMode) M : nd (srmat F) :=
    ndo v := if 0 <? length (rowscale sc) then
        par_for 0 (nbrows M) (fun irow v =>
          let! s := get (rowscale sc) irow in
          let! lo := get (browptr M) irow in
          let! hi := get (browptr M) (irow + 1) in
          for_ lo hi (fun jj v => for_ 0 bb (fun k v =>
            let! x := get v (jj * bb + k) in set v (jj * bb + k) (scale_op mode x s)) v) v) (vals M)
      else nret (vals M) in
    ndo v := if 0 <? length (colscale sc) then
        par_for 0 (nbrows M) (fun irow v =>
          let! lo := get (browptr M) irow in
          let! hi := get (browptr M) (irow + 1) in
          for_ lo hi (fun jj v =>
            let! c := get (bcolind M) jj in
            let! s := get (colscale sc) c in
            for_ 0 bb (fun k v =>
              let! x := get v (jj * bb + k) in set v (jj * bb + k) (scale_op mode x s)) v) v) v
      else nret v in
    nret (with_arrays M (browptr M) (bcolind M) v).
  (** src/reorderingscaling.cpp:324-368 applyScaling(vector) *)
  Definition applyScaling_vec (sc : scaling) (mode : RSApplyMode) (dir : RSApplyDir) (vec : list F) : nd (list F) :=
    let s := match dir with ROW => rowscale sc | COLUMN => colscale sc end in
    if 0 <? length s then
      par_for 0 (length s) (fun i vec =>
        for_ 0 bs (fun k vec =>
          let! x := get vec (i * bs + k) in
          let! si := get s i in
          set vec (i * bs + k) (scale_op mode x si)) vec) vec
    else nret vec.
  (** src/blockmatrices.ipp:415-430 reorderScale *)
  Definition reorderScale (o : ordering) (sc : scaling) (mode : RSApplyMode) M : nd (srmat F) :=
    match mode with
    | FORWARD => ndo M := applyScaling_mat sc mode M in applyOrdering_mat o mode M
    | INVERSE => ndo M := applyOrdering_mat o mode M in applyScaling_mat sc mode M
    end.
End Reorder.
Arguments Scaling {F}. Arguments rowscale {F}. Arguments colscale {F}.
