(** * ColMat: column storage (include/scmatrixdefs.hpp, src/scmatrix.cpp, bcsc_gemv3 in
      src/blas/matvecs.cpp, CSC_BGS_Preconditioner in src/solverops_sgs.cpp) and column
      adjacency lists (src/adjacency.cpp) *)
From Verif Require Import Base Alg SRMatrix Nd Matvec Helpers Sgs Reorder.
From Coq Require Import ZArith.
Open Scope nat_scope.

(** include/scmatrixdefs.hpp:14-33 RawBSCMatrix. A column without diagonal entry has the
    diagonal index -1. *)
Record bscmat (F : Type) := BSC {
  bcolptr : list nat; browind : list nat; cvals : list F; cdiagind : list Z; nbcols : nat }.
Arguments BSC {F}. Arguments bcolptr {F}. Arguments browind {F}. Arguments cvals {F}. Arguments cdiagind {F}. Arguments nbcols {F}.

Section Convert.
  Context {F : Type}.
  Implicit Type M : srmat F.
  Variable bs : nat.
  Notation bb := (bs * bs).
  (** an entry of a column: row index and block (CSEntry, src/scmatrix.cpp:45) *)
  Notation entry := (nat * list F)%type.

  (** [std::sort] with the comparison of row indices (src/scmatrix.cpp:64-65): some
      permutation that is sorted; entries with equal row index may change places *)
  Definition std_sort (l : list entry) : nd (list entry) := fun o =>
    exists l', o = Ok l' /\ l' ≡ₚ l /\ forall i j a b, i < j -> l' !! i = Some a -> l' !! j = Some b -> fst a <= fst b.
  (** src/scmatrix.cpp:29-95 convert_BSR_to_BSC. [gp], [gi], [gv], [gd]: the initial
      contents of the four arrays allocated at 38-41. The assert at 87 is not modelled. *)
  Definition convert_BSR_to_BSC (gp gi : list nat) (gv : list F) (gd : list Z) M : nd (bscmat F) :=
    let N := nbrows M in
    ndo bnnz := nlift (get (browptr M) N) in
    (* 51-59 *)
    ndo cv := nlift (for_ 0 N (fun irow cv =>
      let! lo := get (browptr M) irow in
      let! hi := get (browptr M) (irow + 1) in
      for_ lo hi (fun jj cv =>
        let! bloc := mapr (fun i => get (vals M) (jj * bb + i)) (seq 0 bb) in
        let! c := get (bcolind M) jj in
        let! column := get cv c in
        set cv c (column ++ [(irow, bloc)])) cv) (replicate N [])) in
    (* 63-67 *)
    ndo cv := nfor 0 N (fun icol cv =>
      ndo column := nlift (get cv icol) in
      ndo column := std_sort column in
      nlift (set cv icol column)) cv in
    (* 70-85 *)
    ndo (p, ri, v, d, iz) := nlift (for_ 0 N (fun icol '(p, ri, v, d, iz) =>
      let! p := set p icol iz in
      let! d := set d icol (-1)%Z in
      let! column := get cv icol in
      for_ 0 (length column) (fun k '(p, ri, v, d, iz) =>
        let! (r, b) := get column k in
        let! ri := set ri iz r in
        let! v := for_ 0 bb (fun i v => let! x := get b i in set v (iz * bb + i) x) v in
        let! d := if icol =? r then set d icol (Z.of_nat iz) else Ok d in
        Ok (p, ri, v, d, iz + 1)) (p, ri, v, d, iz)) (gp, gi, gv, gd, 0)) in
    (* 88-94 *)
    ndo p := nlift (set p N bnnz) in
    nret (BSC p ri v d N).
  (** src/scmatrix.cpp:113-132 convert_BSR_to_BSC_1based *)
  Definition convert_BSR_to_BSC_1based (gp gi : list nat) (gv : list F) (gd : list Z) M : nd (bscmat F) :=
    ndo C := convert_BSR_to_BSC gp gi gv gd M in
    ndo p := nlift (for_ 0 (nbcols C + 1) (fun i p => let! a := get p i in set p i (a + 1)) (bcolptr C)) in
    ndo d := nlift (for_ 0 (nbcols C) (fun i d => let! a := get d i in set d i (a + 1)%Z) (cdiagind C)) in
    ndo bnnz := nlift (get (browptr M) (nbrows M)) in
    ndo ri := nlift (for_ 0 bnnz (fun i ri => let! a := get ri i in set ri i (a + 1)) (browind C)) in
    nret (BSC p ri (cvals C) d (nbcols C)).
End Convert.

(** The steps [l], all carried out, one after the other: *)
Fixpoint doall {U St} (l : list U) (step : U -> St -> res St) (s : St) : res St :=
  match l with [] => Ok s | u :: l' => let! s := step u s in doall l' step s end.
(** ... in any order (atomic updates made by several threads) *)
Definition any_order {U St} (l : list U) (step : U -> St -> res St) (s : St) : nd St :=
  fun o => exists l', l' ≡ₚ l /\ o = doall l' step s.

Section Product.
  Context {F : Type} {O : SOps F}.
  Variables (so : storage) (bs : nat).
  (** the atomic updates of src/blas/matvecs.cpp:123-136: column, position, row of the block *)
  Definition updates (C : bscmat F) : res (list (nat * nat * nat)) :=
    let! l := mapr (fun jcol =>
      let! lo := get (bcolptr C) jcol in
      let! hi := get (bcolptr C) (jcol + 1) in
      Ok (concat ((fun ii => (fun kb => (jcol, ii, kb)) <$> seq 0 bs) <$> range lo hi))) (seq 0 (nbcols C)) in
    Ok (concat l).
  (** src/blas/matvecs.cpp:112-142 bcsc_gemv3. The additions to entries of zz (131-134) are
      atomic and the threads share out the columns: the additions take place in some
      order. (Every order is admitted here, also those no schedule produces.)
      [y = None]: yy is the array zz. *)
  Definition bcsc_gemv3 (C : bscmat F) (a : F) (x : list F) (b : F) (y : option (list F)) (z : list F) : nd (list F) :=
    ndo z := par_for 0 (nbcols C * bs) (fun jb z =>
      let! yj := get (arg_y y z) jb in set z jb (b * yj)%s) z in
    ndo l := nlift (updates C) in
    any_order l (fun '(jcol, ii, kb) z =>
      let! irow := get (browind C) ii in
      let! inter := blk_times_seg so bs (fun v => a * v)%s (cvals C) x ii jcol in
      let! t := get inter kb in
      let! zi := get z (irow * bs + kb) in
      set z (irow * bs + kb) (zi + t)%s) z.
End Product.

Section BGS.
  Context {F : Type} {O : SOps F}.
  (** src/solverops_sgs.cpp:219-230 CSC_BGS_Preconditioner::compute *)
  Definition csc_bgs_compute (gdb : list F) (gp gi : list nat) (gv : list F) (gd : list Z) (M : srmat F)
      : nd (list F * bscmat F) :=
    ndo dblocks := jacobi_setup M gdb in
    ndo C := convert_BSR_to_BSC 1 gp gi gv gd M in
    nret (dblocks, C).
  (** the loop body at src/solverops_sgs.cpp:254-263, column [j] *)
  Definition csc_bgs_column (C : bscmat F) (dblocks : list F) (j : nat) '((temp, zz) : list F * list F) : res (list F * list F) :=
    let! t := get temp j in
    let! zz := set zz j t in
    let! d := get (cdiagind C) j in
    let! lo := get (bcolptr C) j in
    (* for(ii = d-1; ii >= lo; ii--): ii = lo + k, k counting down *)
    let! temp := forl (rev (range lo (Z.to_nat d))) (fun ii temp =>
      let! irow := get (browind C) ii in
      let! v := get (cvals C) ii in
      let! zj := get zz j in
      let! di := get dblocks irow in
      let! ti := get temp irow in
      set temp irow (ti - v * zj * di)%s) temp in
    Ok (temp, zz).
  (** src/solverops_sgs.cpp:232-268 CSC_BGS_Preconditioner::apply, each sweep running the
      columns in the given order (for one thread: from the last to the first). Runs in which
      columns overlap, or a sweep starts before another has ended, are not modelled.
      [temp]: the contents of the temporary after allocation. *)
  Definition csc_bgs_apply (C : bscmat F) (dblocks : list F) (orders : list (list nat)) (temp rr zz : list F) : nd (list F) :=
    let n := nbcols C in
    ndo temp := par_for 0 n (fun i temp => set temp i s0) temp in
    ndo (_, zz) := nfor 0 (length orders) (fun isweep '(temp, zz) =>
      ndo order := nlift (get orders isweep) in
      ndo temp := par_for 0 n (fun j temp =>
        let! r := get rr j in let! d := get dblocks j in set temp j (r * d)%s) temp in
      nlift (forl order (csc_bgs_column C dblocks) (temp, zz))) (temp, zz) in
    nret zz.
  (** one thread, napplysweeps sweeps *)
  Definition one_thread (C : bscmat F) (nsweeps : nat) : list (list nat) := replicate nsweeps (rev (seq 0 (nbcols C))).
  (** src/solverops_sgs.cpp:270-275 apply_relax *)
  Definition csc_bgs_apply_relax (rr zz : list F) : nd (list F) := nlift (Throw "CSC_BGS relaxation not implemented!").
End BGS.

Section Adjacency.
  Context {F : Type}.
  (** data members of ColumnAdjacency (src/adjacency.hpp:34-42) *)
  Record coladj := ColAdj { ca_ptrs : list nat; ca_col_rows : list nat; ca_rows_loc : list nat }.
  (** src/adjacency.cpp:31-62 ColumnAdjacency::compute; [old]: the state before (new objects
      have empty vectors) *)
  Definition coladj_compute (M : srmat F) (old : coladj) : res coladj :=
    let n := nbrows M in
    let ptrs := replicate (n + 1) 0 in
    let! total := get (browptr M) n in
    let col_rows := vresize total (ca_col_rows old) in
    let rows_loc := vresize total (ca_rows_loc old) in
    let! ptrs := for_ 0 total (fun jj ptrs =>
      let! c := get (bcolind M) jj in
      let! a := get ptrs (c + 1) in
      set ptrs (c + 1) (a + 1)) ptrs in
    let! front := get ptrs 0 in
    if negb (front =? 0) then Throw "Wrong sizes!" else
    let! ptrs := inclusive_scan ptrs in
    let! back := get ptrs n in
    if negb (back =? total) then Throw "Wrong pointer list!" else
    let! (col_rows, rows_loc, _) := for_ 0 n (fun irow s =>
      let! lo := get (browptr M) irow in
      let! hi := get (browptr M) (irow + 1) in
      for_ lo hi (fun jj '(col_rows, rows_loc, colfill) =>
        let! c := get (bcolind M) jj in
        let! p := get ptrs c in
        let! f := get colfill c in
        let! col_rows := set col_rows (p + f) irow in
        let! rows_loc := set rows_loc (p + f) jj in
        let! colfill := set colfill c (f + 1) in
        Ok (col_rows, rows_loc, colfill)) s) (col_rows, rows_loc, replicate n 0) in
    Ok (ColAdj ptrs col_rows rows_loc).
End Adjacency.
