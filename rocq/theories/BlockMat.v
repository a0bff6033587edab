(** * BlockMat: the matrix classes BSRMatrix<scalar,index,bs> and BSRMatrix<scalar,index,1>
    (src/blockmatrices.ipp)

    Messages on the terminal are not modelled. *)
From Verif Require Import Base Alg SRMatrix Nd Coo ColMat.
From Coq Require Import ZArith.
Open Scope nat_scope.

Section Construct.
  Context {F : Type} {O : SOps F}.
  (** src/blockmatrices.ipp:178-196 (block constructor), 279-297 (block setStructure), 466-482
      (scalar constructor), 570-587 (scalar setStructure): new arrays from a pattern, [n] being the value of mat.nbrows. [gp], ...:
      contents of the new arrays. The search of the diagonal block leaves at the first hit: [find_from]. *)
  Definition pattern_arrays (bs : nat) (gp gi gd : nat -> nat) (gv : nat -> F) (n : nat) (bcinds brptrs : list nat)
      : res (list nat * list nat * list nat * list F) :=
    let! nnz := get brptrs n in
    let! p := for_ 0 (n + 1) (fun i p => let! a := get brptrs i in set p i a) (alloc gp (n + 1)) in
    let! c := for_ 0 nnz (fun i c => let! a := get bcinds i in set c i a) (alloc gi nnz) in
    let! d := for_ 0 n (fun irow d =>
      let! lo := get p irow in
      let! hi := get p (irow + 1) in
      let! it := find_from irow (hi - lo) lo c in
      match it with Some j => set d irow j | None => Ok d end) (alloc gd n) in
    Ok (p, c, d, alloc gv (nnz * (bs * bs))).
  (** src/blockmatrices.ipp:271-302 BSRMatrix<bs>::setStructure, 563-592 BSRMatrix<1>::setStructure; [old]: the
      object before the call, whose row ends stay if the new matrix has no rows *)
  Definition setStructure (bs : nat) (gp gi gd : nat -> nat) (gv : nat -> F) (old : srmat F) (n_brows : nat) (bcinds brptrs : list nat)
      : res (srmat F) :=
    let! nnz := get brptrs n_brows in
    let! (p, c, d, v) := pattern_arrays bs gp gi gd gv n_brows bcinds brptrs in
    Ok (SR p c v d (if 0 <? n_brows then take n_brows (drop 1 p) else browendptr old) n_brows nnz nnz).
  (** a storage as made by the default constructor, src/rawsrmatrixutils.cpp:29-31 *)
  Definition sr_null : srmat F := SR [] [] [] [] [] 0 0 0.
  (** src/blockmatrices.ipp:459-489 BSRMatrix<1>::BSRMatrix(n_brows, bcinds, brptrs) *)
  Definition csr_from_pattern (gp gi gd : nat -> nat) (gv : nat -> F) (n_brows : nat) (bcinds brptrs : list nat) : res (srmat F) :=
    let! (p, c, d, v) := pattern_arrays 1 gp gi gd gv n_brows bcinds brptrs in
    let! nnz := get brptrs n_brows in
    Ok (SR p c v d (if 0 <? n_brows then take n_brows (drop 1 p) else []) n_brows nnz nnz).
  (** src/blockmatrices.ipp:173-201 BSRMatrix<bs>::BSRMatrix(n_brows, bcinds, brptrs): works with mat.nbrows, which is
      still the 0 of the default constructor, and does not set the counts *)
  Definition bsr_from_pattern (bs : nat) (gp gi gd : nat -> nat) (gv : nat -> F) (n_brows : nat) (bcinds brptrs : list nat) : res (srmat F) :=
    let M := sr_null in
    let! (p, c, d, v) := pattern_arrays bs gp gi gd gv (nbrows M) bcinds brptrs in
    Ok (SR p c v d (if 0 <? nbrows M then take (nbrows M) (drop 1 p) else browendptr M) (nbrows M) (nnzb M) (nbstored M)).
  (** src/blockmatrices.ipp:203-209 BSRMatrix<bs> around existing arrays; the views SRMatrixView,
      src/blockmatrices.ipp:84-93, are the same *)
  Definition bsr_wrap (n_brows : nat) (brptrs bcinds : list nat) (values : list F) (diaginds : list nat) : res (srmat F) :=
    let! nnz := get brptrs n_brows in
    Ok (SR brptrs bcinds values diaginds (if 0 <? n_brows then take n_brows (drop 1 brptrs) else []) n_brows nnz nnz).
  (** src/blockmatrices.ipp:491-504 BSRMatrix<1> around existing arrays *)
  Definition csr_wrap (nrows : nat) (brptrs bcinds : list nat) (values : list F) (diaginds : list nat) : res (srmat F) :=
    let! nnz := get brptrs (nrows + 1) in
    Ok (SR brptrs bcinds values diaginds (take nrows (drop 1 brptrs)) nrows nnz nnz).
  (** src/blockmatrices.ipp:231-259, 527-551: the copy constructors, blocks of size [bs] resp. 1. (The
      scalar one sizes three of its arrays like those of the other matrix, which are the same sizes if the other is well-formed.) *)
  Definition copy_construct (bs : nat) (gp gi gd : nat -> nat) (gv : nat -> F) (other : srmat F) : res (srmat F) :=
    let n := nbrows other in
    let! nnz := get (browptr other) n in
    let! p := for_ 0 (n + 1) (fun i p => let! a := get (browptr other) i in set p i a) (alloc gp (n + 1)) in
    let! nnz' := get p n in
    let! (c, v) := for_ 0 nnz' (fun i s =>
      let! a := get (bcolind other) i in
      let '(c, v) := s in
      let! c := set c i a in
      let! v := for_ 0 (bs * bs) (fun k v => let! x := get (vals other) (i * (bs * bs) + k) in set v (i * (bs * bs) + k) x) v in
      Ok (c, v)) (alloc gi nnz, alloc gv (nnz * (bs * bs))) in
    let! d := for_ 0 n (fun irow d => let! a := get (diagind other) irow in set d irow a) (alloc gd n) in
    Ok (SR p c v d (if 0 <? n then take n (drop 1 p) else []) n (nnzb other) (nbstored other)).
End Construct.

Section Values.
  Context {F : Type} {O : SOps F}.
  Implicit Type M : srmat F.
  Definition with_vals M (v : list F) : srmat F :=
    SR (browptr M) (bcolind M) v (diagind M) (browendptr M) (nbrows M) (nnzb M) (nbstored M).
  (** src/blockmatrices.ipp:304-312 BSRMatrix<bs>::setAllZero *)
  Definition bsr_setAllZero (bs : nat) M : nd (srmat F) :=
    ndo v := par_for 0 (nnzb M * bs * bs) (fun i v => set v i s0) (vals M) in nret (with_vals M v).
  (** src/blockmatrices.ipp:594-600 BSRMatrix<1>::setAllZero *)
  Definition csr_setAllZero M : nd (srmat F) :=
    ndo nnz := nlift (get (browptr M) (nbrows M)) in
    ndo v := par_for 0 nnz (fun i v => set v i s0) (vals M) in nret (with_vals M v).
  (** src/blockmatrices.ipp:314-324 BSRMatrix<bs>::setDiagZero, 602-608 BSRMatrix<1>::setDiagZero (bs = 1) *)
  Definition setDiagZero (bs : nat) M : nd (srmat F) :=
    ndo v := par_for 0 (nbrows M) (fun irow v =>
      let! d := get (diagind M) irow in
      for_ (d * (bs * bs)) ((d + 1) * (bs * bs)) (fun jj v => set v jj s0) v) (vals M) in nret (with_vals M v).
  (** src/blockmatrices.ipp:380-390 BSRMatrix<bs>::scaleAll *)
  Definition bsr_scaleAll (bs : nat) (factor : F) M : nd (srmat F) :=
    ndo v := par_for 0 (nnzb M) (fun iz v =>
      for_ 0 (bs * bs) (fun k v => let! x := get v (iz * bs * bs + k) in set v (iz * bs * bs + k) (x * factor)%s) v) (vals M) in
    nret (with_vals M v).
  (** src/blockmatrices.ipp:687-695 BSRMatrix<1>::scaleAll *)
  Definition csr_scaleAll (factor : F) M : nd (srmat F) :=
    ndo nnz := nlift (get (browptr M) (nbrows M)) in
    ndo v := par_for 0 nnz (fun iz v => let! x := get v iz in set v iz (x * factor)%s) (vals M) in
    nret (with_vals M v).
End Values.

(** ** Assembly *)
Section Assembly.
  Context {F : Type} {O : SOps F}.
  Implicit Type M : srmat F.
  (** one addition to (resp. one assignment of) an entry of the value array; the additions are atomic *)
  Definition add1 (u : nat * F) (v : list F) : res (list F) :=
    let! x := get v u.1 in set v u.1 (x + u.2)%s.
  Definition put1 (u : nat * F) (v : list F) : res (list F) := set v u.1 u.2.
  (** the bs*bs entries of the block at position [j] and those of [buffer] *)
  Definition block_steps (bs j : nat) (buffer : list F) : res (list (nat * F)) :=
    mapr (fun k => let! b := get buffer k in Ok (j * (bs * bs) + k, b)) (seq 0 (bs * bs)).
  (** src/blockmatrices.ipp:358-378 BSRMatrix<bs>::updateBlock (rows up to [browptr[startr+1]]): the additions it makes, in order *)
  Definition updateBlock_steps (bs : nat) M (starti startj : nat) (buffer : list F) : res (list (nat * F)) :=
    let startr := starti / bs in
    let startc := startj / bs in
    let! lo := get (browptr M) startr in
    let! hi := get (browptr M) (startr + 1) in
    let! l := mapr (fun j => let! c := get (bcolind M) j in
      if c =? startc then block_steps bs j buffer else Ok []) (range lo hi) in
    Ok (concat l).
  (** src/blockmatrices.ipp:326-344 BSRMatrix<bs>::submitBlock (rows up to [browendptr[startr]]): the assignments *)
  Definition submitBlock_steps (bs : nat) M (starti startj : nat) (buffer : list F) : res (list (nat * F)) :=
    let startr := starti / bs in
    let startc := startj / bs in
    let! lo := get (browptr M) startr in
    let! hi := get (browendptr M) startr in
    let! l := mapr (fun j => let! c := get (bcolind M) j in
      if c =? startc then block_steps bs j buffer else Ok []) (range lo hi) in
    Ok (concat l).
  Definition submitBlock (bs : nat) M (starti startj : nat) (buffer : list F) : res (srmat F) :=
    let! l := submitBlock_steps bs M starti startj buffer in
    let! v := doall l put1 (vals M) in Ok (with_vals M v).
  (** src/blockmatrices.ipp:346-356 BSRMatrix<bs>::updateDiagBlock *)
  Definition updateDiagBlock_steps (bs : nat) M (starti : nat) (buffer : list F) : res (list (nat * F)) :=
    let! pos := get (diagind M) (starti / bs) in
    block_steps bs pos buffer.

  (** src/blockmatrices.ipp:618-633, 667-683: one row of the scalar submitBlock and updateBlock, the
      positions [l] of the row remaining. [stride] is the factor of the local row number in the index of the buffer. *)
  Fixpoint row_steps M (startj bsj stride locrow : nat) (buffer : list F) (l : list nat) (k : nat) : res (list (nat * F)) :=
    match l with
    | [] => Ok []
    | jj :: l =>
        let! c := get (bcolind M) jj in
        if c <? startj then row_steps M startj bsj stride locrow buffer l k
        else if k =? bsj then Ok []
        else let! b := get buffer (locrow * stride + k) in
             let! r := row_steps M startj bsj stride locrow buffer l (k + 1) in
             Ok ((jj, b) :: r)
    end.
  Definition rows_steps M (starti startj bsi bsj stride : nat) (buffer : list F) : res (list (nat * F)) :=
    let! l := mapr (fun irow =>
      let! lo := get (browptr M) irow in
      let! hi := get (browptr M) (irow + 1) in
      row_steps M startj bsj stride (irow - starti) buffer (range lo hi) 0) (range starti (starti + bsi)) in
    Ok (concat l).
  (** src/blockmatrices.ipp:613-635 BSRMatrix<1>::submitBlock: buffer[locrow*bsj+k] *)
  Definition submitBlock1 M (starti startj : nat) (buffer : list F) (bsi bsj : nat) : res (srmat F) :=
    let! l := rows_steps M starti startj bsi bsj bsj buffer in
    let! v := doall l put1 (vals M) in Ok (with_vals M v).
  (** src/blockmatrices.ipp:662-685 BSRMatrix<1>::updateBlock: buffer[locrow*bsi+k] *)
  Definition updateBlock1_steps M (starti startj : nat) (buffer : list F) (bsi bsj : nat) : res (list (nat * F)) :=
    rows_steps M starti startj bsi bsj bsi buffer.
  (** src/blockmatrices.ipp:640-657 BSRMatrix<1>::updateDiagBlock. A negative position is undefined behaviour. *)
  Definition updateDiagBlock1_steps M (starti : nat) (buffer : list F) (bs : nat) : res (list (nat * F)) :=
    let! l := mapr (fun irow =>
      let locrow := irow - starti in
      let! d := get (diagind M) irow in
      if d <? locrow then UB else
      mapr (fun loccol => let! b := get buffer (locrow * bs + loccol) in Ok (d - locrow + loccol, b)) (seq 0 bs))
      (range starti (starti + bs)) in
    Ok (concat l).

  (** Several threads assembling one matrix: each makes a sequence of calls, each call a
      sequence of atomic additions; these are interleaved in any way. *)
  Inductive call := Update (starti startj : nat) (buffer : list F) (bsi bsj : nat) | UpdateDiag (starti : nat) (buffer : list F) (bs : nat).
  (** [bs = None]: the scalar matrix class; the last two parameters are ignored by the block class *)
  Definition call_steps (bs : option nat) M (c : call) : res (list (nat * F)) :=
    match bs, c with
    | Some bs, Update i j b _ _ => updateBlock_steps bs M i j b
    | Some bs, UpdateDiag i b _ => updateDiagBlock_steps bs M i b
    | None, Update i j b bsi bsj => updateBlock1_steps M i j b bsi bsj
    | None, UpdateDiag i b bs => updateDiagBlock1_steps M i b bs
    end.
  Inductive interleaving {A} : list (list A) -> list A -> Prop :=
  | il_done ls : Forall (eq []) ls -> interleaving ls []
  | il_step ls i a l r : ls !! i = Some (a :: l) -> interleaving (<[i := l]> ls) r -> interleaving ls (a :: r).
  Definition assemble (bs : option nat) M (threads : list (list call)) : nd (srmat F) :=
    ndo ls := nlift (mapr (fun cs => let! l := mapr (call_steps bs M) cs in Ok (concat l)) threads) in
    fun o => exists r, interleaving ls r /\ o = let! v := doall r add1 (vals M) in Ok (with_vals M v).
End Assembly.
Arguments call : clear implicits.

(** ** Queries *)
Section Queries.
  (** [sabs], [slt]: std::abs and the comparison <; [thr]: 100 epsilon; [inf]: infinity *)
  Context {F : Type} {O : SOps F} (sabs : F -> F) (slt : F -> F -> bool).
  Definition diag_entry (M : srmat F) (i : nat) : res F :=
    let! d := get (diagind M) i in get (vals M) d.
  (** src/blockmatrices.ipp:753-763 zeroDiagonalRow; the loop from row [i], [n] rows left *)
  Fixpoint zeroDiagonalRow_from (thr : F) (M : srmat F) (n i : nat) : res Z :=
    match n with
    | 0 => Ok (-1)%Z
    | S n => let! a := diag_entry M i in if slt (sabs a) thr then Ok (Z.of_nat i) else zeroDiagonalRow_from thr M n (i + 1)
    end.
  Definition zeroDiagonalRow (thr : F) (M : srmat F) : res Z := zeroDiagonalRow_from thr M (nbrows M) 0.
  (** src/blockmatrices.ipp:765-774 getNumZeroDiagonals *)
  Definition getNumZeroDiagonals (thr : F) (M : srmat F) : res nat :=
    for_ 0 (nbrows M) (fun i num => let! a := diag_entry M i in Ok (if slt (sabs a) thr then num + 1 else num)) 0.
  (** src/blockmatrices.ipp:776-783 getDiagonalProduct *)
  Definition getDiagonalProduct (M : srmat F) : res F :=
    for_ 0 (nbrows M) (fun i prod => let! a := diag_entry M i in Ok (prod * a)%s) s1.
  (** src/blockmatrices.ipp:785-792 getDiagonalAbsSum *)
  Definition getDiagonalAbsSum (M : srmat F) : res F :=
    for_ 0 (nbrows M) (fun i sum => let! a := diag_entry M i in Ok (sum + sabs a)%s) s0.
  (** src/blockmatrices.ipp:794-809 getAbsMinDiagonalEntry *)
  Definition getAbsMinDiagonalEntry (inf : F) (M : srmat F) : res F :=
    for_ 0 (nbrows M) (fun i minentry => let! a := diag_entry M i in Ok (if slt (sabs a) minentry then sabs a else minentry)) inf.
  (** src/blockmatrices.ipp:811-822 getAbsMaxDiagonalEntry *)
  Definition getAbsMaxDiagonalEntry (M : srmat F) : res F :=
    for_ 0 (nbrows M) (fun i maxentry => let! a := diag_entry M i in Ok (if slt maxentry (sabs a) then sabs a else maxentry)) s0.

  (** src/blockmatrices.ipp:42-82 areEqual: five flags *)
  Definition areEqual (bs : nat) (tol : F) (mat1 mat2 : srmat F) : res (bool * bool * bool * bool * bool) :=
    if negb (nbrows mat1 =? nbrows mat2) then Ok (false, true, true, true, true) else
    let! e1 := get (browptr mat1) (nbrows mat1) in
    let! e2 := get (browptr mat2) (nbrows mat2) in
    if negb (e1 =? e2) then Ok (true, false, true, true, true) else
    let! (f1, f4) := for_ 0 (nbrows mat1) (fun i s =>
      let! a1 := get (browptr mat1) i in
      let! a2 := get (browptr mat2) i in
      let! d1 := get (diagind mat1) i in
      let! d2 := get (diagind mat2) i in
      let '(f1, f4) := s in
      Ok (if negb (a1 =? a2) then false else f1, if negb (d1 =? d2) then false else f4)) (true, true) in
    let! (f2, f3) := for_ 0 e1 (fun jj s =>
      let! c1 := get (bcolind mat1) jj in
      let! c2 := get (bcolind mat2) jj in
      let '(f2, f3) := s in
      let f2 := if negb (c1 =? c2) then false else f2 in
      let! f3 := for_ 0 (bs * bs) (fun k f3 =>
        let! v1 := get (vals mat1) (jj * bs * bs + k) in
        let! v2 := get (vals mat2) (jj * bs * bs + k) in
        Ok (if slt tol (sabs (v1 - v2)%s) then false else f3)) f3 in
      Ok (f2, f3)) (true, true) in
    Ok (true, f1, f2, f3, f4).
End Queries.
