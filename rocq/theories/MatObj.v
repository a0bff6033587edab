(** * MatObj: a matrix object in use: the calls a program makes on a BSRMatrix, one after the other

    [cl = Some bs]: class BSRMatrix<scalar,index,bs>; [cl = None]: its specialisation BSRMatrix<scalar,index,1>
    (include/blockmatrices.hpp). The functions called are those of BlockMat, Matvec and Reorder. *)
From Verif Require Import Base Alg SRMatrix Nd BlockMat Matvec Reorder ReorderedIlu.
Open Scope nat_scope.

(** the size of the blocks, include/blockmatrices.hpp:162-171, 302-309 *)
Definition width (cl : option nat) : nat := match cl with Some bs => bs | None => 1 end.

Section MatObj.
  Context {F : Type} {O : SOps F}.
  Implicit Type M : srmat F.

  Inductive mcall :=
  | MSetStructure (n_brows : nat) (bcinds brptrs : list nat)
  | MSetAllZero
  | MSetDiagZero
  | MScaleAll (factor : F)
  | MSubmitBlock (starti startj : nat) (buffer : list F) (bsi bsj : nat)
  | MAssemble (threads : list (list (call F)))   (** updateBlock and updateDiagBlock, from several threads at a time *)
  | MReorderScale (rord cord : option (list nat)) (sc : scaling (F := F)) (mode : RSApplyMode)
  | MCopy.                                       (** the copy is used from here on *)

  (** One call. The new arrays of setStructure and of the copy constructor have any contents ([gp], ...). For
      reorderScale the program makes a new ordering with setOrdering (src/reorderingscaling.cpp:41-73) and scaling factors;
      src/blockmatrices.ipp:414-430, 719-736. The row ends of the object are a view of its row pointers
      (src/blockmatrices.ipp:254-255, 299-300, 546-547, 589-590), so they change with them: [alias_end]. *)
  Definition mstep (cl : option nat) (c : mcall) M : nd (srmat F) :=
    let bs := width cl in
    match c with
    | MSetStructure n bcinds brptrs => fun o => exists gp gi gd gv, o = setStructure bs gp gi gd gv M n bcinds brptrs
    | MSetAllZero => match cl with Some bs => bsr_setAllZero bs M | None => csr_setAllZero M end
    | MSetDiagZero => setDiagZero bs M
    | MScaleAll f => match cl with Some bs => bsr_scaleAll bs f M | None => csr_scaleAll f M end
    | MSubmitBlock i j b h w => nlift (match cl with Some bs => submitBlock bs M i j b | None => submitBlock1 M i j b h w end)
    | MAssemble threads => assemble cl M threads
    | MReorderScale rord cord sc mode =>
        ndo o := nlift (setOrdering rord cord (nbrows M) ordering_new) in
        ndo M' := reorderScale bs o sc mode M in nret (alias_end M')
    | MCopy => fun o => exists gp gi gd gv, o = copy_construct bs gp gi gd gv M
    end.
  Fixpoint mcalls (cl : option nat) (h : list mcall) M : nd (srmat F) :=
    match h with
    | [] => nret M
    | c :: h => ndo M := mstep cl c M in mcalls cl h M
    end.

  (** src/blockmatrices.ipp:392-397 and 697-702 apply; the views' apply functions, src/blockmatrices.ipp:119-124 and
      149-154, call the same kernels *)
  Definition mat_apply (cl : option nat) M (x y : list F) : nd (list F) :=
    match cl with Some bs => bsr_apply RowMajor bs M x y | None => csr_apply M x y end.
  (** src/blockmatrices.ipp:399-404 and 704-709 gemv3; views: 126-132 and 156-161 *)
  Definition mat_gemv3 (cl : option nat) M (a : F) (x : list F) (b : F) (y : option (list F)) (z : list F) : nd (list F) :=
    match cl with Some bs => bsr_gemv3 RowMajor bs M a x b y z | None => csr_gemv3 M a x b y z end.
  (** src/blockmatrices.ipp:432-445 and 738-751 isEqual: five flags; [sabs], [slt]: std::abs and < *)
  Definition mat_isEqual (sabs : F -> F) (slt : F -> F -> bool) (cl : option nat) (tol : F) (M other : srmat F) : res (bool * bool * bool * bool * bool) :=
    areEqual sabs slt (width cl) tol M other.
End MatObj.
Arguments mcall : clear implicits.
