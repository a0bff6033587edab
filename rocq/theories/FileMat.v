(** * FileMat: from a Matrix Market file to a matrix object (src/coomatrix.cpp:417-424, src/blockmatrices.ipp:261-264, 553-556) *)
From Verif Require Import Base Alg SRMatrix Nd BlockMat Coo MMText MatObj.
Open Scope nat_scope.

Section FileMat.
  Context {F : Type} {O : SOps F}.
  (** as in MMText: the library's conversion of text to a number *)
  Variable scan_real : string -> F * bool * string.

  (** src/coomatrix.cpp:169-171 COOMatrix(): the vectors are empty; the numbers are not set, and set by readMatrixMarket before they are read *)
  Definition coo_new : coo F := Coo [] 0 0 0 [].
  (** src/coomatrix.cpp:417-424 constructBSRMatrixFromMatrixMarketFile, for the class [cl] (see MatObj; its own storage option is the name
      "rowmajor"). The constructor from a storage moves the views (src/blockmatrices.ipp:261-264, 553-556; moving is in ArrayView), so the
      object has the arrays of the converted matrix. Returning the local object either leaves it as it is or copies it
      (include/blockmatrices.hpp:177, 318: there is a copy constructor and no move constructor). *)
  Definition matrix_from_file (cl : option nat) (text : option string) : nd (srmat F) :=
    ndo c := readMatrixMarket_text scan_real coo_new text in
    ndo M := (fun o => exists gp gi gv gd, o = let! (M, _) := getSRMatrixFromCOO (width cl) "rowmajor" gp gi gv gd c in Ok M) in
    (fun o => o = Ok M \/ exists gp gi gd gv, o = copy_construct (width cl) gp gi gd gv M).
End FileMat.
