(** * Sai: sparse approximate inverses (src/sai.cpp, src/sai.hpp)

    Asserts are left out, except the one in gather_lhs_matrix, which is active if [debug] (see C51_assert_refuted). Matrices may be
    triangular views, with rows that are not stored one after the other. The dense solvers of Eigen are parameters. *)
From Coq Require Import ZArith.
From Verif Require Import Base Alg SRMatrix Helpers Nd.
Local Open Scope nat_scope.

(** src/sai.hpp:16-39 LeftSAIPattern *)
Record saipat := SaiPat {
  bpos : list nat; browind : list Z; bcolptr : list nat; sairowptr : list nat;
  nVars : list nat; nEqns : list nat; localCentralRow : list Z }.

(** std::set<index>: an increasing list *)
Fixpoint set_insert (x : nat) (s : list nat) : list nat :=
  match s with
  | [] => [x]
  | y :: s' => if x <? y then x :: s else if x =? y then s else y :: set_insert x s'
  end.

Section Pattern.
  Context {A : Type}.
  (** [for(index jj = mat.browptr[row]; jj < mat.browendptr[row]; jj++)] *)
  Definition for_row {St} (mat : srmat A) (row : nat) (body : nat -> St -> res St) (s : St) : res St :=
    let! b := get (browptr mat) row in
    let! e := get (browendptr mat) row in
    for_ b e body s.

  (** src/sai.cpp:12-171 left_SAI_pattern *)
  Definition left_SAI_pattern (mat : srmat A) : res saipat :=
    let n := nbrows mat in
    (* step 1, lines 28-47 *)
    let! (srp, nv, ne, totalcoeffs) := for_ 0 n (fun irow '(srp, nv, ne, totalcoeffs) =>
      let! e := get (browendptr mat) irow in
      let! b := get (browptr mat) irow in
      let! nv := set nv irow (e - b) in
      let! (constraints, totalcoeffs) := for_row mat irow (fun jj s =>
        let! col := get (bcolind mat) jj in
        for_row mat col (fun kk '(constraints, totalcoeffs) =>
          let! c := get (bcolind mat) kk in
          Ok (set_insert c constraints, totalcoeffs + 1)) s) ([], totalcoeffs) in
      let! ne := set ne irow (length constraints) in
      let! v := get nv irow in
      let! srp := set srp (irow + 1) v in
      Ok (srp, nv, ne, totalcoeffs)) (replicate (n + 1) 0, replicate n 0, replicate n 0, 0) in
    let! srp := inclusive_scan srp in
    let! totalvars := get srp n in
    (* step 2, lines 63-81 *)
    let! bcp := for_ 0 n (fun irow bcp =>
      for_row mat irow (fun jj bcp =>
        let! col := get (bcolind mat) jj in
        let! b := get (browptr mat) irow in
        let localcolidx := jj - b in
        for_row mat col (fun kk bcp =>
          let! s := get srp irow in
          let! x := get bcp (s + localcolidx + 1) in
          set bcp (s + localcolidx + 1) (x + 1)) bcp) bcp) (replicate (totalvars + 1) 0) in
    let! bcp := inclusive_scan bcp in
    (* step 3, lines 86-167 *)
    let! (lcr, bp, bri) := for_ 0 n (fun irow '(lcr, bp, bri) =>
      let! constraints := for_row mat irow (fun jj constraints =>
        let! col := get (bcolind mat) jj in
        for_row mat col (fun kk constraints =>
          let! c := get (bcolind mat) kk in
          Ok (set_insert c constraints)) constraints) [] in
      let constrvec := constraints in
      let! neq := get ne irow in
      let! lcr := for_ 0 neq (fun icons lcr =>
        let! c := get constrvec icons in
        if irow =? c then set lcr irow (Z.of_nat icons) else Ok lcr) lcr in
      let! nvr := get nv irow in
      let! localrowinds := for_row mat irow (fun jj lri =>
        let! col := get (bcolind mat) jj in
        let! b := get (browptr mat) irow in
        let localcolidx := jj - b in
        let! ce := get (browendptr mat) col in
        let! cb := get (browptr mat) col in
        let! lri := set lri localcolidx (replicate (ce - cb) (-1)%Z) in
        for_ 0 (length constrvec) (fun i lri =>
          for_row mat col (fun kk lri =>
            let! c := get constrvec i in
            let! c' := get (bcolind mat) kk in
            if c =? c' then
              let! l := get lri localcolidx in
              let! l := set l (kk - cb) (Z.of_nat i) in
              set lri localcolidx l
            else Ok lri) lri) lri) (replicate nvr []) in
      let! (bp, bri) := for_row mat irow (fun jj s =>
        let! col := get (bcolind mat) jj in
        let! b := get (browptr mat) irow in
        let localcolidx := jj - b in
        for_row mat col (fun kk '(bp, bri) =>
          let! cb := get (browptr mat) col in
          let locpos := kk - cb in
          let! s := get srp irow in
          let! p := get bcp (s + localcolidx) in
          let! bp := set bp (p + locpos) kk in
          let! l := get localrowinds localcolidx in
          let! z := get l locpos in
          let! bri := set bri (p + locpos) z in
          Ok (bp, bri)) s) (bp, bri) in
      Ok (lcr, bp, bri)) (replicate n (-1)%Z, replicate totalcoeffs 0, replicate totalcoeffs 0%Z) in
    Ok (SaiPat bp bri bcp srp nv ne lcr).

  (** src/sai.cpp:175-276 left_incomplete_SAI_pattern. resize() of the vectors, 186-187 and 214-216, sets the new elements to zero. *)
  Definition left_incomplete_SAI_pattern (mat : srmat A) : res saipat :=
    let n := nbrows mat in
    (* lines 194-211 *)
    let! (srp, nv, ne, totalcoeffs) := for_ 0 n (fun irow '(srp, nv, ne, totalcoeffs) =>
      let! e := get (browendptr mat) irow in
      let! b := get (browptr mat) irow in
      let! nv := set nv irow (e - b) in
      let! v := get nv irow in
      let! ne := set ne irow v in
      let! v := get nv irow in
      let! srp := set srp (irow + 1) v in
      let! totalcoeffs := for_row mat irow (fun jj totalcoeffs =>
        let! colind := get (bcolind mat) jj in
        for_row mat colind (fun kk totalcoeffs =>
          for_row mat irow (fun ll totalcoeffs =>
            let! a := get (bcolind mat) ll in
            let! b := get (bcolind mat) kk in
            if a =? b then Ok (totalcoeffs + 1) else Ok totalcoeffs) totalcoeffs) totalcoeffs) totalcoeffs in
      Ok (srp, nv, ne, totalcoeffs)) (replicate (n + 1) 0, replicate n 0, replicate n 0, 0) in
    let! srp := inclusive_scan srp in
    let! totalvars := get srp n in
    (* lines 219-245 *)
    let! (bcp, lcr) := for_ 0 n (fun irow s =>
      let! startcol := get srp irow in
      for_row mat irow (fun jj '(bcp, lcr) =>
        let! b := get (browptr mat) irow in
        let loccol := jj - b in
        let! colind := get (bcolind mat) jj in
        let! bcp := for_row mat colind (fun kk bcp =>
          for_row mat irow (fun ll bcp =>
            let! a := get (bcolind mat) ll in
            let! b := get (bcolind mat) kk in
            if a =? b then
              let! x := get bcp (startcol + loccol + 1) in
              set bcp (startcol + loccol + 1) (x + 1)
            else Ok bcp) bcp) bcp in
        let! lcr := if colind =? irow then set lcr irow (Z.of_nat loccol) else Ok lcr in
        Ok (bcp, lcr)) s) (replicate (totalvars + 1) 0, replicate n (-1)%Z) in
    let! bcp := inclusive_scan bcp in
    (* lines 252-275 *)
    let! (bp, bri) := for_ 0 n (fun irow s =>
      let! startcol := get srp irow in
      for_row mat irow (fun jj '(bp, bri) =>
        let! colind := get (bcolind mat) jj in
        let! b := get (browptr mat) irow in
        let loccol := jj - b in
        let! saicolpos := get bcp (startcol + loccol) in
        let! (bp, bri, _) := for_row mat colind (fun kk s =>
          for_row mat irow (fun ll '(bp, bri, numentries) =>
            let! a := get (bcolind mat) ll in
            let! c := get (bcolind mat) kk in
            if a =? c then
              let! bp := set bp (saicolpos + numentries) kk in
              let! bri := set bri (saicolpos + numentries) (Z.of_nat (ll - b)) in
              Ok (bp, bri, numentries + 1)
            else Ok (bp, bri, numentries)) s) (bp, bri, 0) in
        Ok (bp, bri)) s) (replicate totalcoeffs 0, replicate totalcoeffs 0%Z) in
    Ok (SaiPat bp bri bcp srp nv ne lcr).
End Pattern.

Section Values.
  Context {F : Type} {O : SOps F}.
  (** Eigen::Matrix<scalar,Dynamic,Dynamic,ColMajor>, src/sai.cpp:282: accesses are not checked against the dimensions in a release build *)
  Record lmat := LMat { lrows : nat; lcols : nat; ldata : list F }.
  Definition lget (m : lmat) (r c : nat) : res F := get (ldata m) (r + c * lrows m).
  Definition lset (m : lmat) (r c : nat) (x : F) : res lmat :=
    let! d := set (ldata m) (r + c * lrows m) x in Ok (LMat (lrows m) (lcols m) d).
  Definition lzero (r c : nat) : lmat := LMat r c (replicate (r * c) s0).

  (** src/sai.cpp:334-369 gather_lhs_matrix; the simd loop is run in order. The assert, line 351, is checked if [debug]. *)
  Definition gather_lhs_matrix (debug : bool) (so : storage) (bs : nat) (mat : srmat F) (sp : saipat) (row : nat) : res lmat :=
    let! ne := get (nEqns sp) row in
    let! nv := get (nVars sp) row in
    for_ 0 nv (fun jcol lhs =>
      let! s := get (sairowptr sp) row in
      let! start := get (bcolptr sp) (s + jcol) in
      let! e := get (bcolptr sp) (s + jcol + 1) in
      if debug && negb (e - start =? ne) then Throw "assert" else
      for_ start e (fun ii lhs =>
        let! lhsrow := get (browind sp) ii in
        let! lhspos := get (bpos sp) ii in
        if (lhsrow <? 0)%Z then UB else
        for_ 0 bs (fun ib lhs => for_ 0 bs (fun jb lhs =>
          let! x := get (vals mat) (lhspos * (bs * bs) + lay so bs jb ib) in
          lset lhs (Z.to_nat lhsrow * bs + ib) (jcol * bs + jb) x) lhs) lhs) lhs) (lzero (ne * bs) (nv * bs)).

  (** src/sai.cpp:371-387 scatter_solution *)
  Definition scatter_solution (so : storage) (bs : nat) (sol : lmat) (row : nat) (saimat : srmat F) (vs : list F) : res (list F) :=
    let! b := get (browptr saimat) row in
    for_row saimat row (fun jj vs =>
      let locloc := jj - b in
      for_ 0 bs (fun i vs => for_ 0 bs (fun j vs =>
        let! x := lget sol (locloc * bs + j) i in
        set vs (jj * (bs * bs) + lay so bs i j) x) vs) vs) vs.

  (** src/sai.cpp:296-323 compute_SAI: the values of [sai], whose structure stays. [solve full lhs rhs]: Eigen's
      lhs.colPivHouseholderQr().solve(rhs) if [full], lhs.partialPivLu().solve(rhs) otherwise. The iterations run in any order; they do
      not share data (see Nd). *)
  Definition sai_row (solve : bool -> lmat -> lmat -> lmat) (debug : bool) (so : storage) (bs : nat) (mat : srmat F) (sp : saipat) (fullsai : bool) (sai : srmat F)
      (irow : nat) (vs : list F) : res (list F) :=
    let! lhs := gather_lhs_matrix debug so bs mat sp irow in
    let! rhs := for_ 0 bs (fun i rhs =>
      let! z := get (localCentralRow sp) irow in
      if (z <? 0)%Z then UB else lset rhs (Z.to_nat z * bs + i) i s1) (lzero (lrows lhs) bs) in
    scatter_solution so bs (solve fullsai lhs rhs) irow sai vs.
  Definition compute_SAI (solve : bool -> lmat -> lmat -> lmat) (debug : bool) (so : storage) (bs : nat) (mat : srmat F) (sp : saipat) (fullsai : bool) (sai : srmat F) : nd (list F) :=
    par_for 0 (nbrows mat) (sai_row solve debug so bs mat sp fullsai sai) (vals sai).
End Values.
Arguments lmat F : clear implicits.
