(** * Inst: concrete scalars, used to show that hypotheses can be met *)
From Verif Require Import Base Alg SRMatrix.
From Coq Require Import QArith.Qcanon Floats.SpecFloat ZArith.

Open Scope nat_scope.
(** the rational numbers, a field *)
Global Instance Qc_ops : SOps Qc := {|
  s0 := Q2Qc (QArith_base.inject_Z 0); s1 := Q2Qc (QArith_base.inject_Z 1); sadd := Qcplus; ssub := Qcminus; smul := Qcmult; sdiv := Qcdiv; sopp := Qcopp |}.
Global Instance Qc_ring : CRing Qc.
Proof. constructor. exact Qcrt. Qed.
Global Instance Qc_field : Field Qc.
Proof.
  constructor; [apply _|discriminate|]. intros x y H. simpl. unfold Qcdiv.
  rewrite <- Qcmult_assoc, (Qcmult_comm (/ y)), Qcmult_inv_r; [apply Qcmult_1_r|exact H].
Qed.
(** IEEE double precision (round to nearest even): operations without laws *)
Definition double := spec_float.
Global Instance double_ops : SOps double := {|
  s0 := S754_zero false; s1 := SFldexp 53 1024 (S754_finite false 1 0) 0;
  sadd := SFadd 53 1024; ssub := SFsub 53 1024; smul := SFmul 53 1024; sdiv := SFdiv 53 1024; sopp := SFopp |}.

(** integers as rationals *)
Definition q (z : Z) : Qc := Q2Qc (QArith_base.inject_Z z).

(** A 3x3 matrix with symmetric pattern
        4 1 .
        2 5 1
        . 1 3   *)
Definition exM : srmat Qc :=
  SR [0; 2; 5; 7] [0; 1; 0; 1; 2; 1; 2] (q <$> [4; 1; 2; 5; 1; 1; 3]%Z) [0; 3; 6] [2; 5; 7] 3 7 7.

(** checking well-formedness by computation *)
Definition wfb_pat {A} (M : srmat A) : bool :=
  bool_decide (length (browptr M) = nbrows M + 1) && bool_decide (rp M 0 = 0) &&
  forallb (fun i => bool_decide (rp M i <= rp M (i + 1))) (seq 0 (nbrows M)) &&
  bool_decide (length (bcolind M) = nnz M) &&
  forallb (fun j => bool_decide (col M j < nbrows M)) (seq 0 (nnz M)).
Lemma forallb_seq n f : forallb f (seq 0 n) = true -> forall i, i < n -> f i = true.
Proof. intros H i Hi. rewrite forallb_forall in H. apply H. apply in_seq. lia. Qed.
Lemma wfb_pat_ok {A} (M : srmat A) : wfb_pat M = true -> wf_pat M.
Proof.
  unfold wfb_pat. rewrite !andb_true_iff, !bool_decide_eq_true. intros [[[[H1 H2] H3] H4] H5].
  constructor; auto.
  - intros i Hi. pose proof (forallb_seq _ _ H3 i Hi) as H. apply bool_decide_eq_true in H. exact H.
  - intros j Hj. pose proof (forallb_seq _ _ H5 j Hj) as H. apply bool_decide_eq_true in H. exact H.
Qed.
Definition wfb_diag {A} (M : srmat A) : bool :=
  bool_decide (length (diagind M) = nbrows M) &&
  forallb (fun i => bool_decide (rp M i <= dg M i < rp M (i + 1) /\ col M (dg M i) = i)) (seq 0 (nbrows M)).
Lemma wfb_diag_ok {A} (M : srmat A) : wfb_diag M = true -> wf_diag M.
Proof.
  unfold wfb_diag. rewrite !andb_true_iff, !bool_decide_eq_true. intros [H1 H2]. split; [auto|].
  intros i Hi. pose proof (forallb_seq _ _ H2 i Hi) as H. apply bool_decide_eq_true in H. exact H.
Qed.
Definition wfb_sorted {A} (M : srmat A) : bool :=
  forallb (fun i => forallb (fun j => bool_decide (rp M i <= j /\ j + 1 < rp M (i + 1) -> col M j < col M (j + 1)))
    (seq 0 (rp M (i + 1)))) (seq 0 (nbrows M)).
Lemma wfb_sorted_ok {A} (M : srmat A) : wfb_sorted M = true -> wf_sorted M.
Proof.
  unfold wfb_sorted. intros H i j1 j2 Hi H1 H12 H2.
  pose proof (forallb_seq _ _ H i Hi) as H'. simpl in H'.
  assert (forall j, rp M i <= j -> j + 1 < rp M (i + 1) -> col M j < col M (j + 1)) as Hs.
  { intros j Hj Hj'. pose proof (forallb_seq _ _ H' j ltac:(lia)) as H3. apply bool_decide_eq_true in H3. auto. }
  induction j2 as [|j2 IH]; [lia|].
  destruct (decide (j1 = j2)) as [->|Hne].
  - replace (S j2) with (j2 + 1) by lia. apply Hs; lia.
  - specialize (IH ltac:(lia) ltac:(lia)). specialize (Hs j2 ltac:(lia) ltac:(lia)).
    replace (S j2) with (j2 + 1) by lia. lia.
Qed.
Lemma exM_pat : wf_pat exM. Proof. apply wfb_pat_ok. reflexivity. Qed.
Lemma exM_diag : wf_diag exM. Proof. apply wfb_diag_ok. reflexivity. Qed.
Lemma exM_sorted : wf_sorted exM. Proof. apply wfb_sorted_ok. reflexivity. Qed.

(** A 4x4 matrix in which rows 0,1 and rows 2,3 are not coupled among themselves
        2 . 1 .
        . 2 1 1
        1 1 3 .
        . 1 . 2   *)
Definition exL : srmat Qc :=
  SR [0; 2; 5; 8; 10] [0; 2; 1; 2; 3; 0; 1; 2; 1; 3] (q <$> [2; 1; 2; 1; 1; 1; 1; 3; 1; 2]%Z)
     [0; 2; 7; 9] [2; 5; 8; 10] 4 10 10.
Lemma exL_pat : wf_pat exL. Proof. apply wfb_pat_ok. reflexivity. Qed.
Lemma exL_diag : wf_diag exL. Proof. apply wfb_diag_ok. reflexivity. Qed.
Lemma exL_sorted : wf_sorted exL. Proof. apply wfb_sorted_ok. reflexivity. Qed.

(** 2x2 blocks with the pattern of [exM]: blocks k, k+1, ..., values made up so that
    the diagonal blocks (positions 0, 3 and 6) are the matrix (2 1; 1 1) *)
Definition exB : srmat Qc :=
  SR [0; 2; 5; 7] [0; 1; 0; 1; 2; 1; 2]
     (q <$> [2; 1; 1; 1;  1; 0; 2; 1;  3; 1; 0; 1;  2; 1; 1; 1;  1; 1; 0; 2;  0; 1; 1; 5;  2; 1; 1; 1]%Z)
     [0; 3; 6] [2; 5; 7] 3 7 7.
(** the inverse of (2 1; 1 1) *)
Definition exD (I J : nat) : Qc :=
  match I mod 2, J mod 2 with 0, 0 => q 1 | 0, _ => q (-1) | _, 0 => q (-1) | _, _ => q 2 end.
Lemma exB_pat : wf_pat exB. Proof. apply wfb_pat_ok. reflexivity. Qed.
Lemma exB_diag : wf_diag exB. Proof. apply wfb_diag_ok. reflexivity. Qed.
Lemma exB_sorted : wf_sorted exB. Proof. apply wfb_sorted_ok. reflexivity. Qed.
