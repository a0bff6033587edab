(** * PropIntRange: C98, the set-up of ILU(0) within the range of 32-bit indices

    [ntriples M] (TripleSpec.v) is the number of products l(i,t) u(t,c) of the
    factorisation; the code keeps a running total of it in an int. *)
From Coq Require Import ZArith.
From Verif Require Import Base SRMatrix Helpers IluPattern IluPatternFacts IntRange TripleSpec IntRangeFacts Inst.
Open Scope nat_scope.

(** While the products can be counted in an int, the lists are those of the model with
    unbounded integers, to which the other theorems apply. *)
Theorem C98_same {A} (M : srmat A) :
  wf_pat M -> wf_diag M -> wf_sorted M ->
  (Z.of_nat (nnz M) < INT_MAX)%Z -> (Z.of_nat (ntriples M) <= INT_MAX)%Z ->
  exists p, compute_ILU_positions M = Ok p /\
    compute_ILU_positions_int M = Ok (IluPosInt (Z.of_nat <$> posptr p) (lowerp p) (upperp p)) /\
    length (lowerp p) = ntriples M /\ length (upperp p) = ntriples M.
Proof.
  intros Hw Hd Hs Hn Ht. exists (positions M). split; [apply compute_ILU_positions_spec; auto|].
  split; [apply run_ok; auto|]. simpl. rewrite !fmap_length, count_triples; auto.
Qed.
(** Once they cannot, the behaviour is undefined, however few entries are stored. *)
Theorem C98_overflow {A} (M : srmat A) :
  wf_pat M -> wf_diag M -> wf_sorted M ->
  (Z.of_nat (nnz M) < INT_MAX)%Z -> (INT_MAX < Z.of_nat (ntriples M))%Z ->
  compute_ILU_positions_int M = UB.
Proof. intros Hw Hd Hs Hn Ht. apply run_ub; auto. Qed.
(** Enough that the stored entries times the off-diagonal entries of the longest row fit. *)
Theorem C98_width {A} (M : srmat A) (w : nat) :
  wf_pat M -> wf_diag M -> wf_sorted M ->
  (forall i, i < nbrows M -> rp M (i + 1) - rp M i <= w) ->
  (Z.of_nat (nnz M) < INT_MAX)%Z -> (Z.of_nat (nnz M) * Z.of_nat (w - 1) <= INT_MAX)%Z ->
  exists p, compute_ILU_positions M = Ok p /\
    compute_ILU_positions_int M = Ok (IluPosInt (Z.of_nat <$> posptr p) (lowerp p) (upperp p)).
Proof.
  intros Hw Hd Hs Hwd Hn Hp. pose proof (triples_bound M Hw Hd Hs w Hwd) as Hb.
  destruct (C98_same M Hw Hd Hs Hn) as (p & E1 & E2 & _); [lia|]. eauto.
Qed.
(** A full matrix works up to order 1861, *)
Theorem C98_dense {A} (n : nat) (v : list A) : 0 < n -> (Z.of_nat n <= 1861)%Z ->
  exists p, compute_ILU_positions (dense n v) = Ok p /\
    compute_ILU_positions_int (dense n v) = Ok (IluPosInt (Z.of_nat <$> posptr p) (lowerp p) (upperp p)).
Proof.
  intros H0 Hn. pose proof (dense_ntriples n v H0) as Ht. apply (f_equal Z.of_nat) in Ht.
  rewrite !Nat2Z.inj_mul, !Nat2Z.inj_sub, Nat2Z.inj_mul in Ht by lia.
  change (Z.of_nat 6) with 6%Z in Ht. change (Z.of_nat 2) with 2%Z in Ht. change (Z.of_nat 1) with 1%Z in Ht.
  assert (Z.of_nat n * (Z.of_nat n - 1) * (2 * Z.of_nat n - 1) <= 1861 * 1860 * 3721)%Z as Hb.
  { apply Z.mul_le_mono_nonneg; [nia| |lia|lia]. apply Z.mul_le_mono_nonneg; lia. }
  destruct (C98_same (dense n v) (dense_pat n v H0) (dense_diag n v H0) (dense_sorted n v H0)) as (p & E1 & E2 & _); [| |eauto].
  - rewrite dense_nnz by exact H0. unfold INT_MAX. nia.
  - unfold INT_MAX. lia.
Qed.
(** and fails from order 1862 on, though up to order 46340 its entries can be counted
    in an int: "every well-formed matrix of which the entries can be counted in an int
    can be factorised" is false. *)
Theorem C98_dense_refuted {A} (n : nat) (v : list A) : (1862 <= Z.of_nat n <= 46340)%Z ->
  wf_pat (dense n v) /\ wf_diag (dense n v) /\ wf_sorted (dense n v) /\
  (Z.of_nat (nnz (dense n v)) < INT_MAX)%Z /\
  (exists p, compute_ILU_positions (dense n v) = Ok p) /\
  compute_ILU_positions_int (dense n v) = UB.
Proof.
  intros Hn. assert (0 < n) as H0 by lia.
  assert (Z.of_nat (nnz (dense n v)) < INT_MAX)%Z as Hz.
  { rewrite dense_nnz by exact H0. rewrite Nat2Z.inj_mul. unfold INT_MAX.
    assert (Z.of_nat n * Z.of_nat n <= 46340 * 46340)%Z by (apply Z.mul_le_mono_nonneg; lia). lia. }
  split; [apply dense_pat; auto|]. split; [apply dense_diag; auto|]. split; [apply dense_sorted; auto|].
  split; [exact Hz|]. split.
  - eexists. apply compute_ILU_positions_spec; [apply dense_pat|apply dense_diag|apply dense_sorted]; auto.
  - apply C98_overflow; [apply dense_pat; auto|apply dense_diag; auto|apply dense_sorted; auto|exact Hz|].
    pose proof (dense_ntriples n v H0) as Ht. apply (f_equal Z.of_nat) in Ht.
    rewrite !Nat2Z.inj_mul, !Nat2Z.inj_sub, Nat2Z.inj_mul in Ht by lia.
    change (Z.of_nat 6) with 6%Z in Ht. change (Z.of_nat 2) with 2%Z in Ht. change (Z.of_nat 1) with 1%Z in Ht.
    assert (1862 * 1861 * 3723 <= Z.of_nat n * (Z.of_nat n - 1) * (2 * Z.of_nat n - 1))%Z as Hb.
    { apply Z.mul_le_mono_nonneg; [lia| |lia|lia]. apply Z.mul_le_mono_nonneg; lia. }
    unfold INT_MAX. lia.
Qed.

(** exM has two products: l(1,0) u(0,1) and l(2,1) u(1,2) *)
Example C98_case :
  wf_pat exM /\ wf_diag exM /\ wf_sorted exM /\ ntriples exM = 2 /\ nnz exM = 7 /\
  compute_ILU_positions_int exM = Ok (IluPosInt [0; 0; 0; 0; 1; 1; 1; 2]%Z [2; 5] [1; 4]).
Proof. split; [apply exM_pat|]. split; [apply exM_diag|]. split; [apply exM_sorted|]. repeat split. Qed.

Print Assumptions C98_same.
Print Assumptions C98_overflow.
Print Assumptions C98_width.
Print Assumptions C98_dense.
Print Assumptions C98_dense_refuted.
