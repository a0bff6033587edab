(** * PropLinearEx (C78, C79): cases and counterexamples for PropLinear *)
From Coq Require Import ZArith QArith.Qcanon QArith.Qcabs.
From Verif Require Import Base Alg Norms SRMatrix Async AsyncTheory AsyncSystem AsyncSweeps Nd Kernels KernelFacts IluApply IluApplyFacts IluApplyProofs TriSpec TriFacts
  IluApplyMain IluPattern IluFactor IluFactorMain Sgs SgsFacts SgsProofs SgsForms SgsMain Memory Levels PropLevels PropIluInit
  PropIluFactor PropIluApply PropIluSolve Factory Petsc Objects ObjFacts ObjHistory ObjAlg ObjTotal GsSweep PropConverge PropConvergeEx PropDominantIlu ScaledLu SymSpec SymFacts PropSgs PropObjects Inst PropObjectsEx PropScaleIlu PropLinear.
Open Scope nat_scope.

(** ** The rational numbers are ordered *)
Lemma Qc_ordered : ordered (fun x : Qc => Qclt (q 0) x).
Proof.
  constructor.
  - intros a b Ha Hb. change (q 0) with 0%Qc in *. change (a + b)%s with (a + b)%Qc. apply Qclt_le_trans with a; [exact Ha|].
    rewrite <- (Qcplus_0_r a) at 1. apply Qcplus_le_compat; [apply Qcle_refl|apply Qclt_le_weak, Hb].
  - intros a b Ha Hb. change (q 0) with 0%Qc in *. change (a * b)%s with (a * b)%Qc. rewrite <- (Qcmult_0_l b). apply Qcmult_lt_compat_r; done.
  - intros H. exact (Qclt_not_eq _ _ H eq_refl).
  - intros a. change (q 0) with 0%Qc. destruct (Qc_dec 0 a) as [[H|H]|H]; [right; left; exact H|right; right|left; symmetry; exact H].
    change (sopp a) with (- a)%Qc. apply Qclt_minus_iff in H. rewrite Qcplus_0_l in H. exact H.
Qed.

(** ** Two threads: symmetric Gauss-Seidel of (2 1; 1 2) has two results for the same vector *)
Definition two_state (pg : SolveParams Qc) : @pstate Qc := PState (Some [(q 1 / q 2)%Qc; (q 1 / q 2)%Qc]) (Some [q 0; q 0]) ilu_new [] None pg.
Lemma domM_setup d : length d = 2 -> nok (jacobi_setup domM d) (fun d' => d' = [(q 1 / q 2)%Qc; (q 1 / q 2)%Qc]).
Proof.
  intros Hd. destruct domM_wf as (Hw & Hdg & _). eapply nok_mono; [apply jacobi_setup_spec; auto|]. intros d' ->. reflexivity.
Qed.
Lemma two_lived ssqrt sabs inv maxthr pg : 1 <= maxthr -> lived ssqrt sabs inv (PSgs Scalar 1 INIT_A_ZERO 1) maxthr domM domM (two_state pg).
Proof.
  intros Hm. pose (g := Fresh (fun _ _ => q 0) (fun _ _ => 0) (fun _ => 0%Z)). assert (forall m : nd (@pstate Qc * option (Qc * Qc)), nok m (fun x => x = (two_state pg, None)) -> m (Ok (two_state pg, None))) as Hn.
  { intros m H. destruct (ObjFacts.nok_exists _ _ H) as (x & Hx & ->). exact Hx. }
  refine (lv_first _ _ _ _ maxthr domM 1 g pg domM _ None _ _ _ (Hn _ _)); [lia|repeat split|reflexivity|].
  cbn [obj_compute]. unfold sgs_compute, jacobi_compute. cbn [p_d p_y p_new setup_of].
  apply (nok_bind _ _ (fun st => st = two_state pg)); [|intros st ->; apply nok_ret; reflexivity].
  apply (nok_bind _ _ (fun st => st = PState (Some [(q 1 / q 2)%Qc; (q 1 / q 2)%Qc]) None ilu_new [] None pg)).
  - eapply nok_bind; [apply domM_setup; reflexivity|]. intros d ->. apply nok_ret. reflexivity.
  - intros st ->. cbn [p_y]. eapply nok_bind; [apply fill_spec; reflexivity|]. intros y ->. apply nok_ret. reflexivity.
Qed.
Definition one_after_other : list (nat * nat) := replicate 12 (0, 0).
Definition overlapping : list (nat * nat) := (0, 0) :: replicate 12 (1, 0) ++ replicate 12 (0, 0).
Lemma two_results pg g sched s' :
  run (T 1 (scalar_bgsC domM [(q 1 / q 2)%Qc; (q 1 / q 2)%Qc] [q 0; q 1])) sched (minit 2 [[1]; [0]] [q 0; q 0]) = Ok s' -> mdone s' ->
  exists st', obj_apply 2 g (PSgs Scalar 1 INIT_A_ZERO 1) domM (two_state pg) [q 0; q 2] [q 0; q 0] (Ok (st', mcur s')).
Proof.
  intros Hrun Hdone. cbn [obj_apply member two_state p_d p_y]. eexists. exists (Ok ([q 0; q 1], mcur s')). split; [|reflexivity].
  unfold sgs_apply. destruct (ObjFacts.nok_exists _ _ (fill_spec 2 (s0 : Qc) [q 0; q 0] eq_refl)) as (y & Hy & ->). exists (Ok (replicate 2 s0)). split; [exact Hy|].
  exists (Ok [q 0; q 1]). split.
  { unfold nlift. symmetry. transitivity (Ok [(q 1 / q 2 * (q 0 - 0))%Qc; (q 1 / q 2 * (q 2 - (0 + q 1 * (q 1 / q 2 * (q 0 - 0)))))%Qc]); [reflexivity|].
    f_equal. f_equal; [|f_equal]; apply Qc_is_canon; vm_compute; reflexivity. }
  exists (Ok (replicate 2 s0)). split; [exact Hy|]. exists (Ok (mcur s')). split; [|reflexivity].
  unfold omp_region. cbn [andb negb Nat.eqb]. left. exists (mcur s'). split; [|reflexivity]. exists sched, s'. split; [exact Hrun|]. split; [exact Hdone|reflexivity].
Qed.

Lemma domM_regular ssqrt na ai ch : regular ssqrt (PSgs Scalar na ai ch) domM.
Proof. exists (diag_inv (dense domM)). apply (scalar_bdiag_inverse (dense domM) 2), domM_diag. Qed.
(** there is no vector that every application to (0, 2) returns: with two threads the preconditioner is not a function *)
Theorem C78_threads_refuted : forall ssqrt sabs inv maxthr, 1 <= maxthr ->
  let p := PSgs Scalar 1 INIT_A_ZERO 1 in
  well_equipped inv p domM /\ usable p /\ fits (pshape p) domM /\ regular ssqrt p domM /\
  ~ exists z0, gives ssqrt sabs inv maxthr 2 p domM domM [q 0; q 2] z0.
Proof.
  intros ssqrt sabs inv maxthr Hm p. split; [split; [apply domM_wf|split; [discriminate|exact Logic.I]]|]. split; [cbn; lia|]. split; [reflexivity|].
  split; [apply domM_regular|]. intros [z0 Hg].
  pose (g := Fresh (fun _ _ => q 0) (fun _ _ => 0) (fun _ => 0%Z)).
  pose (pg := {| Sgs.rtol := q 0; atol := q 0; Sgs.dtol := q 0; ctol := false; maxits := 1 |}).
  specialize (Hg (two_state pg) g [q 0; q 0] (two_lived ssqrt sabs inv maxthr pg Hm) eq_refl).
  set (Ta := T 1 (scalar_bgsC domM [(q 1 / q 2)%Qc; (q 1 / q 2)%Qc] [q 0; q 1])).
  assert (exists s1, run Ta one_after_other (minit 2 [[1]; [0]] [q 0; q 0]) = Ok s1 /\ mdone s1 /\ this (vat (mcur s1) 0) = QArith_base.Qmake (-1)%Z 2%positive) as (s1 & R1 & D1 & V1).
  { eexists. split; [reflexivity|]. split; [split; [reflexivity|repeat constructor]|]. vm_compute. reflexivity. }
  assert (exists s2, run Ta overlapping (minit 2 [[1]; [0]] [q 0; q 0]) = Ok s2 /\ mdone s2 /\ this (vat (mcur s2) 0) = QArith_base.Qmake 0%Z 1%positive) as (s2 & R2 & D2 & V2).
  { eexists. split; [reflexivity|]. split; [split; [reflexivity|repeat constructor]|]. vm_compute. reflexivity. }
  destruct (two_results pg g _ s1 R1 D1) as [st1 K1]. destruct (two_results pg g _ s2 R2 D2) as [st2 K2].
  pose proof (nok_out _ _ _ Hg K1) as E1. pose proof (nok_out _ _ _ Hg K2) as E2. cbn beta iota in E1, E2. rewrite E1 in V1. rewrite E2 in V2. rewrite V1 in V2. discriminate.
Qed.

(** sums of squares *)
Definition squares (l : list Qc) (c : Qc) : Qc := foldr (fun a s => (a * a + s)%Qc) c l.
Lemma squares_nonneg l c : nonneg (fun x => Qclt (q 0) x) c -> nonneg (fun x => Qclt (q 0) x) (squares l c).
Proof. intros Hc. induction l as [|a l IH]; [exact Hc|]. apply (nonneg_add _ Qc_ordered); [apply (square_nonneg _ Qc_ordered)|exact IH]. Qed.
Lemma squares_pos l c : nonneg (fun x => Qclt (q 0) x) c -> (exists a, a ∈ l /\ a <> s0) -> Qclt (q 0) (squares l c).
Proof.
  intros Hc (a & Ha & Hne). induction l as [|b l IH]; [apply elem_of_nil in Ha as []|]. cbn [squares foldr]. apply elem_of_cons in Ha as [-> |Ha].
  - apply (pos_nonneg_add _ Qc_ordered); [apply (pos_square _ Qc_ordered), Hne|apply squares_nonneg, Hc].
  - change (b * b + foldr (fun a s => (a * a + s)%Qc) c l)%Qc with (b * b + squares l c)%s. replace (b * b + squares l c)%s with (squares l c + b * b)%s by apply Qcplus_comm.
    apply (pos_nonneg_add _ Qc_ordered); [apply IH, Ha|apply (square_nonneg _ Qc_ordered)].
Qed.
Lemma q_2 : q 2 = (1 + 1)%Qc. Proof. apply Qc_is_canon. reflexivity. Qed.
Lemma domM_form (x : nat -> Qc) : form 2 (dense domM) x = squares [x 0; x 1] ((x 0 + x 1) * (x 0 + x 1))%s.
Proof.
  set (a := x 0). set (b := x 1).
  transitivity (0 + a * (0 + q 2 * a + q 1 * b) + b * (0 + q 1 * a + q 2 * b))%Qc; [reflexivity|].
  change (squares [a; b] ((a + b) * (a + b))%s) with (a * a + (b * b + (a + b) * (a + b)))%Qc.
  rewrite q_2. change (q 1) with 1%Qc. ring.
Qed.

(** ** The backward sweep of a symmetric positive definite matrix is not symmetric *)
Theorem C79_backward_refuted : forall ssqrt sabs inv maxthr, 1 <= maxthr ->
  let p := PCscBgs 1 1 in
  well_equipped inv p domM /\ usable p /\ fits (pshape p) domM /\ regular ssqrt p domM /\ in_order maxthr 1 p /\ symmetric_input p domM /\
  positive_input (fun x => Qclt (q 0) x) p domM /\
  exists zu zv, gives ssqrt sabs inv maxthr 1 p domM domM [q 1; q 0] zu /\ gives ssqrt sabs inv maxthr 1 p domM domM [q 0; q 1] zv /\
    dot 2 [q 1; q 0] zv <> dot 2 zu [q 0; q 1].
Proof.
  intros ssqrt sabs inv maxthr Hm p.
  assert (well_equipped inv p domM) as Heq by (split; [apply domM_wf|split; [discriminate|exact Logic.I]]).
  assert (regular ssqrt p domM) as Hreg by (intros i Hi; apply domM_diag, Hi).
  assert (in_order maxthr 1 p) as Hio by (cbn; lia).
  split; [exact Heq|]. split; [cbn; lia|]. split; [reflexivity|]. split; [exact Hreg|]. split; [exact Hio|]. split; [split; [|exact Logic.I]|split].
  - intros i j Hi Hj. cbn in Hi, Hj. destruct i as [|[|]]; try lia; destruct j as [|[|]]; try lia; reflexivity.
  - intros x (i & Hi & Hx). cbn in Hi. unfold p. cbn [positive_input obj_dim pshape width matrix_of].
    unfold obj_dim. cbn [pshape width]. change (Qclt (q 0) (form 2 (dense domM) x)). rewrite domM_form. set (a := x 0) in *. set (b := x 1) in *.
    apply (squares_pos [a; b]); [apply (square_nonneg _ Qc_ordered)|]. destruct i as [|[|]]; [exists a|exists b|lia]; (split; [|exact Hx]); repeat constructor.
  - destruct (C78_linear ssqrt sabs inv maxthr 1 p domM domM Heq) with (u := [q 1; q 0]) (v := [q 0; q 1]) as (zu & zv & Lu & Lv & Gu & Gv & _); auto; [repeat split|reflexivity|].
    pose proof (operator ssqrt sabs inv maxthr 1 p domM domM (upper (dense domM)) Heq ltac:(repeat split) eq_refl ltac:(lia) Hio Hreg eq_refl) as Hs.
    assert (exists st, lived ssqrt sabs inv p maxthr domM domM st) as [st Hst].
    { pose (g0 := Fresh (fun _ _ => q 0) (fun _ _ => 0) (fun _ => 0%Z)).
      pose (pg := {| Sgs.rtol := q 0; atol := q 0; Sgs.dtol := q 0; ctol := false; maxits := 1 |}).
      destruct (C68_calls_return Qc _ ssqrt sabs inv p maxthr domM Heq ltac:(cbn; lia)) as (H & _ & _).
      destruct (ObjFacts.nok_exists _ _ (H pg 1 g0 domM ltac:(lia) ltac:(repeat split) eq_refl)) as ([st i] & _ & Hl). eauto. }
    pose (g := Fresh (fun _ _ => q 0) (fun _ _ => 0) (fun _ => 0%Z)).
    assert (forall r z, length r = 2 -> length z = 2 -> gives ssqrt sabs inv maxthr 1 p domM domM r z -> is_prod 2 (upper (dense domM)) z r) as Hp.
    { intros r z Hr Hz Hgz. destruct (Hs r Hr) as (z1 & _ & P1 & _ & G1).
      destruct (ObjFacts.nok_exists _ _ (Hgz st g [q 0; q 0] Hst eq_refl)) as ([st1 z2] & Hr2 & ->).
      pose proof (nok_out _ _ _ (G1 st g [q 0; q 0] Hst eq_refl) Hr2) as E. cbn beta iota in E. rewrite E. exact P1. }
    exists zu, zv. split; [exact Gu|]. split; [exact Gv|]. pose proof (Hp [q 1; q 0] zu eq_refl Lu Gu) as Pu. pose proof (Hp [q 0; q 1] zv eq_refl Lv Gv) as Pv. clear - Lu Lv Pu Pv.
    destruct zu as [|a [|b [|]]]; try discriminate. destruct zv as [|c [|d [|]]]; try discriminate.
    pose proof (Pu 1 ltac:(lia)) as U1. pose proof (Pv 0 ltac:(lia)) as V0. pose proof (Pv 1 ltac:(lia)) as V1.
    assert (0 + 0 * a + q 2 * b = q 0)%Qc as U1' by exact U1. assert (0 + q 2 * c + q 1 * d = q 0)%Qc as V0' by exact V0. assert (0 + 0 * c + q 2 * d = q 1)%Qc as V1' by exact V1.
    clear Pu Pv U1 V0 V1. intros E. assert (0 + q 1 * c + q 0 * d = 0 + a * q 0 + b * q 1)%Qc as E' by exact E.
    change (q 0) with 0%Qc in *. replace (q 2) with (1 + 1)%Qc in * by (apply Qc_is_canon; reflexivity). replace (q 1) with 1%Qc in * by (apply Qc_is_canon; reflexivity).
    assert (c = b) as -> by (transitivity (0 + 1 * c + 0 * d)%Qc; [ring|rewrite E'; ring]).
    assert (d = 0)%Qc as -> by (transitivity (0 + (1 + 1) * b + 1 * d - (0 + 0 * a + (1 + 1) * b))%Qc; [ring|rewrite V0', U1'; ring]).
    assert (1 = 0)%Qc as Hbad by (rewrite <- V1'; ring). discriminate.
Qed.

(** ** Cases: a tridiagonal matrix and one of 2x2 blocks, both symmetric and positive definite
        4 2 .        3 1 | 1 .
        2 5 1        1 3 | . 1
        . 1 3        1 . | 4 1
                     . 1 | 1 4   *)
Definition symT : srmat Qc := SR [0; 2; 5; 7] [0; 1; 0; 1; 2; 1; 2] (q <$> [4; 2; 2; 5; 1; 1; 3]%Z) [0; 3; 6] [2; 5; 7] 3 7 7.
Definition symT_lu : list Qc := [q 4; q 2; (q 1 / q 2)%Qc; q 4; q 1; (q 1 / q 4)%Qc; (q 11 / q 4)%Qc].
Definition symB : srmat Qc := SR [0; 2; 4] [0; 1; 0; 1] (q <$> [3; 1; 1; 3;  1; 0; 0; 1;  1; 0; 0; 1;  4; 1; 1; 4]%Z) [0; 3] [2; 4] 2 4 4.
Definition symB_lu : list Qc :=
  [q 3; q 1; q 1; q 3;  q 1; q 0; q 0; q 1;  (q 3 / q 8)%Qc; (q (-1) / q 8)%Qc; (q (-1) / q 8)%Qc; (q 3 / q 8)%Qc;
   (q 29 / q 8)%Qc; (q 9 / q 8)%Qc; (q 9 / q 8)%Qc; (q 29 / q 8)%Qc].
Lemma symT_wf : wf_mat symT.
Proof. split; [apply wfb_pat_ok|split; [apply wfb_diag_ok|apply wfb_sorted_ok]]; reflexivity. Qed.
Lemma symB_wf : wf_mat symB.
Proof. split; [apply wfb_pat_ok|split; [apply wfb_diag_ok|apply wfb_sorted_ok]]; reflexivity. Qed.
Lemma symT_end : wf_end symT.
Proof. split; [reflexivity|]; intros i Hi; cbn in Hi; destruct i as [|[|[|i]]]; [reflexivity..|lia]. Qed.
Lemma symB_end : wf_end symB.
Proof. split; [reflexivity|]; intros i Hi; cbn in Hi; destruct i as [|[|i]]; [reflexivity..|lia]. Qed.
Lemma symT_pattern : sym_pattern symT. Proof. apply sym3; reflexivity. Qed.
Lemma symB_pattern : sym_pattern symB.
Proof. intros i j Hi Hj. cbn in Hi, Hj. destruct i as [|[|]]; try lia; destruct j as [|[|]]; try lia; vm_compute; discriminate. Qed.
Lemma symT_symm : symm 3 (dense symT).
Proof. intros i j Hi Hj. destruct i as [|[|[|]]]; try lia; destruct j as [|[|[|]]]; try lia; reflexivity. Qed.
Lemma symB_symm : symm 4 (bdense RowMajor 2 symB).
Proof. intros i j Hi Hj. destruct i as [|[|[|[|]]]]; try lia; destruct j as [|[|[|[|]]]]; try lia; reflexivity. Qed.
Lemma symT_nonzero i : i < 3 -> dense symT i i <> s0.
Proof. intros Hi. destruct i as [|[|[|i]]]; [discriminate..|lia]. Qed.
Lemma symT_factors : incomplete_factors Scalar symT (unitlower (entry symT symT_lu)) (upper (entry symT symT_lu)).
Proof.
  exists symT_lu. split; [reflexivity|]. split; [reflexivity|]. split; [reflexivity|]. split.
  - intros i c Hi Hc _. cbn in Hi, Hc. destruct i as [|[|[|]]]; try lia; destruct c as [|[|[|]]]; try lia; apply Qc_is_canon; vm_compute; reflexivity.
  - intros k Hk. cbn in Hk. destruct k as [|[|[|]]]; [vm_compute; discriminate..|lia].
Qed.
Definition mat2 (a b c d : Qc) (i j : nat) : Qc := match i, j with 0, 0 => a | 0, 1 => b | 1, 0 => c | _, _ => d end.
Lemma symB_factors : incomplete_factors (Blocks 2 RowMajor) symB (bunitlower 2 (bentry RowMajor 2 symB symB_lu)) (bupper 2 (bentry RowMajor 2 symB symB_lu) (bentry RowMajor 2 symB symB_lu)).
Proof.
  exists symB_lu. split; [reflexivity|]. split; [reflexivity|]. split; [reflexivity|]. split.
  - intros i c Hi Hc _. cbn in Hi, Hc. destruct i as [|[|[|[|]]]]; try lia; destruct c as [|[|[|[|]]]]; try lia; apply Qc_is_canon; vm_compute; reflexivity.
  - intros k Hk. cbn in Hk. destruct k as [|[|]]; [..|lia].
    + exists (mat2 (q 3 / q 8)%Qc (q (-1) / q 8)%Qc (q (-1) / q 8)%Qc (q 3 / q 8)%Qc). intros [|[|]] [|[|]] H1 H2; try lia; split; apply Qc_is_canon; vm_compute; reflexivity.
    + exists (mat2 (q 29 / q 95)%Qc (q (-9) / q 95)%Qc (q (-9) / q 95)%Qc (q 29 / q 95)%Qc). intros [|[|]] [|[|]] H1 H2; try lia; split; apply Qc_is_canon; vm_compute; reflexivity.
Qed.
Lemma symB_inverse : is_inverse (2 * 2) (bdiag 2 (bdense RowMajor 2 symB))
  (fun i j => if decide (i / 2 = j / 2) then (if decide (i / 2 = 0) then mat2 (q 3 / q 8)%Qc (q (-1) / q 8)%Qc (q (-1) / q 8)%Qc (q 3 / q 8)%Qc (i mod 2) (j mod 2)
     else mat2 (q 4 / q 15)%Qc (q (-1) / q 15)%Qc (q (-1) / q 15)%Qc (q 4 / q 15)%Qc (i mod 2) (j mod 2)) else s0).
Proof. intros [|[|[|[|]]]] [|[|[|[|]]]] H1 H2; try lia; split; apply Qc_is_canon; vm_compute; reflexivity. Qed.
Definition ordered_classes (sh : shape) : list prec := [PJacobi sh; PSgs sh 2 INIT_A_JACOBI 3; PLevelSgs sh; PIlu sh exSet; PLevelIlu sh exSet; PNone (width sh)].
Definition usual (nthr : nat) (p : prec) (M : srmat Qc) : Prop :=
  well_equipped inv2 p M /\ usable p /\ same_pattern M M /\ fits (pshape p) M /\ in_order 4 nthr p /\ regular (fun x => x) p M /\
  exists st, lived (fun x => x) (fun x => x) inv2 p 4 M M st.
Lemma usual_lived nthr p M : well_equipped inv2 p M -> usable p -> fits (pshape p) M -> in_order 4 nthr p -> regular (fun x => x) p M -> usual nthr p M.
Proof.
  intros H1 H2 H3 H4 H5. split; [exact H1|]. split; [exact H2|]. split; [repeat split|]. split; [exact H3|]. split; [exact H4|]. split; [exact H5|].
  pose (g0 := Fresh (fun _ _ => q 0) (fun _ _ => 0) (fun _ => 0%Z)).
  pose (pg := {| Sgs.rtol := q 0; atol := q 0; Sgs.dtol := q 0; ctol := false; maxits := 1 |}).
  destruct (C68_calls_return Qc _ (fun x => x) (fun x => x) inv2 p 4 M H1 H2) as (H & _ & _).
  destruct (ObjFacts.nok_exists _ _ (H pg 2 g0 M ltac:(lia) ltac:(repeat split) H3)) as ([st i] & _ & Hl). eauto.
Qed.
Lemma symT_equipped p : p ∈ PCscBgs 2 3 :: ordered_classes Scalar -> well_equipped inv2 p symT.
Proof.
  intros Hp. split; [exact symT_wf|]. split; [intros _; exact symT_pattern|].
  unfold ordered_classes in Hp. repeat (apply elem_of_cons in Hp as [-> |Hp]; [|]); try (apply elem_of_nil in Hp as []); try exact Logic.I; (split; [exact Logic.I|exact symT_end]).
Qed.
Lemma symB_equipped p : p ∈ ordered_classes (Blocks 2 RowMajor) -> well_equipped inv2 p symB.
Proof.
  intros Hp. assert (lawful inv2 (Blocks 2 RowMajor)) as Hlaw by (split; [lia|apply inv2_oracle]).
  split; [exact symB_wf|]. split; [intros _; exact symB_pattern|].
  unfold ordered_classes in Hp. repeat (apply elem_of_cons in Hp as [-> |Hp]; [|]); try (apply elem_of_nil in Hp as []); try exact Logic.I; try exact Hlaw; (split; [exact Hlaw|exact symB_end]).
Qed.
Example C78_case : forall p, p ∈ PCscBgs 2 3 :: ordered_classes Scalar -> usual 1 p symT.
Proof.
  intros p Hp. assert (forall i, i < 3 -> dense symT i i <> s0) as Hd by (intros; apply symT_nonzero; auto).
  assert (exists E, is_inverse (3 * 1) (bdiag 1 (dense symT)) E) as Hinv by (eexists; apply (scalar_bdiag_inverse (dense symT) 3), Hd).
  pose proof (symT_equipped p Hp) as Heq.
  unfold ordered_classes in Hp. repeat (apply elem_of_cons in Hp as [-> |Hp]; [|]); try (apply elem_of_nil in Hp as []); apply usual_lived; auto;
    try reflexivity; try exact Hinv; try exact Hd; try exact Logic.I; try (cbn; lia).
  all: try (cbn; repeat split; try lia; try discriminate; auto; intros _; left; discriminate).
  all: split; [do 2 eexists; exact symT_factors|]; intros _ k Hk; cbn in Hk; apply Hd; lia.
Qed.
Example C78_block_case : forall p, p ∈ ordered_classes (Blocks 2 RowMajor) -> usual 1 p symB.
Proof.
  intros p Hp.
  assert (exists E, is_inverse (2 * 2) (bdiag 2 (bdense RowMajor 2 symB)) E) as Hinv by (eexists; apply symB_inverse).
  pose proof (symB_equipped p Hp) as Heq.
  unfold ordered_classes in Hp. repeat (apply elem_of_cons in Hp as [-> |Hp]; [|]); try (apply elem_of_nil in Hp as []); apply usual_lived; auto;
    try reflexivity; try exact Hinv; try exact Logic.I; try (cbn; lia).
  all: try (cbn; repeat split; try lia; try discriminate; auto; fail).
  all: split; [do 2 eexists; exact symB_factors|]; intros _ k Hk; cbn in Hk; destruct k as [|[|[|[|]]]]; [vm_compute; discriminate..|lia].
Qed.
Notation positive := (fun x : Qc => Qclt (q 0) x).
Lemma symT_form (x : nat -> Qc) : form 3 (dense symT) x =
  squares [x 0; x 0; x 1; x 1; x 2; x 2; x 0 + x 1; x 0 + x 1]%s ((x 1 + x 2) * (x 1 + x 2))%s.
Proof.
  set (a := x 0). set (b := x 1). set (c := x 2).
  transitivity (0 + a * (0 + q 4 * a + q 2 * b + 0 * c) + b * (0 + q 2 * a + q 5 * b + q 1 * c) + c * (0 + 0 * a + q 1 * b + q 3 * c))%Qc; [reflexivity|].
  transitivity (a * a + (a * a + (b * b + (b * b + (c * c + (c * c + ((a + b) * (a + b) + ((a + b) * (a + b) + (b + c) * (b + c)))))))))%Qc; [|reflexivity].
  replace (q 4) with (1 + 1 + 1 + 1)%Qc by (apply Qc_is_canon; reflexivity). replace (q 5) with (1 + 1 + 1 + 1 + 1)%Qc by (apply Qc_is_canon; reflexivity).
  replace (q 3) with (1 + 1 + 1)%Qc by (apply Qc_is_canon; reflexivity). rewrite q_2. change (q 1) with 1%Qc. ring.
Qed.
Lemma symT_pos : pos_def positive 3 (dense symT).
Proof.
  intros x (i & Hi & Hx). rewrite symT_form. set (a := x 0) in *. set (b := x 1) in *. set (c := x 2) in *.
  apply squares_pos; [apply (square_nonneg _ Qc_ordered)|]. exists (x i). split; [|exact Hx]. destruct i as [|[|[|]]]; [..|lia]; repeat constructor.
Qed.
Lemma symB_form (x : nat -> Qc) : form 4 (bdense RowMajor 2 symB) x =
  squares [x 0; x 1; x 2; x 2; x 3; x 3; x 0 + x 1; x 0 + x 2; x 1 + x 3]%s ((x 2 + x 3) * (x 2 + x 3))%s.
Proof.
  set (a := x 0). set (b := x 1). set (c := x 2). set (d := x 3).
  transitivity (0 + a * (0 + q 3 * a + q 1 * b + q 1 * c + q 0 * d) + b * (0 + q 1 * a + q 3 * b + q 0 * c + q 1 * d) +
    c * (0 + q 1 * a + q 0 * b + q 4 * c + q 1 * d) + d * (0 + q 0 * a + q 1 * b + q 1 * c + q 4 * d))%Qc; [reflexivity|].
  transitivity (a * a + (b * b + (c * c + (c * c + (d * d + (d * d + ((a + b) * (a + b) + ((a + c) * (a + c) + ((b + d) * (b + d) + (c + d) * (c + d))))))))))%Qc; [|reflexivity].
  replace (q 4) with (1 + 1 + 1 + 1)%Qc by (apply Qc_is_canon; reflexivity).
  replace (q 3) with (1 + 1 + 1)%Qc by (apply Qc_is_canon; reflexivity). change (q 0) with 0%Qc. change (q 1) with 1%Qc. ring.
Qed.
Lemma symB_pos : pos_def positive 4 (bdense RowMajor 2 symB).
Proof.
  intros x (i & Hi & Hx). rewrite symB_form. set (a := x 0) in *. set (b := x 1) in *. set (c := x 2) in *. set (d := x 3) in *.
  apply squares_pos; [apply (square_nonneg _ Qc_ordered)|]. exists (x i). split; [|exact Hx]. destruct i as [|[|[|[|]]]]; [..|lia]; repeat constructor.
Qed.
Lemma pos_times c x : Qclt (q 0) c -> x <> s0 -> Qclt (q 0) (c * (x * x))%s.
Proof. intros Hc Hx. apply (pos_mul _ Qc_ordered _ _ Hc), (pos_square _ Qc_ordered), Hx. Qed.
Lemma nonneg_times c x : Qclt (q 0) c -> nonneg positive (c * (x * x))%s.
Proof.
  intros Hc. destruct (Qc_eq_dec x s0) as [-> |Hx]; [left|right; apply pos_times; auto]. change (c * (0 * 0) = 0)%Qc. ring.
Qed.
(** (a + b  b; b  a + b) with a, b > 0 is positive definite *)
Lemma two_pos (A : nat -> nat -> Qc) a b : Qclt (q 0) a -> Qclt (q 0) b -> A 0 0 = (a + b)%Qc -> A 0 1 = b -> A 1 0 = b -> A 1 1 = (a + b)%Qc -> pos_def positive 2 A.
Proof.
  intros Ha Hb E1 E2 E3 E4 x (i & Hi & Hx).
  assert (form 2 A x = a * (x 0%nat * x 0%nat) + a * (x 1%nat * x 1%nat) + b * ((x 0%nat + x 1%nat) * (x 0%nat + x 1%nat)))%s as ->.
  { unfold form. cbn [bsum]. rewrite E1, E2, E3, E4. set (u := x 0). set (v := x 1).
    change (0 + u * (0 + (a + b) * u + b * v) + v * (0 + b * u + (a + b) * v) = a * (u * u) + a * (v * v) + b * ((u + v) * (u + v)))%Qc. ring. }
  apply (pos_nonneg_add _ Qc_ordered); [|apply nonneg_times, Hb]. destruct i as [|[|]]; [..|lia].
  - apply (pos_nonneg_add _ Qc_ordered); [apply pos_times; auto|apply nonneg_times, Ha].
  - replace (a * (x 0%nat * x 0%nat) + a * (x 1%nat * x 1%nat))%s with (a * (x 1%nat * x 1%nat) + a * (x 0%nat * x 0%nat))%s by apply Qcplus_comm.
    apply (pos_nonneg_add _ Qc_ordered); [apply pos_times; auto|apply nonneg_times, Ha].
Qed.
Lemma one_pos (A : nat -> nat -> Qc) : Qclt (q 0) (A 0 0) -> pos_def positive 1 A.
Proof.
  intros Ha x (i & Hi & Hx). destruct i; [|lia]. assert (form 1 A x = A 0%nat 0%nat * (x 0%nat * x 0%nat))%s as ->; [|apply pos_times; auto].
  unfold form. cbn [bsum]. set (u := x 0). set (c := A 0 0). change (0 + u * (0 + c * u) = c * (u * u))%Qc. ring.
Qed.
Example C79_case : forall p, p ∈ ordered_classes Scalar ->
  ordered positive /\ symmetric_class p /\ symmetric_input p symT /\ positive_input positive p symT /\
  length [q 1; q 2; q 3] = obj_dim p symT /\ vat [q 1; q 2; q 3] 1 <> s0.
Proof.
  intros p Hp. split; [exact Qc_ordered|].
  unfold ordered_classes in Hp. repeat (apply elem_of_cons in Hp as [-> |Hp]; [|]); try (apply elem_of_nil in Hp as []);
    (split; [exact Logic.I|]); (split; [split; [first [exact symT_symm|exact Logic.I]|try exact Logic.I; exact symT_pattern]|]); (split; [|split; [reflexivity|discriminate]]); try exact Logic.I; try exact symT_pos.
  all: do 2 eexists; split; [exact symT_factors|]; intros k Hk; cbn in Hk; apply one_pos; destruct k as [|[|[|]]]; [vm_compute; reflexivity..|lia].
Qed.
Example C79_block_case : forall p, p ∈ ordered_classes (Blocks 2 RowMajor) ->
  ordered positive /\ symmetric_class p /\ symmetric_input p symB /\ positive_input positive p symB /\
  length [q 1; q 2; q 3; q 4] = obj_dim p symB /\ vat [q 1; q 2; q 3; q 4] 1 <> s0.
Proof.
  intros p Hp. split; [exact Qc_ordered|].
  unfold ordered_classes in Hp. repeat (apply elem_of_cons in Hp as [-> |Hp]; [|]); try (apply elem_of_nil in Hp as []);
    (split; [exact Logic.I|]).
  all: split; [split; [first [exact symB_symm|exact Logic.I]|try exact Logic.I; exact symB_pattern]|]; (split; [|split; [reflexivity|discriminate]]); try exact Logic.I; try exact symB_pos.
  all: do 2 eexists; split; [exact symB_factors|]; intros k Hk; cbn in Hk; destruct k as [|[|]]; [apply (two_pos _ (q 2) (q 1))|apply (two_pos _ (q 5 / q 2)%Qc (q 9 / q 8)%Qc)|lia];
    try (vm_compute; reflexivity); apply Qc_is_canon; vm_compute; reflexivity.
Qed.

Print Assumptions C78_linear.
Print Assumptions C78_threads_refuted.
Print Assumptions C79_symmetric.
Print Assumptions C79_positive.
Print Assumptions C79_backward_refuted.
