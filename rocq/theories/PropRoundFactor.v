(** * PropRoundFactor: property C92 (the incomplete factorisation computed with rounding
      errors, and the solver it gives when there is no fill-in)

    [Of] are the operations of a machine with rounding ([rounds], Rounding.v); the
    matrices, sums and products in the conclusions are exact. L and U are the factors
    that the library computes. *)
From Coq Require Import QArith.Qcanon QArith.Qcabs Field.
From Verif Require Import Base Alg Inst Rounding RoundFacts RoundSolve RoundMatvec RoundInst RoundBounds RoundFactor SRMatrix Async AsyncTheory AsyncSystem Nd
  Kernels KernelFacts Helpers IluPattern IluPatternFacts IluApply IluApplyFacts TriSpec TriFacts IluApplyProofs Chains IluApplyMain
  Sgs SgsFacts SgsForms SgsMain IluFactor IluFactorFacts IluFactorProofs IluFactorInit IluFactorMain PropIluFactor PropIluSolve PropRounding.

Open Scope Qc_scope.

Lemma dense_machine u Of : rounds u Of -> forall M i j, @dense Qc Of M i j = dense M i j.
Proof. intros H M i j. unfold dense. rewrite (rd_zero u Of H). reflexivity. Qed.

(** every sequential set-up from scratch gives the same factors; if no computed pivot is
    zero, then at every stored position the entry of the (scaled) matrix is exactly the
    sum of the products L_it U_tc, each multiplied by a factor that stands for at most
    [rowlen] roundings, and two more for a scaling *)
Theorem C92_factorisation : forall u (Of : machine) ssqrt sabs (M : srmat Qc) usescaling,
  let n := nbrows M in
  let A := dense M in
  let scale := @scale_used Qc Of ssqrt usescaling n A in
  rounds u Of -> wf_mat M -> length (vals M) = nnz M ->
  exists lu, length lu = nnz M /\
    (forall k chunk usethreads nthr finit info gi gs,
      length gi = nnz M -> length gs = n -> (1 <= k)%nat -> (1 <= chunk)%nat -> usethreads = false \/ nthr = 1%nat ->
      finit <> INIT_F_SGS \/ usescaling = false ->
      nok (@scalar_ilu0_compute Qc Of ssqrt sabs k chunk usethreads nthr finit usescaling info gi gs M ilu_new)
          (fun '(st, _) => st_ilu st = Some lu /\ st_scale st = scale)) /\
    let L := unitlower (entry M lu) in
    let U := upper (entry M lu) in
    ((forall i, (i < n)%nat -> entry M lu i i <> 0) ->
     forall i c, (i < n)%nat -> (c < n)%nat -> pos M i c <> None ->
       exists T, (forall t, close u (rowlen M i + 2 * scale_roundings scale) (T t)) /\
         scaled_mat scale A i c = bsum n (fun t => L i t * U t c * T t)).
Proof.
  intros u Of ssqrt sabs M us n A scale H HM Hv. pose proof HM as (Hw & Hd & Hs).
  assert ((if us then Some (@scaling_list Qc Of ssqrt M 1) else None) = scale) as Esc.
  { unfold scale, scale_used. destruct us; [|reflexivity]. f_equal. rewrite (@scaling_dense Qc Of) by exact HM.
    unfold diagonal_scale. apply list_fmap_ext. intros k x _. rewrite (dense_machine u Of H). reflexivity. }
  destruct (@compute_sequential Qc Of ssqrt sabs M Hw Hd Hs Hv us) as (lu & H1 & H2 & H3).
  pose proof (@sc_of_ok1 Qc Of ssqrt M us) as Hsc. rewrite Esc in *.
  pose proof H1 as [Hl _]. rewrite Nat.mul_1_r in Hl.
  exists lu. split; [exact Hl|]. split.
  - intros k chunk ut nthr finit info gi gs Hgi Hgs Hk Hc Hseq Hsgs.
    eapply nok_mono; [apply (H3 k chunk ut nthr finit info gi gs ilu_new); auto|].
    + intros -> ->. destruct Hsgs as [Hx|Hx]; [contradiction|discriminate].
    + intros [st i] [-> _]. auto.
  - intros L U Hp i c Hi Hc Hpos. apply (consistent_fl u Of H M Hw Hd Hs scale lu Hv Hsc Hl H1 Hp i c Hi Hc Hpos).
Qed.

Definition absm (A : nat -> nat -> Qc) (i j : nat) : Qc := Qcabs (A i j).
Lemma mprod_abs n L U i j : mprod n (absm L) (absm U) i j = bsum n (fun t => Qcabs (L i t * U t j)).
Proof. unfold mprod, absm. apply bsum_ext. intros t Ht. symmetry. apply Qcabs_Qcmult. Qed.

(** the same as an additive error: L U differs from the (scaled) matrix at the stored
    positions by at most k u / (1 - k u) times |L| |U| *)
Theorem C92_factorisation_error : forall u (Of : machine) ssqrt sabs (M : srmat Qc) usescaling m,
  let n := nbrows M in
  let A := dense M in
  let scale := @scale_used Qc Of ssqrt usescaling n A in
  let k := (m + 2 * scale_roundings scale)%nat in
  rounds u Of -> wf_mat M -> length (vals M) = nnz M -> (forall i, (i < n)%nat -> (rowlen M i <= m)%nat) -> count k * u <= 1 ->
  exists lu, length lu = nnz M /\
    (forall nsweeps chunk usethreads nthr finit info gi gs,
      length gi = nnz M -> length gs = n -> (1 <= nsweeps)%nat -> (1 <= chunk)%nat -> usethreads = false \/ nthr = 1%nat ->
      finit <> INIT_F_SGS \/ usescaling = false ->
      nok (@scalar_ilu0_compute Qc Of ssqrt sabs nsweeps chunk usethreads nthr finit usescaling info gi gs M ilu_new)
          (fun '(st, _) => st_ilu st = Some lu /\ st_scale st = scale)) /\
    let L := unitlower (entry M lu) in
    let U := upper (entry M lu) in
    ((forall i, (i < n)%nat -> entry M lu i i <> 0) ->
     forall i c, (i < n)%nat -> (c < n)%nat -> pos M i c <> None ->
       within u k (mprod n L U i c - scaled_mat scale A i c) (mprod n (absm L) (absm U) i c)).
Proof.
  intros u Of ssqrt sabs M us m n A scale k H HM Hv Hm Hk.
  pose proof (rd_nonneg u Of H) as Hu0. pose proof (rd_lt u Of H) as Hu1.
  destruct (C92_factorisation u Of ssqrt sabs M us H HM Hv) as (lu & Hl & Hrun & Hex). fold n A scale in Hrun, Hex.
  exists lu. split; [exact Hl|]. split; [exact Hrun|]. intros L U Hp i c Hi Hc Hpos.
  destruct (Hex Hp i c Hi Hc Hpos) as (T & HT & E). rewrite E, mprod_abs. unfold mprod.
  apply (weighted_within u Hu0 Hu1 n k (fun t => L i t * U t c) T Hk). intros t Ht.
  eapply (close_mono u Hu0 Hu1); [|apply HT]. specialize (Hm i Hi). unfold k. lia.
Qed.

(** where there is no room for an entry there is no error *)
Lemma fill_within u k (M : srmat Qc) lu : 0 <= u -> no_fill M ->
  let n := nbrows M in
  let L := unitlower (entry M lu) in
  let U := upper (entry M lu) in
  (forall i c, (i < n)%nat -> (c < n)%nat -> pos M i c <> None ->
     within u k (mprod n L U i c - dense M i c) (mprod n (absm L) (absm U) i c)) ->
  forall i j, (i < n)%nat -> (j < n)%nat -> within u k (mprod n L U i j - dense M i j) (mprod n (absm L) (absm U) i j).
Proof.
  intros Hu0 Hnf n L U Hex i j Hi Hj.
  assert (0 <= mprod n (absm L) (absm U) i j) as Hnn.
  { rewrite mprod_abs. apply bsum_nonneg. intros. apply Qcabs_nonneg. }
  destruct (decide (pos M i j = None)) as [Hnone|Hsome]; [|apply Hex; auto].
  assert (mprod n L U i j - dense M i j = 0) as ->.
  { assert (dense M i j = 0) as -> by (unfold dense; rewrite Hnone; reflexivity).
    assert (mprod n L U i j = 0) as ->; [|ring]. unfold mprod. change (0:Qc) with (@s0 Qc Qc_ops). apply bsum_zero. intros t Ht. unfold L, U, unitlower, upper, entry.
    change (@smul Qc Qc_ops) with Qcmult. change (@s0 Qc Qc_ops) with (0:Qc). change (@s1 Qc Qc_ops) with (1:Qc).
    destruct (decide (t < i)%nat), (decide (t <= j)%nat); try ring.
    - destruct (decide (t = j)) as [->|Hne]; [rewrite Hnone; ring|].
      destruct (pos M i t) eqn:E1; [|ring]. destruct (pos M t j) eqn:E2; [|ring].
      exfalso. apply (Hnf i j t); auto; try congruence; lia.
    - destruct (decide (i = t)) as [->|]; [|ring]. rewrite Hnone. ring. }
  unfold within. rewrite Qcabs_pos by apply Qcle_refl. rewrite Qcmult_0_l.
  apply Qcmul_nonneg; [|exact Hnn]. apply Qcmul_nonneg; [apply count_nonneg|exact Hu0].
Qed.

(** set up, then apply, without scaling, for a matrix whose pattern has room for its
    factors: the result z solves (A + E) z = r with |E| at most k u / (1 - k u) times
    |L| |U|, where k = 3 m + 2 and no row stores more than m entries *)
Theorem C92_direct_solver : forall u (Of : machine) ssqrt sabs (M : srmat Qc) m,
  let n := nbrows M in
  let A := dense M in
  let k := (3 * m + 2)%nat in
  rounds u Of -> wf_mat M -> length (vals M) = nnz M -> no_fill M ->
  (forall i, (i < n)%nat -> (rowlen M i <= m)%nat) -> count k * u <= 1 ->
  exists lu,
    (forall nsweeps chunk usethreads nthr finit info gi gs,
      length gi = nnz M -> length gs = n -> (1 <= nsweeps)%nat -> (1 <= chunk)%nat -> usethreads = false \/ nthr = 1%nat ->
      nok (@scalar_ilu0_compute Qc Of ssqrt sabs nsweeps chunk usethreads nthr finit false info gi gs M ilu_new)
          (fun '(st, _) => st_ilu st = Some lu /\ st_scale st = None)) /\
    let L := unitlower (entry M lu) in
    let U := upper (entry M lu) in
    ((forall i, (i < n)%nat -> entry M lu i i <> 0) -> forall r, length r = n ->
     exists y z E, is_prod n (fun i j => A i j + E i j) z r /\
       (forall i j, (i < n)%nat -> (j < n)%nat -> within u k (E i j) (mprod n (absm L) (absm U) i j)) /\
       (forall ytemp z0 nsweeps chunk usethreads nthr init,
         length ytemp = n -> length z0 = n -> (1 <= nsweeps)%nat -> (1 <= chunk)%nat -> init <> INIT_A_NONE ->
         usethreads = false \/ nthr = 1%nat ->
         nok (@scalar_ilu0_apply Qc Of M lu None ytemp nsweeps chunk usethreads nthr init r z0) (fun out => out = (y, z))) /\
       (forall levels ytemp z0 nthr, valid_levels M levels -> (1 <= nthr)%nat -> length ytemp = n -> length z0 = n ->
         nok (@scalar_level_ilu0_apply Qc Of M lu levels None ytemp nthr r z0) (fun out => out = (y, z)))).
Proof.
  intros u Of ssqrt sabs M m n A k H HM Hv Hnf Hm Hk.
  pose proof (rd_nonneg u Of H) as Hu0. pose proof (rd_lt u Of H) as Hu1.
  assert (forall j, (j <= k)%nat -> count j * u <= 1) as Hcj.
  { intros j Hj. eapply Qcle_trans; [|exact Hk]. apply Qcmult_le_compat_r; [apply count_mono, Hj|exact Hu0]. }
  destruct (C92_factorisation_error u Of ssqrt sabs M false m H HM Hv Hm) as (lu & Hl & Hrun & Hex).
  { apply Hcj. unfold k, scale_roundings. simpl. lia. }
  exists lu. split; [intros; apply Hrun; auto|]. intros L U Hp r Hr.
  destruct (C91_ilu_backward_error u Of M lu r m H HM Hl Hp Hr Hm) as (y & z & E & HE & HB & Hseq & Hlev).
  { apply Hcj. unfold k. lia. }
  fold n L U in HE, HB, Hex. specialize (Hex Hp). cbn [scale_used scale_roundings scaled_mat] in Hex.
  exists y, z, (fun i j => mprod n L U i j - A i j + E i j). split.
  - intros i Hi. rewrite <- (HE i Hi). apply bsum_ext. intros j Hj. f_equal. ring.
  - split; [|split; assumption]. intros i j Hi Hj.
    assert (0 <= mprod n (absm L) (absm U) i j) as Hnn.
    { rewrite mprod_abs. apply bsum_nonneg. intros. apply Qcabs_nonneg. }
    replace k with (m + (2 * m + 2))%nat by (unfold k; lia). apply (within_add u Hu0); [exact Hnn| |apply HB; auto].
    apply (fill_within u m M lu Hu0 Hnf); auto. intros i' c' Hi' Hc' Hs'. specialize (Hex i' c' Hi' Hc' Hs').
    replace m with (m + 2 * 0)%nat by lia. exact Hex.
Qed.

(** ** Not vacuous: a tridiagonal matrix, 53 binary digits, and a run in which the
    factors really are rounded *)
Example C92_cond : wf_mat exM /\ length (vals exM) = nnz exM /\ no_fill exM /\
  (forall i, (i < nbrows exM)%nat -> (rowlen exM i <= 3)%nat) /\ count (3 * 3 + 2) * (1 / q (2 ^ 53)) <= 1.
Proof.
  destruct C57_case as (H1 & H2 & H3). split; [exact H1|]. split; [exact H2|]. split; [exact H3|].
  split; [intros [|[|[|]]] H; [vm_compute; lia..|simpl in H; lia]|]. vm_compute. discriminate.
Qed.

(** the factors of [exM] with 53 digits: l_21 is 2/9 rounded, and so is the last pivot *)
Definition frac (a b : Z) : Qc := q a / q b.
Definition fl_lu : list Qc :=
  [q 4; q 1; frac 1 2; frac 9 2; q 1; frac 2001599834386887 9007199254740992; frac 12509998964918045 4503599627370496].
Example C92_case :
  (forall k chunk usethreads nthr finit info gi gs,
    length gi = 7%nat -> length gs = 3%nat -> (1 <= k)%nat -> (1 <= chunk)%nat -> usethreads = false \/ nthr = 1%nat ->
    nok (@scalar_ilu0_compute Qc double_machine (fun x => x) (fun x => x) k chunk usethreads nthr finit false info gi gs exM ilu_new)
        (fun '(st, _) => st_ilu st = Some fl_lu)) /\
  (forall i, (i < 3)%nat -> entry exM fl_lu i i <> 0) /\
  mprod 3 (unitlower (entry exM fl_lu)) (upper (entry exM fl_lu)) 2 1 <> dense exM 2 1.
Proof.
  pose proof exM_pat as Hw. pose proof exM_diag as Hd. pose proof exM_sorted as Hs.
  split; [|split].
  - destruct (@compute_sequential Qc double_machine (fun x => x) (fun x => x) exM Hw Hd Hs eq_refl false) as (lu & _ & H2 & H3).
    assert (fl_lu = lu) as <-; [|intros; eapply nok_mono; [apply H3; auto; discriminate|]; intros [st i] [-> _]; reflexivity].
    apply H2. split; [reflexivity|]. intros j Hj.
    assert (match exec fl_lu (entC exM (@factor_entry Qc double_machine exM (positions exM) None) j) with
            | Ok (x :: nil, _) => QArith_base.Qeq_bool (this x) (this (vat fl_lu j)) | _ => false end = true) as Hc.
    { change (nnz exM) with 7%nat in Hj. do 7 (destruct j as [|j]; [vm_compute; reflexivity|]). lia. }
    pose proof (@Hks Qc double_machine exM None Hw Hd Hs eq_refl Logic.I j Hj) as [_ Hk].
    destruct (exec_wp fl_lu (entC exM (@factor_entry Qc double_machine exM (positions exM) None) j) (fun _ => True)) as (a & Ha & _).
    { eapply wp_mono; [exact Hk| | |auto..].
      - intros l (_ & Hl & _). apply lookup_lt_is_Some_2. simpl in *. lia.
      - intros l v _ (_ & Hl). exact Hl. }
    rewrite Ha in Hc. destruct a as [|x [|]]; try discriminate. apply QArith_base.Qeq_bool_eq in Hc.
    apply (fix_at_1 (O := Qc_ops) _ fl_lu j x); [exact Ha|exact Hj|]. apply Qc_is_canon. symmetry. exact Hc.
  - intros [|[|[|]]] Hi; [discriminate..|lia].
  - intros E. apply (f_equal (fun x => QArith_base.Qeq_bool (this x) (this (dense exM 2 1)))) in E. vm_compute in E. discriminate.
Qed.

Print Assumptions C92_factorisation.
Print Assumptions C92_factorisation_error.
Print Assumptions C92_direct_solver.
