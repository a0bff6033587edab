(** * PropReduceFactor: property C95 (the order of the subtractions in the incomplete
      factorisation, and fused operations, do not matter)

    The sums in the sweeps are evaluated as [ord] says ([valid_sorder], ReduceFactor.v),
    those of the solver's triangular solves as [ord1] and [ord2] say ([valid_order],
    Reduce.v). *)
From Coq Require Import QArith.Qcanon QArith.Qcabs Field.
From Verif Require Import Base Alg Inst Rounding RoundFacts RoundDot RoundSolve RoundInst RoundBounds RoundFactor SRMatrix Async AsyncTheory AsyncSystem Nd
  Kernels KernelFacts IluPattern IluPatternFacts IluApply IluApplyFacts TriSpec TriFacts IluApplyProofs Chains IluApplyMain
  Sgs SgsFacts SgsForms SgsMain IluFactor IluFactorFacts IluFactorProofs IluFactorInit IluFactorMain PropIluFactor PropIluSolve PropRounding PropRoundFactor
  Reduce ReduceFacts PropReduce ReduceFactor ReduceFactorFacts RoundReduce.

(** ** In exact arithmetic every way of evaluating the sums has the same outcomes, for
    every matrix, object, number of threads, schedule and initialisation *)
Theorem C95_exact : forall F (O : SOps F), CRing F -> forall (sfnma : F -> F -> F -> F) ord1 ord2 fused,
  (forall a b c, sfnma a b c = (c - a * b)%s) -> valid_sorder ord1 -> valid_sorder ord2 ->
  forall ssqrt sabs k chunk usethreads nthr finit usescaling info gi gs (M : srmat F) st o,
    compute_with ssqrt sabs (entry_rsum sfnma ord1) (entry_rsum sfnma ord2) (msub sfnma fused)
      k chunk usethreads nthr finit usescaling info gi gs M st o <->
    scalar_ilu0_compute ssqrt sabs k chunk usethreads nthr finit usescaling info gi gs M st o.
Proof.
  intros F O R sfnma ord1 ord2 fused Hn H1 H2 ssqrt sabs k chunk ut nthr finit us info gi gs M st o.
  rewrite <- (compute_plain ssqrt sabs). symmetry.
  apply (neq_compute entry_sum entry_sum _ _ ssqrt sabs msub_plain (msub sfnma fused)).
  - apply rsum_same; auto.
  - apply rsum_same; auto.
  - intros a b c. symmetry. apply msub_exact, Hn.
Qed.

Open Scope Qc_scope.

(** ** With rounding errors the bound of C92 holds with twice the number of roundings *)
Theorem C95_factorisation : forall u (Of : machine) sfma sfnma ord ord' fused ssqrt sabs (M : srmat Qc) usescaling,
  let n := nbrows M in
  let A := dense M in
  let scale := @scale_used Qc Of ssqrt usescaling n A in
  rounds u Of -> fused_rounds u sfma sfnma -> valid_sorder ord -> wf_mat M -> length (vals M) = nnz M ->
  exists lu, length lu = nnz M /\
    (forall k chunk usethreads nthr finit info gi gs,
      length gi = nnz M -> length gs = n -> (1 <= k)%nat -> (1 <= chunk)%nat -> usethreads = false \/ nthr = 1%nat ->
      finit <> INIT_F_SGS \/ usescaling = false ->
      nok (@compute_with Qc Of ssqrt sabs (@entry_rsum Qc Of sfnma ord) (@entry_rsum Qc Of sfnma ord') (@msub Qc Of sfnma fused)
             k chunk usethreads nthr finit usescaling info gi gs M ilu_new)
          (fun '(st, _) => st_ilu st = Some lu /\ st_scale st = scale)) /\
    let L := unitlower (entry M lu) in
    let U := upper (entry M lu) in
    ((forall i, (i < n)%nat -> entry M lu i i <> 0) ->
     forall i c, (i < n)%nat -> (c < n)%nat -> pos M i c <> None ->
       exists T, (forall t, close u (2 * rowlen M i + 2 * scale_roundings scale) (T t)) /\
         scaled_mat scale A i c = bsum n (fun t => L i t * U t c * T t)).
Proof.
  intros u Of sfma sfnma ord ord' fused ssqrt sabs M us n A scale H HF Hord HM Hv. pose proof HM as (Hw & Hd & Hs).
  assert ((if us then Some (@scaling_list Qc Of ssqrt M 1) else None) = scale) as Esc.
  { unfold scale, scale_used. destruct us; [|reflexivity]. f_equal. rewrite (@scaling_dense Qc Of) by exact HM.
    unfold diagonal_scale. apply list_fmap_ext. intros k x _. rewrite (dense_machine u Of H). reflexivity. }
  destruct (@compute_with_sequential Qc Of ssqrt sabs (@msub Qc Of sfnma fused) (@entry_rsum Qc Of sfnma ord) (@entry_rsum Qc Of sfnma ord')
    (rsum_alike sfnma ord) (rsum_alike sfnma ord') M Hw Hd Hs Hv us) as (lu & H1 & H2 & H3).
  pose proof (@sc_of_ok1 Qc Of ssqrt M us) as Hsc. rewrite Esc in *.
  pose proof H1 as [Hl _]. rewrite Nat.mul_1_r in Hl.
  exists lu. split; [exact Hl|]. split.
  - intros k chunk ut nthr finit info gi gs Hgi Hgs Hk Hc Hseq Hsgs.
    eapply nok_mono; [apply (H3 k chunk ut nthr finit info gi gs); auto|].
    + intros -> ->. destruct Hsgs as [Hx|Hx]; [contradiction|discriminate].
    + intros [st i] [-> _]. auto.
  - intros L U Hp i c Hi Hc Hpos.
    exact (consistent_with_fl u Of H M Hw Hd Hs scale lu Hv Hl _ _ (rsum_fl u Of H sfma sfnma HF M Hw Hs scale lu Hv Hsc Hl ord Hord) H1 Hp i c Hi Hc Hpos).
Qed.

(** set up, then apply, each with sums evaluated in any order: the result z solves
    (A + E) z = r with |E| at most k u / (1 - k u) times |L| |U|, where k = 4 m + 2 and no
    row stores more than m entries *)
Theorem C95_direct_solver : forall u (Of : machine) sfma sfnma ord ord' ord1 ord2 fused ssqrt sabs (M : srmat Qc) m,
  let n := nbrows M in
  let A := dense M in
  let k := (4 * m + 2)%nat in
  rounds u Of -> fused_rounds u sfma sfnma -> valid_sorder ord -> valid_order ord1 -> valid_order ord2 ->
  wf_mat M -> length (vals M) = nnz M -> no_fill M ->
  (forall i, (i < n)%nat -> (rowlen M i <= m)%nat) -> count k * u <= 1 ->
  exists lu,
    (forall nsweeps chunk usethreads nthr finit info gi gs,
      length gi = nnz M -> length gs = n -> (1 <= nsweeps)%nat -> (1 <= chunk)%nat -> usethreads = false \/ nthr = 1%nat ->
      nok (@compute_with Qc Of ssqrt sabs (@entry_rsum Qc Of sfnma ord) (@entry_rsum Qc Of sfnma ord') (@msub Qc Of sfnma fused)
             nsweeps chunk usethreads nthr finit false info gi gs M ilu_new)
          (fun '(st, _) => st_ilu st = Some lu /\ st_scale st = None)) /\
    let L := unitlower (entry M lu) in
    let U := upper (entry M lu) in
    let lowC := @low_with Qc Of (@rdot Qc Of sfma ord1) M lu in
    let upC := @up_with Qc Of (@rdot Qc Of sfma ord2) M lu in
    ((forall i, (i < n)%nat -> entry M lu i i <> 0) -> forall r, length r = n ->
     exists y z E, is_prod n (fun i j => A i j + E i j) z r /\
       (forall i j, (i < n)%nat -> (j < n)%nat -> within u k (E i j) (mprod n (absm L) (absm U) i j)) /\
       (forall ytemp z0 nsweeps chunk usethreads nthr init,
         length ytemp = n -> length z0 = n -> (1 <= nsweeps)%nat -> (1 <= chunk)%nat -> init <> INIT_A_NONE ->
         usethreads = false \/ nthr = 1%nat ->
         nok (@ilu0_apply Qc Of 1 n lowC upC None ytemp nsweeps chunk usethreads nthr init r z0) (fun out => out = (y, z))) /\
       (forall levels ytemp z0 nthr, valid_levels M levels -> (1 <= nthr)%nat -> length ytemp = n -> length z0 = n ->
         nok (@level_ilu0_apply Qc Of 1 n lowC upC levels None ytemp nthr r z0) (fun out => out = (y, z)))).
Proof.
  intros u Of sfma sfnma ord ord' ord1 ord2 fused ssqrt sabs M m n A k H HF Hord Hord1 Hord2 HM Hv Hnf Hm Hk.
  pose proof (rd_nonneg u Of H) as Hu0. pose proof (rd_lt u Of H) as Hu1.
  assert (forall j, (j <= k)%nat -> count j * u <= 1) as Hcj.
  { intros j Hj. eapply Qcle_trans; [|exact Hk]. apply Qcmult_le_compat_r; [apply count_mono, Hj|exact Hu0]. }
  destruct (C95_factorisation u Of sfma sfnma ord ord' fused ssqrt sabs M false H HF Hord HM Hv) as (lu & Hl & Hrun & Hex).
  exists lu. split; [intros; apply Hrun; auto|]. intros L U lowC upC Hp r Hr.
  destruct (ilu_backward_with u Of (@rdot Qc Of sfma ord1) (@rdot Qc Of sfma ord2) M lu r m
    (rdot_rounds u Of H sfma sfnma HF ord1 Hord1) (rdot_rounds u Of H sfma sfnma HF ord2 Hord2) H HM Hl Hp Hr Hm) as (y & z & E & HE & HB & Hseq & Hlev).
  { apply Hcj. unfold k. lia. }
  fold n L U in HE, HB, Hex. specialize (Hex Hp). cbn [scale_used scale_roundings scaled_mat] in Hex.
  exists y, z, (fun i j => mprod n L U i j - A i j + E i j). split.
  - intros i Hi. rewrite <- (HE i Hi). apply bsum_ext. intros j Hj. f_equal. ring.
  - split; [|split; assumption]. intros i j Hi Hj.
    assert (0 <= mprod n (absm L) (absm U) i j) as Hnn.
    { rewrite mprod_abs. apply bsum_nonneg. intros. apply Qcabs_nonneg. }
    replace k with (2 * m + (2 * m + 2))%nat by (unfold k; lia). apply (within_add u Hu0); [exact Hnn| |apply HB; auto].
    apply (fill_within u (2 * m) M lu Hu0 Hnf); auto. intros i' c Hi' Hc Hs'.
    destruct (Hex i' c Hi' Hc Hs') as (T & HT & EA). fold A in EA. fold A n L U. rewrite EA, mprod_abs. unfold mprod.
    apply (weighted_within u Hu0 Hu1 n (2 * m) (fun t => L i' t * U t c) T); [apply Hcj; unfold k; lia|]. intros t Ht.
    eapply (close_mono u Hu0 Hu1); [|apply HT]. specialize (Hm i' Hi'). simpl. lia.
Qed.

(** ** Not vacuous: two lanes, the second starting from 0, with fused operations *)
Definition slane (o : sorder) (l : list nat) : sorder := foldl (fun a k => SSub true a k) o l.
Definition stwo_lanes (lo hi : nat) : sorder :=
  let l := range lo hi in
  match filter (fun j => ~ Nat.even j = true) l with
  | [] => slane SInit (filter (fun j => Nat.even j = true) l)
  | j :: odd => SAdd (slane SInit (filter (fun j => Nat.even j = true) l)) (slane (SNeg false j) odd)
  end.
Lemma suses_slane l : forall o, suses (slane o l) ≡ₚ (Some <$> l) ++ suses o.
Proof.
  induction l as [|j l IH]; intros o; [reflexivity|]. cbn [slane foldl]. fold (slane (SSub true o j) l). rewrite IH. simpl.
  rewrite <- Permutation_middle. reflexivity.
Qed.
Example C95_two_lanes : valid_sorder stwo_lanes.
Proof.
  intros lo hi. unfold scovers, stwo_lanes. set (l := range lo hi).
  assert ((Some <$> l) ≡ₚ (Some <$> (filter (fun j => Nat.even j = true) l ++ filter (fun j => ~ Nat.even j = true) l))) as -> by (rewrite filter_both; reflexivity). rewrite fmap_app.
  destruct (filter (fun j => ~ Nat.even j = true) l) as [|j odd].
  - rewrite suses_slane. simpl. rewrite app_nil_r, (Permutation_app_comm _ [None]). reflexivity.
  - cbn [suses]. rewrite !suses_slane. simpl.
    rewrite (Permutation_app_comm (Some <$> odd) [Some j]). simpl.
    rewrite <- app_assoc. simpl. rewrite <- Permutation_middle. reflexivity.
Qed.
Example C95_shape : stwo_lanes 3 7 = SAdd (SSub true (SSub true SInit 4) 6) (SSub true (SNeg false 3) 5).
Proof. reflexivity. Qed.
Example C95_cond : wf_mat exM /\ length (vals exM) = nnz exM /\ no_fill exM /\
  (forall i, (i < nbrows exM)%nat -> (rowlen exM i <= 3)%nat) /\ count (4 * 3 + 2) * (1 / q (2 ^ 53)) <= 1.
Proof.
  destruct C92_cond as (H1 & H2 & H3 & H4 & _). repeat (split; [assumption|]). vm_compute. discriminate.
Qed.
(** 53 digits: the factors of the theorem, with pivots other than 0 *)
Example C95_case :
  (forall nsweeps chunk usethreads nthr finit info gi gs,
    length gi = 7%nat -> length gs = 3%nat -> (1 <= nsweeps)%nat -> (1 <= chunk)%nat -> usethreads = false \/ nthr = 1%nat ->
    nok (@compute_with Qc double_machine (fun x => x) Qcabs (@entry_rsum Qc double_machine double_fnma stwo_lanes)
           (@entry_rsum Qc double_machine double_fnma stwo_lanes) (@msub Qc double_machine double_fnma true)
           nsweeps chunk usethreads nthr finit false info gi gs exM ilu_new)
        (fun '(st, _) => st_ilu st = Some fl_lu)) /\
  (forall i, (i < 3)%nat -> entry exM fl_lu i i <> 0).
Proof.
  destruct C95_cond as (H1 & H2 & _). pose proof H1 as (Hw & Hd & Hs).
  destruct (@compute_with_sequential Qc double_machine (fun x => x) Qcabs (@msub Qc double_machine double_fnma true)
    (@entry_rsum Qc double_machine double_fnma stwo_lanes) (@entry_rsum Qc double_machine double_fnma stwo_lanes)
    (rsum_alike double_fnma stwo_lanes) (rsum_alike double_fnma stwo_lanes) exM Hw Hd Hs H2 false) as (lu & _ & Hu & Hrun).
  split; [|intros [|[|[|]]] Hi; [discriminate..|lia]].
  set (C := @factor_with Qc double_machine (@entry_rsum Qc double_machine double_fnma stwo_lanes) exM (positions exM) None).
  assert (fl_lu = lu) as <-; [|intros; eapply nok_mono; [apply Hrun; auto; discriminate|]; intros [st i] [-> _]; reflexivity].
  apply Hu. split; [reflexivity|]. intros j Hj.
  assert (match exec fl_lu (entC exM C j) with
          | Ok (x :: nil, _) => QArith_base.Qeq_bool (this x) (this (vat fl_lu j)) | _ => false end = true) as Hc.
  { change (nnz exM) with 7%nat in Hj. do 7 (destruct j as [|j]; [vm_compute; reflexivity|]). lia. }
  pose proof (factor_with_ok (@entry_rsum Qc double_machine double_fnma stwo_lanes) (rsum_alike double_fnma stwo_lanes) exM Hw Hd Hs H2 None j Logic.I Hj) as [_ Hk].
  fold C in Hk. destruct (exec_wp fl_lu (entC exM C j) (fun _ => True)) as (a & Ha & _).
  { eapply wp_mono; [exact Hk| | |auto..].
    - intros l (_ & Hl & _). apply lookup_lt_is_Some_2. simpl in *. lia.
    - intros l v _ (_ & Hl). exact Hl. }
  rewrite Ha in Hc. destruct a as [|x [|]]; try discriminate. apply QArith_base.Qeq_bool_eq in Hc.
  apply (fix_at_1 (O := Qc_ops) _ fl_lu j x); [exact Ha|exact Hj|]. apply Qc_is_canon. symmetry. exact Hc.
Qed.

Print Assumptions C95_exact.
Print Assumptions C95_factorisation.
Print Assumptions C95_direct_solver.
