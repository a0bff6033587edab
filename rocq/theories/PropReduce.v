(** * PropReduce: property C94 (the order of summation and fused operations do not matter)

    The sums in the row kernels are evaluated as [ord] says ([valid_order], Reduce.v):
    any bracketing and order of the value on entry and the products, each product rounded
    by itself or fused with an addition; forward and backward loops may differ. *)
From Coq Require Import QArith.Qcanon QArith.Qcabs Field.
From Verif Require Import Base Alg Norms Inst Rounding RoundFacts RoundDot RoundSolve RoundInst RoundBounds SRMatrix Async AsyncTheory AsyncSystem Nd
  Kernels KernelFacts IluApply IluApplyFacts TriSpec TriFacts IluApplyProofs Chains IluApplyMain
  Sgs SgsFacts SgsForms SgsMain AsyncShrink PropConverge PropConvergeEx PropRounding Reduce ReduceFacts RoundRelax PropRoundRelax.

(** ** In exact arithmetic every way of evaluating the sums has the same outcomes *)
Theorem C94_exact : forall F (O : SOps F), CRing F -> forall (sfma sfnma : F -> F -> F -> F) ord1 ord2 fused,
  (forall a b c, sfma a b c = (a * b + c)%s) -> (forall a b c, sfnma a b c = (c - a * b)%s) ->
  valid_order ord1 -> valid_order ord2 ->
  let dot1 := rdot sfma ord1 in
  let dot2 := rdot sfma ord2 in
  let ms := msub sfnma fused in
  forall (M : srmat F) (n := nbrows M),
  (forall ilu scale yt k chunk ut nthr init r z o,
    ilu0_apply 1 n (low_with dot1 M ilu) (up_with dot2 M ilu) scale yt k chunk ut nthr init r z o <->
    scalar_ilu0_apply M ilu scale yt k chunk ut nthr init r z o) /\
  (forall ilu levels scale yt nthr r z o,
    level_ilu0_apply 1 n (low_with dot1 M ilu) (up_with dot2 M ilu) levels scale yt nthr r z o <->
    scalar_level_ilu0_apply M ilu levels scale yt nthr r z o) /\
  (forall d yt k chunk nthr init r z o,
    sgs_apply 1 n (fgs_with dot1 M d) (bgs_with dot2 ms M d) yt k chunk nthr init r z o <->
    sgs_apply 1 n (scalar_fgsC M d) (scalar_bgsC M d) yt k chunk nthr init r z o) /\
  (forall d levels yt nthr r z o,
    level_sgs_apply 1 (fgs_with dot1 M d) (bgs_with dot2 ms M d) levels yt nthr r z o <->
    level_sgs_apply 1 (scalar_fgsC M d) (scalar_bgsC M d) levels yt nthr r z o) /\
  (forall d steps chunk nthr b x o,
    chaotic_relax 1 n (relax_with dot1 M d) steps chunk nthr b x o <->
    chaotic_relax 1 n (scalar_relaxC M d) steps chunk nthr b x o) /\
  (forall d its chunk nthr b x o,
    sgs_relax 1 n (relax_with dot1 M d) its chunk nthr b x o <->
    sgs_relax 1 n (scalar_relaxC M d) its chunk nthr b x o) /\
  (forall d levels its nthr b x o,
    level_relax 1 (relax_with dot1 M d) levels its nthr b x o <->
    level_relax 1 (scalar_relaxC M d) levels its nthr b x o) /\
  (forall ssqrt slt d p xtemp b x o,
    jacobi_relax ssqrt slt 1 n (relax_with dot1 M d) p xtemp b x o <->
    jacobi_relax ssqrt slt 1 n (scalar_relaxC M d) p xtemp b x o).
Proof.
  intros F O R sfma sfnma ord1 ord2 fused Hf Hn H1 H2 dot1 dot2 ms M n.
  split; [intros; apply neq_ilu0; [apply low_exact|apply up_exact]; auto|].
  split; [intros; apply neq_level_ilu0; [apply low_exact|apply up_exact]; auto|].
  split; [intros; apply neq_sgs_apply; [apply fgs_exact|apply bgs_exact]; auto|].
  split; [intros; apply neq_level_sgs; [apply fgs_exact|apply bgs_exact]; auto|].
  split; [intros; apply neq_chaotic, relax_exact; auto|].
  split; [intros; apply neq_sgs_relax, relax_exact; auto|].
  split; [intros; apply neq_level_relax, relax_exact; auto|].
  intros; apply neq_jacobi, relax_exact; auto.
Qed.

Open Scope Qc_scope.

(** ** With rounding errors the bounds of C91 and C93 hold for each of them *)
Theorem C94_ilu : forall u (Of : machine) sfma sfnma ord1 ord2 (M : srmat Qc) ilu scale r,
  let n := nbrows M in
  let L := unitlower (entry M ilu) in
  let U := upper (entry M ilu) in
  let lowC := @low_with Qc Of (@rdot Qc Of sfma ord1) M ilu in
  let upC := @up_with Qc Of (@rdot Qc Of sfma ord2) M ilu in
  rounds u Of -> fused_rounds u sfma sfnma -> valid_order ord1 -> valid_order ord2 ->
  wf_mat M -> length ilu = nnz M -> (forall i, (i < n)%nat -> entry M ilu i i <> 0) ->
  scale_ok scale n -> length r = n ->
  exists y x z L' U' r',
    perturbed u n (rowlen M) L L' /\ perturbed u n (fun i => rowlen M i + 2)%nat U U' /\
    vperturbed u n (scale_roundings scale) (scaled_rhs scale r) r' /\
    length x = n /\ is_prod n (mprod n L' U') x r' /\
    vperturbed u n (scale_roundings scale) (scaled_sol scale x) z /\
    (scale = None -> r' = r /\ z = x) /\
    (forall ytemp z0 nsweeps chunk usethreads nthr init,
      length ytemp = n -> length z0 = n -> (1 <= nsweeps)%nat -> (1 <= chunk)%nat -> init <> INIT_A_NONE ->
      usethreads = false \/ nthr = 1%nat ->
      nok (@ilu0_apply Qc Of 1 n lowC upC scale ytemp nsweeps chunk usethreads nthr init r z0) (fun out => out = (y, z))) /\
    (forall levels ytemp z0 nthr, valid_levels M levels -> (1 <= nthr)%nat -> length ytemp = n -> length z0 = n ->
      nok (@level_ilu0_apply Qc Of 1 n lowC upC levels scale ytemp nthr r z0) (fun out => out = (y, z))).
Proof.
  intros u Of sfma sfnma ord1 ord2 M ilu scale r n L U lowC upC H HF H1 H2.
  exact (ilu_with u Of _ _ M ilu scale r (rdot_rounds u Of H sfma sfnma HF ord1 H1) (rdot_rounds u Of H sfma sfnma HF ord2 H2) H).
Qed.

Theorem C94_sgs : forall u (Of : machine) sfma sfnma ord1 ord2 fused (M : srmat Qc) r,
  let n := nbrows M in
  let A := dense M in
  let fgsC d := @fgs_with Qc Of (@rdot Qc Of sfma ord1) M d in
  let bgsC d := @bgs_with Qc Of (@rdot Qc Of sfma ord2) (@msub Qc Of sfnma fused) M d in
  rounds u Of -> fused_rounds u sfma sfnma -> valid_order ord1 -> valid_order ord2 ->
  wf_mat M -> length (vals M) = nnz M -> (forall i, (i < n)%nat -> A i i <> 0) -> length r = n ->
  exists y z L' U',
    length y = n /\ perturbed u n (fun i => rowlen M i + 2)%nat (lower A) L' /\ is_prod n L' y r /\
    length z = n /\ perturbed u n (fun i => rowlen M i + 2)%nat (upper A) U' /\
    (forall i, (i < n)%nat -> bsum n (fun j => U' i j * vat z j)%s = A i i * vat y i) /\
    (forall d0 ytemp z0 nsweeps chunk init,
      length d0 = n -> length ytemp = n -> length z0 = n -> (1 <= nsweeps)%nat -> (1 <= chunk)%nat ->
      nok (nbind (@jacobi_setup Qc Of M d0) (fun d => @sgs_apply Qc Of 1 n (fgsC d) (bgsC d) ytemp nsweeps chunk 1 init r z0))
          (fun out => out = (y, z))) /\
    (forall levels d0 ytemp z0 nthr, valid_levels M levels ->
      length d0 = n -> length ytemp = n -> length z0 = n -> (1 <= nthr)%nat ->
      nok (nbind (@jacobi_setup Qc Of M d0) (fun d => @level_sgs_apply Qc 1 (fgsC d) (bgsC d) levels ytemp nthr r z0))
          (fun out => out = (y, z))).
Proof.
  intros u Of sfma sfnma ord1 ord2 fused M r n A fgsC bgsC H HF H1 H2.
  exact (sgs_with u Of _ _ _ M r (rdot_rounds u Of H sfma sfnma HF ord1 H1) (rdot_rounds u Of H sfma sfnma HF ord2 H2) (msub_fl u Of H sfma sfnma HF fused) H).
Qed.

Theorem C94_relax : forall u (Of : machine) sfma sfnma ord M b xs W rho X m lim e d0 x,
  let n := nbrows M in
  let r := rho * growth u (m + 3) in
  let relaxC d := @relax_with Qc Of (@rdot Qc Of sfma ord) M d in
  rounds u Of -> fused_rounds u sfma sfnma -> valid_order ord ->
  relax_case u M b xs W rho X m lim -> 0 <= lim -> 0 <= e -> length d0 = n ->
  error_within Qcabs Qcle n W xs (e + lim) x ->
  (forall calls : list (nat * nat * nat), Forall (fun '(steps, chunk, nthr) => 1 <= steps /\ 1 <= chunk /\ 1 <= nthr)%nat calls ->
    nok (nbind (@jacobi_setup Qc Of M d0) (fun d =>
           in_turn ((fun '(steps, chunk, nthr) => chaotic_relax 1 n (relaxC d) steps chunk nthr b) <$> calls) x))
        (error_within Qcabs Qcle n W xs (r ^ length calls * e + lim)) /\
    nok (nbind (@jacobi_setup Qc Of M d0) (fun d =>
           in_turn ((fun '(its, chunk, nthr) => sgs_relax 1 n (relaxC d) its chunk nthr b) <$> calls) x))
        (error_within Qcabs Qcle n W xs (r ^ length calls * e + lim))) /\
  (forall steps chunk, (1 <= chunk)%nat ->
    nok (nbind (@jacobi_setup Qc Of M d0) (fun d => chaotic_relax 1 n (relaxC d) steps chunk 1 b x))
        (error_within Qcabs Qcle n W xs (r ^ steps * e + lim))) /\
  (forall its chunk, (1 <= chunk)%nat ->
    nok (nbind (@jacobi_setup Qc Of M d0) (fun d => sgs_relax 1 n (relaxC d) its chunk 1 b x))
        (error_within Qcabs Qcle n W xs (r ^ (2 * its) * e + lim))) /\
  (forall levels its nthr, valid_levels M levels -> (1 <= nthr)%nat ->
    nok (nbind (@jacobi_setup Qc Of M d0) (fun d => level_relax 1 (relaxC d) levels its nthr b x))
        (error_within Qcabs Qcle n W xs (r ^ (2 * its) * e + lim))) /\
  (forall ssqrt slt p xtemp, length xtemp = n ->
    nok (nbind (@jacobi_setup Qc Of M d0) (fun d => @jacobi_relax Qc Of ssqrt slt 1 n (relaxC d) p xtemp b x))
        (fun x' => exists k, (k <= maxits p)%nat /\ (ctol p = false -> k = maxits p) /\ (1 <= maxits p -> 1 <= k)%nat /\
           error_within Qcabs Qcle n W xs (r ^ k * e + lim) x')).
Proof.
  intros u Of sfma sfnma ord M b xs W rho X m lim e d0 x n r relaxC H HF Ho HC Hl He Hd0 Hx.
  pose proof (rdot_rounds u Of H sfma sfnma HF ord Ho) as Hdot. split.
  - exact (every_schedule_with u Of _ M b xs W rho X m lim e d0 x H Hdot HC Hl He Hd0 Hx).
  - exact (every_sweep_with u Of _ M b xs W rho X m lim e d0 x H Hdot HC Hl He Hd0 Hx).
Qed.

(** ** Not vacuous: two lanes of fused multiply-adds, even and odd iterations, as a
    vectorising compiler would make them *)
Definition lane (o : order) (l : list nat) : order := foldl (fun a j => OFma j a) o l.
Definition two_lanes (lo hi : nat) : order :=
  let l := range lo hi in
  match filter (fun j => ~ Nat.even j = true) l with
  | [] => lane OInit (filter (fun j => Nat.even j = true) l)
  | j :: odd => OAdd (lane OInit (filter (fun j => Nat.even j = true) l)) (lane (OTerm j) odd)
  end.
Lemma uses_lane l : forall o, uses (lane o l) ≡ₚ (Some <$> l) ++ uses o.
Proof.
  induction l as [|j l IH]; intros o; [reflexivity|]. cbn [lane foldl]. fold (lane (OFma j o) l). rewrite IH. simpl.
  rewrite <- Permutation_middle. reflexivity.
Qed.
Lemma filter_both (l : list nat) :
  filter (fun j => Nat.even j = true) l ++ filter (fun j => ~ Nat.even j = true) l ≡ₚ l.
Proof.
  induction l as [|j l IH]; [reflexivity|]. rewrite !filter_cons. destruct (decide (Nat.even j = true)).
  - rewrite decide_False by tauto. simpl. rewrite IH. reflexivity.
  - rewrite decide_True by tauto. rewrite <- Permutation_middle, IH. reflexivity.
Qed.
Example C94_two_lanes : valid_order two_lanes.
Proof.
  intros lo hi. unfold covers, two_lanes. set (l := range lo hi).
  assert ((Some <$> l) ≡ₚ (Some <$> (filter (fun j => Nat.even j = true) l ++ filter (fun j => ~ Nat.even j = true) l))) as -> by (rewrite filter_both; reflexivity). rewrite fmap_app.
  destruct (filter (fun j => ~ Nat.even j = true) l) as [|j odd].
  - rewrite uses_lane. simpl. rewrite app_nil_r, (Permutation_app_comm _ [None]). reflexivity.
  - cbn [uses]. rewrite !uses_lane. simpl.
    rewrite (Permutation_app_comm (Some <$> odd) [Some j]). simpl.
    rewrite <- app_assoc. simpl. rewrite <- Permutation_middle. reflexivity.
Qed.
(** four iterations from 3 on *)
Example C94_shape : two_lanes 3 7 = OAdd (OFma 6 (OFma 4 OInit)) (OFma 5 (OTerm 3)).
Proof. reflexivity. Qed.
(** a machine with 53 digits that has fused operations; they give results other than
    those of a product and a sum *)
Definition double_fma (a b c : Qc) : Qc := rnd 53 (a * b + c).
Definition double_fnma (a b c : Qc) : Qc := rnd 53 (c - a * b).
Example C94_fused : fused_rounds (1 / q (2 ^ 53)) double_fma double_fnma.
Proof. split; intros; apply rnd_rounded; lia. Qed.
Example C94_fused_differs :
  double_fma (1 + 1 / q (2 ^ 40)) (1 + 1 / q (2 ^ 40)) (q (-1)) <>
    @sadd Qc double_machine (@smul Qc double_machine (1 + 1 / q (2 ^ 40)) (1 + 1 / q (2 ^ 40))) (q (-1)).
Proof. intros H. apply (f_equal this) in H. vm_compute in H. discriminate. Qed.
(** ten calls with four threads, the sums in two lanes *)
Example C94_applies :
  nok (nbind (@jacobi_setup Qc double_machine domM [q 0; q 0]) (fun d =>
       in_turn (replicate 10 (chaotic_relax 1 2 (@relax_with Qc double_machine (@rdot Qc double_machine double_fma two_lanes) domM d) 2 1 4 [q 3; q 3])) [q 5; q (-3)]))
      (fun x => length x = 2%nat /\ forall i, (i < 2)%nat -> Qcle (Qcabs (vat x i - q 1)) (1 / q 255)).
Proof.
  destruct (C94_relax (1 / q (2 ^ 53)) double_machine double_fma double_fnma two_lanes domM [q 3; q 3] [q 1; q 1] (fun _ => q 1) half (q 1) 2 dlim (q 4) [q 0; q 0] [q 5; q (-3)])
    as [Hc _].
  - apply C91_machine.
  - apply C94_fused.
  - apply C94_two_lanes.
  - apply C93_case.
  - vm_compute. discriminate.
  - vm_compute. discriminate.
  - reflexivity.
  - split; [reflexivity|]. intros i Hi. destruct i as [|[|]]; [vm_compute; discriminate|vm_compute; discriminate|simpl in Hi; lia].
  - destruct (Hc (replicate 10 (2, 1, 4)%nat)) as [H _]; [apply Forall_replicate; lia|].
    cbn [replicate fmap list_fmap] in H. eapply nok_mono; [exact H|].
    intros x [Hl Hx]. split; [exact Hl|]. intros i Hi. specialize (Hx i Hi).
    replace (vat [q 1; q 1] i) with (q 1) in Hx by (destruct i as [|[|]]; [reflexivity|reflexivity|lia]).
    eapply Qcle_trans; [exact Hx|]. vm_compute. discriminate.
Qed.

Print Assumptions C94_exact.
Print Assumptions C94_ilu.
Print Assumptions C94_sgs.
Print Assumptions C94_relax.
