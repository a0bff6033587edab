(** * PropRounding: property C91 (results computed with rounding errors)

    The operations [Of] are those of a machine with rounding ([rounds], Rounding.v);
    matrices, sums and products in the conclusions are exact. The number of roundings in
    a row is bounded by the number of entries the matrix stores in it ([rowlen], plus a
    constant), never by the number of rows. *)
From Coq Require Import QArith.Qcanon QArith.Qcabs Field.
From Verif Require Import Base Alg Inst Rounding RoundFacts RoundDot RoundSolve RoundMatvec RoundInst RoundBounds SRMatrix Async AsyncTheory AsyncSystem Nd
  Kernels KernelFacts IluApply IluApplyFacts TriSpec TriFacts IluApplyProofs Chains IluApplyMain
  Sgs SgsFacts SgsForms SgsMain Matvec MatvecFacts MatvecMain Reduce.

Open Scope Qc_scope.

(** the entries of an array do not depend on the operations *)
Lemma vat_machine u Of : rounds u Of -> forall l k, @vat Qc Of l k = vat l k.
Proof. intros H l k. unfold vat. rewrite (rd_zero u Of H). reflexivity. Qed.

(** ** Products *)
(** y = A x: every run gives a [y'] that is exactly A' x, where A' differs from A by at
    most [rowlen + 1] roundings per entry and is zero where A is *)
Theorem C91_product : forall u (Of : machine) (M : srmat Qc) x y,
  rounds u Of -> wf_pat M -> wf_nodup M -> wf_vals 1 M -> length x = nbrows M -> length y = nbrows M ->
  nok (@csr_apply Qc Of M x y) (fun y' => length y' = nbrows M /\
    exists A', perturbed u (nbrows M) (fun i => rowlen M i + 1)%nat (dense M) A' /\ is_prod (nbrows M) A' x y').
Proof.
  intros u Of M x y H Hw Hn Hv Hx Hy. unfold wf_vals in Hv. eapply nok_mono; [apply csr_apply_spec; auto; lia|].
  intros y' [Hl Hrow]. split; [exact Hl|].
  pose proof (rd_nonneg u Of H) as Hu0. pose proof (rd_lt u Of H) as Hu1.
  destruct (rows_choice (fun _ => 0) (nbrows M) (fun i (row : nat -> Qc) =>
    (forall j, (j < nbrows M)%nat -> exists t, close u (rowlen M i + 1) t /\ row j = dense M i j * t) /\
    bsum (nbrows M) (fun j => row j * vat x j)%s = vat y' i)) as (A' & HA).
  - intros i Hi. specialize (Hrow i Hi). apply (vat_eq (O := Qc_ops)) in Hrow.
    set (f := fun jj => @smul Qc Of (@vat Qc Of (vals M) jj) (@vat Qc Of x (col M jj))) in Hrow.
    destruct (rows_choice 1 (rp M (i + 1)) (fun j t => (rp M i <= j)%nat -> close u 1 t /\
      f j = (1 * (vat (vals M) j * vat x (col M j))) * t)) as (tm & Htm).
    { intros j Hj. destruct (decide (rp M i <= j)%nat) as [Hji|]; [|exists 1; intros; lia].
      assert (inrow M i j) as Hin by (split; lia). pose proof (inrow_lt M i j Hw Hin) as HjN. pose proof (wf_col M Hw j HjN).
      destruct (fl_mul u Of H (vat (vals M) j) (vat x (col M j))) as (t & Ht & E). exists t. intros _. split; [exact Ht|].
      unfold f. rewrite Qcmult_1_l, <- E. rewrite !(vat_machine u Of H). reflexivity. }
    destruct (facc_fl u Of H (@s0 Qc Of) f (fun j => 1 * (vat (vals M) j * vat x (col M j))) tm 1 (rp M i) (rp M (i + 1)))
      as (ti & t & Hti & Ht & E).
    { apply rp_mono; auto; lia. }
    { intros j Hj. apply Htm; lia. }
    destruct (row_fl u Of H M Hw Hn x 1 t (rowlen M i + 1) i Hi) as (row & Hr1 & Hr2); [exact Ht|].
    exists row. split; [exact Hr1|]. rewrite Hrow, E, Hr2, (rd_zero u Of H).
    change (@smul Qc Qc_ops) with Qcmult. ring.
  - exists A'. split.
    + intros i j Hi Hj. apply HA; auto.
    + intros i Hi. apply HA; auto.
Qed.
(** z = a A x + b y ([None]: y and z are the same array) *)
Theorem C91_gemv3 : forall u (Of : machine) (M : srmat Qc) a x b y z,
  rounds u Of -> wf_pat M -> wf_nodup M -> wf_vals 1 M -> length x = nbrows M -> length z = nbrows M ->
  let n := nbrows M in
  let yy := match y with Some y => y | None => z end in length yy = n ->
  nok (@csr_gemv3 Qc Of M a x b y z) (fun z' => length z' = n /\
    exists A' s, perturbed u n (fun i => rowlen M i + 2)%nat (dense M) A' /\
      forall i, (i < n)%nat -> close u (rowlen M i + 1) (s i) /\
        vat z' i = a * bsum n (fun j => A' i j * vat x j)%s + b * vat yy i * s i).
Proof.
  intros u Of M a x b y z H Hw Hn Hv Hx Hz n yy Hy. unfold wf_vals in Hv. eapply nok_mono; [apply csr_gemv3_spec; auto; lia|].
  intros z' [Hl Hrow]. split; [exact Hl|].
  pose proof (rd_nonneg u Of H) as Hu0. pose proof (rd_lt u Of H) as Hu1.
  destruct (rows_choice ((fun _ => 0), 0) n (fun i (rs : (nat -> Qc) * Qc) =>
    (forall j, (j < n)%nat -> exists t, close u (rowlen M i + 2) t /\ rs.1 j = dense M i j * t) /\
    close u (rowlen M i + 1) rs.2 /\
    vat z' i = a * bsum n (fun j => rs.1 j * vat x j)%s + b * vat yy i * rs.2)) as (A' & HA).
  - intros i Hi. specialize (Hrow i Hi). apply (vat_eq (O := Qc_ops)) in Hrow.
    set (f := fun jj => @smul Qc Of (@smul Qc Of a (@vat Qc Of (vals M) jj)) (@vat Qc Of x (col M jj))) in Hrow.
    destruct (rows_choice 1 (rp M (i + 1)) (fun j t => (rp M i <= j)%nat -> close u 2 t /\
      f j = (a * (vat (vals M) j * vat x (col M j))) * t)) as (tm & Htm).
    { intros j Hj. destruct (decide (rp M i <= j)%nat) as [Hji|]; [|exists 1; intros; lia].
      assert (inrow M i j) as Hin by (split; lia). pose proof (inrow_lt M i j Hw Hin) as HjN. pose proof (wf_col M Hw j HjN).
      destruct (fl_mul u Of H a (vat (vals M) j)) as (t & Ht & E).
      destruct (fl_mul u Of H (a * vat (vals M) j * t) (vat x (col M j))) as (t2 & Ht2 & E2).
      exists (t * t2). intros _. split; [apply (close_mul u Hu1 1 1); auto|].
      transitivity (a * vat (vals M) j * t * vat x (col M j) * t2); [|ring].
      unfold f. rewrite <- E2, <- E, !(vat_machine u Of H). reflexivity. }
    set (init := @smul Qc Of b (@vat Qc Of (arg_y y z) i)) in Hrow.
    destruct (facc_fl u Of H init f (fun j => a * (vat (vals M) j * vat x (col M j))) tm 2 (rp M i) (rp M (i + 1)))
      as (ti & t & Hti & Ht & E).
    { apply rp_mono; auto; lia. }
    { intros j Hj. apply Htm; lia. }
    destruct (row_fl u Of H M Hw Hn x a t (rowlen M i + 2) i Hi) as (row & Hr1 & Hr2); [exact Ht|].
    assert (exists s, close u 1 s /\ init = b * vat yy i * s) as (s & Hs & Ei).
    { destruct (fl_mul u Of H b (vat yy i)) as (s & Hs & Es). exists s. split; [exact Hs|]. rewrite <- Es.
      unfold init, arg_y. fold yy. rewrite (vat_machine u Of H). reflexivity. }
    exists (row, ti * s). split; [exact Hr1|]. split; [apply close_mul; auto|]. cbn [fst snd].
    rewrite Hrow, E, Hr2, Ei. change (@smul Qc Qc_ops) with Qcmult. fold n. ring.
  - exists (fun i => (A' i).1), (fun i => (A' i).2). split.
    + intros i j Hi Hj. apply HA; auto.
    + intros i Hi. destruct (HA i Hi) as (_ & H1 & H2). auto.
Qed.

(** ** Jacobi *)
(** the result solves exactly a diagonal system whose entries are those of A up to two
    roundings *)
Theorem C91_jacobi : forall u (Of : machine) (M : srmat Qc) d0 r z,
  let n := nbrows M in
  rounds u Of -> wf_mat M -> length (vals M) = nnz M -> (forall i, (i < n)%nat -> dense M i i <> 0) ->
  length d0 = n -> length r = n -> length z = n ->
  nok (nbind (@jacobi_setup Qc Of M d0) (fun d => @jacobi_apply Qc Of M d r z))
      (fun z' => length z' = n /\ exists D', perturbed u n (fun _ => 2%nat) (diag (dense M)) D' /\ is_prod n D' z' r).
Proof.
  intros u Of M d0 r z n H (Hw & Hd & Hs) Hl Hnz Hd0 Hr Hz.
  pose proof (rd_nonneg u Of H) as Hu0. pose proof (rd_lt u Of H) as Hu1.
  eapply nok_bind; [apply jacobi_setup_spec; auto|]. intros d ->.
  eapply nok_mono; [apply jacobi_apply_spec; auto; rewrite fmap_length, seq_length; reflexivity|].
  intros z' Ez. split; [rewrite Ez, fmap_length, seq_length; reflexivity|].
  destruct (rows_choice 1 n (fun i t => close u 2 t /\ vat z' i = vat r i / dense M i i * / t)) as (t & Ht).
  { intros i Hi. specialize (Hnz i Hi). change (dense M i i) with (entry M (vals M) i i) in *.
    rewrite (entry_diag M (vals M) Hd Hs i Hi) in *.
    rewrite Ez, vat_fmap_seq by done. rewrite (vat_fmap_seq (O := Of)) by done.
    rewrite !(vat_machine u Of H), (rd_one u Of H). destruct (fl_div u Of H 1 (vat (vals M) (dg M i)) Hnz) as (s & Hs1 & ->).
    match goal with |- context [@smul _ _ ?a ?b] => destruct (fl_mul u Of H a b) as (s2 & Hs2 & ->) end.
    exists (/ (s * s2)). split; [apply close_inv; auto; apply (close_mul u Hu1 1 1); auto|].
    pose proof (close_neq u Hu1 _ _ Hs1). pose proof (close_neq u Hu1 _ _ Hs2). field. auto. }
  exists (fun i j => diag (dense M) i j * t i). split.
  - intros i j Hi Hj. exists (t i). split; [apply Ht, Hi|reflexivity].
  - intros i Hi. destruct (Ht i Hi) as [Hc Hv]. rewrite (bsum_single n i); [|done|].
    + unfold diag. rewrite decide_True by done. rewrite Hv. change (@smul Qc Qc_ops) with Qcmult.
      pose proof (close_neq u Hu1 _ _ Hc). specialize (Hnz i Hi). field. auto.
    + intros j Hj Hne. unfold diag. rewrite decide_False by lia. change (@smul Qc Qc_ops) with Qcmult.
      change (@s0 Qc Qc_ops) with (0:Qc). ring.
Qed.

(** ** Symmetric Gauss-Seidel *)
(** for any way of evaluating sums with the usual number of roundings *)
Lemma sgs_with : forall u (Of : machine) dot1 dot2 ms (M : srmat Qc) r,
  dot_rounds u dot1 -> dot_rounds u dot2 -> msub_rounds u ms ->
  let n := nbrows M in
  let A := dense M in
  rounds u Of -> wf_mat M -> length (vals M) = nnz M -> (forall i, (i < n)%nat -> A i i <> 0) -> length r = n ->
  exists y z L' U',
    length y = n /\ perturbed u n (fun i => rowlen M i + 2)%nat (lower A) L' /\ is_prod n L' y r /\
    length z = n /\ perturbed u n (fun i => rowlen M i + 2)%nat (upper A) U' /\
    (forall i, (i < n)%nat -> bsum n (fun j => U' i j * vat z j)%s = A i i * vat y i) /\
    (forall d0 ytemp z0 nsweeps chunk init,
      length d0 = n -> length ytemp = n -> length z0 = n -> (1 <= nsweeps)%nat -> (1 <= chunk)%nat ->
      nok (nbind (@jacobi_setup Qc Of M d0) (fun d =>
             @sgs_apply Qc Of 1 n (@fgs_with Qc Of dot1 M d) (@bgs_with Qc Of dot2 ms M d) ytemp nsweeps chunk 1 init r z0))
          (fun out => out = (y, z))) /\
    (forall levels d0 ytemp z0 nthr, valid_levels M levels ->
      length d0 = n -> length ytemp = n -> length z0 = n -> (1 <= nthr)%nat ->
      nok (nbind (@jacobi_setup Qc Of M d0) (fun d =>
             @level_sgs_apply Qc 1 (@fgs_with Qc Of dot1 M d) (@bgs_with Qc Of dot2 ms M d) levels ytemp nthr r z0))
          (fun out => out = (y, z))).
Proof.
  intros u Of dot1 dot2 ms M r Hd1 Hd2 Hms n A H HM Hl Hnz Hr. destruct (mat_deps M HM) as (D1 & D2 & _). pose proof HM as (Hw & Hd & Hs).
  pose proof (rd_nonneg u Of H) as Hu0. pose proof (rd_lt u Of H) as Hu1.
  set (d := (fun i => @sdiv Qc Of (@s1 Qc Of) (@vat Qc Of (vals M) (dg M i))) <$> seq 0 n).
  assert (length d = n) as Hdl by (unfold d; rewrite fmap_length, seq_length; reflexivity).
  assert (forall i, (i < n)%nat -> exists t, close u 1 t /\ vat d i = 1 / entry M (vals M) i i * t) as Hdv.
  { intros i Hi. pose proof (row_bounds M Hw Hd i Hi). rewrite (entry_diag M (vals M) Hd Hs i Hi).
    destruct (fl_div u Of H 1 (vat (vals M) (dg M i))) as (t & Ht & E).
    { rewrite <- (entry_diag M (vals M) Hd Hs i Hi). apply Hnz, Hi. }
    exists t. split; [exact Ht|]. rewrite <- E. unfold d. rewrite vat_fmap_seq by done. rewrite (rd_one u Of H), (vat_machine u Of H). reflexivity. }
  assert (forall z i, length z = (n * 1)%nat -> (i < n)%nat -> kernel_ok 1 (@fgs_with Qc Of dot1 M d z) n (lowdep M) i) as K1.
  { intros z i Hz Hi. apply (fgs_with_ok u); auto. }
  assert (forall z i, length z = (n * 1)%nat -> (i < n)%nat -> kernel_ok 1 (@bgs_with Qc Of dot2 ms M d z) n (updep M) i) as K2.
  { intros z i Hz Hi. apply (bgs_with_ok u); auto. }
  destruct (@sgs_apply_spec Qc Of 1 n _ _ _ _ K1 K2 D1 D2 r) as (ys & zs & H1 & H2 & H3 & H4 & H5); [lia|].
  destruct (fgs_solution_fl u Of H dot1 Hd1 M Hw Hd Hs Hl d Hdl Hnz Hdv r ys Hr H1) as (Hyl & L' & HL1 & HL2).
  destruct (bgs_solution_fl u Of H dot2 Hd2 M Hw Hd Hs Hl d Hdl Hnz Hdv ms Hms ys zs Hyl H3) as (Hzl & U' & HU1 & HU2).
  exists ys, zs, L', U'. do 6 (split; [assumption|]). split.
  - intros d0 ytemp z0 k c init Hd0 Hyt Hz0 Hk Hc. eapply nok_bind; [apply jacobi_setup_spec; auto|]. intros d' ->.
    eapply nok_mono; [apply H5; auto; lia|]. intros [a b] [Ha Hb]. simpl in *. rewrite Ha, Hb; auto.
  - intros levels d0 ytemp z0 nthr Hlev Hd0 Hyt Hz0 Hn. eapply nok_bind; [apply jacobi_setup_spec; auto|]. intros d' ->.
    destruct (mat_levels M levels HM Hlev) as (L1 & L2 & _).
    destruct (@level_sgs_spec Qc 1 n _ _ _ _ K1 K2 D1 D2 levels r) as (ys' & zs' & G1 & G2 & G3); [lia|auto|auto|].
    assert (ys' = ys) as -> by auto. assert (zs' = zs) as -> by auto. apply G3; auto; lia.
Qed.

(** y solves exactly (D+L)' y = r and z solves exactly (D+U)' z = D y, the primed
    matrices being perturbations of those of A *)
Theorem C91_sgs : forall u (Of : machine) (M : srmat Qc) r,
  let n := nbrows M in
  let A := dense M in
  rounds u Of -> wf_mat M -> length (vals M) = nnz M -> (forall i, (i < n)%nat -> A i i <> 0) -> length r = n ->
  exists y z L' U',
    length y = n /\ perturbed u n (fun i => rowlen M i + 2)%nat (lower A) L' /\ is_prod n L' y r /\
    length z = n /\ perturbed u n (fun i => rowlen M i + 2)%nat (upper A) U' /\
    (forall i, (i < n)%nat -> bsum n (fun j => U' i j * vat z j)%s = A i i * vat y i) /\
    (forall d0 ytemp z0 nsweeps chunk init,
      length d0 = n -> length ytemp = n -> length z0 = n -> (1 <= nsweeps)%nat -> (1 <= chunk)%nat ->
      nok (nbind (@jacobi_setup Qc Of M d0) (fun d =>
             @sgs_apply Qc Of 1 n (@scalar_fgsC Qc Of M d) (@scalar_bgsC Qc Of M d) ytemp nsweeps chunk 1 init r z0))
          (fun out => out = (y, z))) /\
    (forall levels d0 ytemp z0 nthr, valid_levels M levels ->
      length d0 = n -> length ytemp = n -> length z0 = n -> (1 <= nthr)%nat ->
      nok (nbind (@jacobi_setup Qc Of M d0) (fun d =>
             @level_sgs_apply Qc 1 (@scalar_fgsC Qc Of M d) (@scalar_bgsC Qc Of M d) levels ytemp nthr r z0))
          (fun out => out = (y, z))).
Proof.
  intros u Of M r n A H. exact (sgs_with u Of (@sdot Qc Of) (@sdot Qc Of) (@msub_plain Qc Of) M r (sdot_rounds u Of H) (sdot_rounds u Of H) (plain_rounds u Of H) H).
Qed.

(** ** Incomplete LU *)
Lemma scaled_rhs_fl u Of scale r n : rounds u Of -> scale_ok scale n -> length r = n ->
  vperturbed u n (scale_roundings scale) (scaled_rhs scale r) (@scaled_rhs Qc Of scale r).
Proof.
  intros H Hs Hr. destruct scale as [s|]; simpl in *.
  - split; [rewrite !zip_with_length; reflexivity|]. intros i Hi. unfold vat. rewrite !lookup_zip_with.
    destruct (lookup_lt_is_Some_2 s i) as [a ->]; [lia|]. destruct (lookup_lt_is_Some_2 r i) as [b ->]; [lia|]. simpl.
    apply (fl_mul u Of H).
  - split; [reflexivity|]. intros i Hi. exists 1. split; [|ring].
    apply close_one; [apply (rd_nonneg u Of H)|apply (rd_lt u Of H)].
Qed.
Lemma scaled_sol_fl u Of scale r n : rounds u Of -> scale_ok scale n -> length r = n ->
  vperturbed u n (scale_roundings scale) (scaled_sol scale r) (@scaled_sol Qc Of scale r).
Proof.
  intros H Hs Hr. destruct scale as [s|]; simpl in *.
  - split; [rewrite !zip_with_length; reflexivity|]. intros i Hi. unfold vat. rewrite !lookup_zip_with.
    destruct (lookup_lt_is_Some_2 s i) as [a ->]; [lia|]. destruct (lookup_lt_is_Some_2 r i) as [b ->]; [lia|]. simpl.
    apply (fl_mul u Of H).
  - split; [reflexivity|]. intros i Hi. exists 1. split; [|ring].
    apply close_one; [apply (rd_nonneg u Of H)|apply (rd_lt u Of H)].
Qed.
Lemma ilu_with : forall u (Of : machine) dot1 dot2 (M : srmat Qc) ilu scale r,
  dot_rounds u dot1 -> dot_rounds u dot2 ->
  let n := nbrows M in
  let L := unitlower (entry M ilu) in
  let U := upper (entry M ilu) in
  rounds u Of -> wf_mat M -> length ilu = nnz M -> (forall i, (i < n)%nat -> entry M ilu i i <> 0) ->
  scale_ok scale n -> length r = n ->
  exists y x z L' U' r',
    perturbed u n (rowlen M) L L' /\ perturbed u n (fun i => rowlen M i + 2)%nat U U' /\
    vperturbed u n (scale_roundings scale) (scaled_rhs scale r) r' /\
    length x = n /\ is_prod n (mprod n L' U') x r' /\
    vperturbed u n (scale_roundings scale) (scaled_sol scale x) z /\
    (scale = None -> r' = r /\ z = x) /\
    (forall ytemp z0 nsweeps chunk usethreads nthr init,
      length ytemp = n -> length z0 = n -> (1 <= nsweeps)%nat -> (1 <= chunk)%nat -> init <> INIT_A_NONE ->
      usethreads = false \/ nthr = 1%nat ->
      nok (@ilu0_apply Qc Of 1 n (@low_with Qc Of dot1 M ilu) (@up_with Qc Of dot2 M ilu) scale ytemp nsweeps chunk usethreads nthr init r z0) (fun out => out = (y, z))) /\
    (forall levels ytemp z0 nthr, valid_levels M levels -> (1 <= nthr)%nat -> length ytemp = n -> length z0 = n ->
      nok (@level_ilu0_apply Qc Of 1 n (@low_with Qc Of dot1 M ilu) (@up_with Qc Of dot2 M ilu) levels scale ytemp nthr r z0) (fun out => out = (y, z))).
Proof.
  intros u Of dot1 dot2 M ilu scale r Hd1 Hd2 n L U H HM Hl Hp Hsc Hr. pose proof HM as (Hw & Hd & Hs).
  assert (length (@scaled_rhs Qc Of scale r) = n) as Hsl by (apply scaled_rhs_length; auto).
  assert (forall z i, length z = (n * 1)%nat -> (i < n)%nat -> kernel_ok 1 (@low_with Qc Of dot1 M ilu z) n (lowdep M) i) as K1.
  { intros z i Hz Hi. apply (low_with_ok u); auto. }
  assert (forall z i, length z = (n * 1)%nat -> (i < n)%nat -> kernel_ok 1 (@up_with Qc Of dot2 M ilu z) n (updep M) i) as K2.
  { intros z i Hz Hi. apply (up_with_ok u); auto. }
  assert (forall i c, (i < n)%nat -> lowdep M i c -> (c < i)%nat) as D1 by (intros i c; apply lowdep_lt; auto).
  assert (forall i c, (i < n)%nat -> updep M i c -> (i < c)%nat) as D2.
  { intros i c Hi Hu. apply (updep_lt M i c Hw Hd Hs Hi Hu). }
  destruct (@ilu0_apply_sequential Qc Of 1 n _ _ _ _ K1 K2 D1 D2 scale r) as (ys & xs & Hy & Hx & Hrun); [rewrite Nat.mul_1_r; auto..|].
  destruct (lower_solution_fl u Of H dot1 Hd1 M Hw Hd Hs ilu _ ys Hl Hsl Hy) as (Hyl & L' & HL1 & HL2).
  destruct (upper_solution_fl u Of H dot2 Hd2 M Hw Hd Hs ilu ys xs Hl Hyl) as (Hxl & U' & HU1 & HU2); [|exact Hx|].
  { intros i Hi. rewrite <- (entry_diag M ilu Hd Hs i Hi). apply Hp, Hi. }
  exists ys, xs, (@scaled_sol Qc Of scale xs), L', U', (@scaled_rhs Qc Of scale r).
  split; [exact HL1|]. split; [exact HU1|]. split; [apply scaled_rhs_fl; auto|]. split; [exact Hxl|].
  split; [eapply is_prod_mprod; eauto|]. split; [apply scaled_sol_fl; auto|].
  split; [intros ->; split; reflexivity|]. split.
  - intros. apply Hrun; auto; lia.
  - intros levels ytemp z0 nthr Hlev Hn Hyt Hz0.
    destruct (@level_apply_gen Qc Of M HM 1 (@low_with Qc Of dot1 M ilu) (@up_with Qc Of dot2 M ilu) levels scale r)
      as (out & G1 & G2); [exact K1|exact K2|exact Hlev|rewrite Nat.mul_1_r; auto..|]. fold n in G1, G2.
    assert (out = (ys, @scaled_sol Qc Of scale xs)) as ->.
    { specialize (G2 r r 1%nat 1%nat false 1%nat INIT_A_ZERO). specialize (Hrun r r 1%nat 1%nat false 1%nat INIT_A_ZERO).
      rewrite Nat.mul_1_r in G2, Hrun. specialize (G2 Hr Hr ltac:(lia) ltac:(lia) ltac:(discriminate) ltac:(auto)).
      specialize (Hrun Hr Hr ltac:(lia) ltac:(lia) ltac:(discriminate) ltac:(auto)).
      destruct G2 as [[o Ho] G2]. destruct Hrun as [_ Hrun]. specialize (G2 o Ho). specialize (Hrun o Ho).
      destruct o; simpl in *; try tauto. congruence. }
    apply G1; auto; lia.
Qed.
(** with factors [ilu] in the pattern of M and a scaling S: the sequential and the
    level-scheduled applications give the same z, which is S x up to one rounding for
    an x with L' U' x = S r' exactly; without scaling, x = z and r' = r *)
Theorem C91_ilu : forall u (Of : machine) (M : srmat Qc) ilu scale r,
  let n := nbrows M in
  let L := unitlower (entry M ilu) in
  let U := upper (entry M ilu) in
  rounds u Of -> wf_mat M -> length ilu = nnz M -> (forall i, (i < n)%nat -> entry M ilu i i <> 0) ->
  scale_ok scale n -> length r = n ->
  exists y x z L' U' r',
    perturbed u n (rowlen M) L L' /\ perturbed u n (fun i => rowlen M i + 2)%nat U U' /\
    vperturbed u n (scale_roundings scale) (scaled_rhs scale r) r' /\
    length x = n /\ is_prod n (mprod n L' U') x r' /\
    vperturbed u n (scale_roundings scale) (scaled_sol scale x) z /\
    (scale = None -> r' = r /\ z = x) /\
    (forall ytemp z0 nsweeps chunk usethreads nthr init,
      length ytemp = n -> length z0 = n -> (1 <= nsweeps)%nat -> (1 <= chunk)%nat -> init <> INIT_A_NONE ->
      usethreads = false \/ nthr = 1%nat ->
      nok (@scalar_ilu0_apply Qc Of M ilu scale ytemp nsweeps chunk usethreads nthr init r z0) (fun out => out = (y, z))) /\
    (forall levels ytemp z0 nthr, valid_levels M levels -> (1 <= nthr)%nat -> length ytemp = n -> length z0 = n ->
      nok (@scalar_level_ilu0_apply Qc Of M ilu levels scale ytemp nthr r z0) (fun out => out = (y, z))).
Proof.
  intros u Of M ilu scale r n L U H. exact (ilu_with u Of (@sdot Qc Of) (@sdot Qc Of) M ilu scale r (sdot_rounds u Of H) (sdot_rounds u Of H) H).
Qed.
Lemma ilu_backward_with : forall u (Of : machine) dot1 dot2 (M : srmat Qc) ilu r m,
  let n := nbrows M in
  let L := unitlower (entry M ilu) in
  let U := upper (entry M ilu) in
  let absm (A : nat -> nat -> Qc) i j := Qcabs (A i j) in
  let lowC := @low_with Qc Of dot1 M ilu in
  let upC := @up_with Qc Of dot2 M ilu in
  dot_rounds u dot1 -> dot_rounds u dot2 ->
  rounds u Of -> wf_mat M -> length ilu = nnz M -> (forall i, (i < n)%nat -> entry M ilu i i <> 0) -> length r = n ->
  (forall i, (i < n)%nat -> (rowlen M i <= m)%nat) -> count (2 * m + 2) * u <= 1 ->
  exists y z E, is_prod n (fun i j => mprod n L U i j + E i j) z r /\
    (forall i j, (i < n)%nat -> (j < n)%nat -> within u (2 * m + 2) (E i j) (mprod n (absm L) (absm U) i j)) /\
    (forall ytemp z0 nsweeps chunk usethreads nthr init,
      length ytemp = n -> length z0 = n -> (1 <= nsweeps)%nat -> (1 <= chunk)%nat -> init <> INIT_A_NONE ->
      usethreads = false \/ nthr = 1%nat ->
      nok (@ilu0_apply Qc Of 1 n lowC upC None ytemp nsweeps chunk usethreads nthr init r z0) (fun out => out = (y, z))) /\
    (forall levels ytemp z0 nthr, valid_levels M levels -> (1 <= nthr)%nat -> length ytemp = n -> length z0 = n ->
      nok (@level_ilu0_apply Qc Of 1 n lowC upC levels None ytemp nthr r z0) (fun out => out = (y, z))).
Proof.
  intros u Of dot1 dot2 M ilu r m n L U absm lowC upC Hd1 Hd2 H HM Hl Hp Hr Hm Hu.
  pose proof (rd_nonneg u Of H) as Hu0. pose proof (rd_lt u Of H) as Hu1.
  destruct (ilu_with u Of dot1 dot2 M ilu None r Hd1 Hd2 H HM Hl Hp Logic.I Hr) as (y & x & z & L' & U' & r' & HL & HU & _ & Hx & Hprod & _ & HN & Hseq & Hlev).
  destruct (HN eq_refl) as [-> ->]. fold n L U in HL, HU, Hprod, Hseq, Hlev.
  exists y, x, (fun i j => mprod n L' U' i j - mprod n L U i j). split.
  - intros i Hi. rewrite <- (Hprod i Hi). apply bsum_ext. intros j Hj. f_equal. ring.
  - split; [|split; assumption]. intros i j Hi Hj. eapply (mprod_within u Hu0 Hu1); eauto.
    intros c Hc. pose proof (Hm i Hi). pose proof (Hm c Hc). simpl. lia.
Qed.
(** the same as an additive error: the result z of the application (no scaling) solves
    (L U + E) z = r, and every entry of E is at most k u / (1 - k u) times that of
    |L| |U|, with k = 2 m + 2 where no row stores more than m entries *)
Theorem C91_ilu_backward_error : forall u (Of : machine) (M : srmat Qc) ilu r m,
  let n := nbrows M in
  let L := unitlower (entry M ilu) in
  let U := upper (entry M ilu) in
  let absm (A : nat -> nat -> Qc) i j := Qcabs (A i j) in
  rounds u Of -> wf_mat M -> length ilu = nnz M -> (forall i, (i < n)%nat -> entry M ilu i i <> 0) -> length r = n ->
  (forall i, (i < n)%nat -> (rowlen M i <= m)%nat) -> count (2 * m + 2) * u <= 1 ->
  exists y z E, is_prod n (fun i j => mprod n L U i j + E i j) z r /\
    (forall i j, (i < n)%nat -> (j < n)%nat -> within u (2 * m + 2) (E i j) (mprod n (absm L) (absm U) i j)) /\
    (forall ytemp z0 nsweeps chunk usethreads nthr init,
      length ytemp = n -> length z0 = n -> (1 <= nsweeps)%nat -> (1 <= chunk)%nat -> init <> INIT_A_NONE ->
      usethreads = false \/ nthr = 1%nat ->
      nok (@scalar_ilu0_apply Qc Of M ilu None ytemp nsweeps chunk usethreads nthr init r z0) (fun out => out = (y, z))) /\
    (forall levels ytemp z0 nthr, valid_levels M levels -> (1 <= nthr)%nat -> length ytemp = n -> length z0 = n ->
      nok (@scalar_level_ilu0_apply Qc Of M ilu levels None ytemp nthr r z0) (fun out => out = (y, z))).
Proof.
  intros u Of M ilu r m n L U absm H.
  exact (ilu_backward_with u Of _ _ M ilu r m (sdot_rounds u Of H) (sdot_rounds u Of H) H).
Qed.

(** ** Not vacuous *)
(** 53 binary digits: the roundings are real (1/3 is not exact) and bounded by 2^-53 *)
Definition double_machine : machine := rounding_machine 53.
Example C91_machine : rounds (1 / q (2 ^ 53)) double_machine.
Proof. apply rounding_machine_rounds. lia. Qed.
Example C91_machine_rounds : @sdiv Qc double_machine 1 (q 3) <> 1 / q 3.
Proof. intros H. apply (f_equal (fun x => QArith_base.Qeq_bool (this x) (this (1 / q 3)))) in H. vm_compute in H. discriminate. Qed.
(** the hypotheses hold of [exL] (4 rows, at most 3 entries in each) and its levels *)
Example C91_cond : wf_mat exL /\ wf_nodup exL /\ wf_vals 1 exL /\ length (vals exL) = nnz exL /\
  (forall i, (i < nbrows exL)%nat -> dense exL i i <> 0) /\ (forall i, (i < nbrows exL)%nat -> (rowlen exL i <= 3)%nat) /\
  count (2 * 3 + 2) * (1 / q (2 ^ 53)) <= 1 /\ valid_levels exL [0; 2; 4]%nat.
Proof.
  split; [split; [apply exL_pat|split; [apply exL_diag|apply exL_sorted]]|].
  split; [apply sorted_nodup, exL_sorted|]. split; [reflexivity|]. split; [reflexivity|].
  split; [intros [|[|[|[|]]]] H; [discriminate..|simpl in H; lia]|].
  split; [intros [|[|[|[|]]]] H; [vm_compute; lia..|simpl in H; lia]|].
  split; [vm_compute; discriminate|].
  split; [reflexivity|]. split; [reflexivity|]. split.
  - intros [|[|[|l]]] a b Ha Hb; simpl in *; try discriminate; injection Ha as <-; injection Hb as <-; lia.
  - intros [|[|[|l]]] a b i c Ha Hb Hi Hc Hne; simpl in *; try discriminate; injection Ha as <-; injection Hb as <-.
    + destruct i as [|[|]], c as [|[|]]; try lia; reflexivity.
    + destruct i as [|[|[|[|]]]], c as [|[|[|[|]]]]; try lia; reflexivity.
Qed.
(** the whole of it for a run with 53 digits *)
Definition exr : list Qc := q <$> [1; 2; 3; 4]%Z.
Example C91_case : exists y z E,
  is_prod 4 (fun i j => mprod 4 (unitlower (dense exL)) (upper (dense exL)) i j + E i j) z exr /\
  nok (@scalar_level_ilu0_apply Qc double_machine exL (vals exL) [0; 2; 4]%nat None (q <$> [9; 9; 9; 9]%Z) 2 exr (q <$> [7; 7; 7; 7]%Z))
    (fun out => out = (y, z)).
Proof.
  destruct C91_cond as (H1 & _ & _ & H4 & H5 & H6 & H7 & H8).
  destruct (C91_ilu_backward_error _ double_machine exL (vals exL) exr 3 C91_machine H1 H4 H5 ltac:(reflexivity) H6 H7)
    as (y & z & E & HE & _ & _ & Hlev).
  exists y, z, E. split; [exact HE|]. apply Hlev; auto; lia.
Qed.

Print Assumptions C91_product.
Print Assumptions C91_gemv3.
Print Assumptions C91_jacobi.
Print Assumptions C91_sgs.
Print Assumptions C91_ilu.
Print Assumptions C91_ilu_backward_error.
