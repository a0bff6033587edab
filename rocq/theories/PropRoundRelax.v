(** * PropRoundRelax (C93): with rounding errors, relaxation of dominant matrices under
    every schedule still approaches the solution, up to an attainable accuracy *)
From Coq Require Import ZArith QArith.Qcanon QArith.Qcabs Field.
From Verif Require Import Base Alg Norms SRMatrix Async AsyncTheory AsyncSystem AsyncSweeps AsyncSets AsyncShrink AsyncJacobi Nd Kernels KernelFacts
  IluApply IluApplyFacts TriSpec TriFacts IluApplyProofs IluApplyMain IluFactorMain IluApplyStall Sgs SgsFacts SgsProofs SgsForms SgsMain RelaxNear
  Levels PropLevels Inst Rounding RoundFacts RoundInst RoundBounds RoundDot RoundSolve PropConverge PropConvergeEx PropRounding Reduce RoundRelax.

Open Scope Qc_scope.

(** ** The premises, once for all the theorems
    [W]: weights of the entries (for plain diagonal dominance, 1). [rho]: the rate of
    C74. [X]: the size of the solution. [m]: the most entries in a row. With
    [g = growth u (m+3)], the growth that the [m+3] roundings behind one entry can cause,
    the rate with rounding is [rho * g], and [lim] is an accuracy that one more step
    does not spoil. *)
Record relax_case (u : Qc) (M : srmat Qc) (b xs : list Qc) (W : nat -> Qc) (rho X : Qc) (m : nat) (lim : Qc) : Prop := {
  rc_wf : wf_mat M;
  rc_vals : length (vals M) = nnz M;
  rc_diag : forall i, (i < nbrows M)%nat -> dense M i i <> 0;
  rc_b : length b = nbrows M;
  rc_sol : is_prod (nbrows M) (dense M) xs b;
  rc_weights : forall i, (i < nbrows M)%nat -> 0 <= W i;
  rc_rho0 : 0 <= rho;
  rc_rho1 : rho <= 1;
  rc_dominant : dominant Qcabs Qcle (nbrows M) (dense M) W rho;
  rc_X : 0 <= X;
  rc_size : forall i, (i < nbrows M)%nat -> Qcabs (vat xs i) <= X * W i;
  rc_rows : forall i, (i < nbrows M)%nat -> (rowlen M i <= m)%nat;
  rc_rate : rho * growth u (m + 3) <= 1;
  rc_lim : rho * growth u (m + 3) * lim + (growth u (m + 3) - 1) * X <= lim
}.

Lemma round_setup u (Of : machine) (M : srmat Qc) d0 : rounds u Of -> wf_pat M -> wf_diag M -> length (vals M) = nnz M -> length d0 = nbrows M ->
  nok (@jacobi_setup Qc Of M d0) (fun d => d = ((fun i => @sdiv Qc Of (@s1 Qc Of) (vat (vals M) (dg M i))) <$> seq 0 (nbrows M))).
Proof.
  intros H Hw Hd Hv Hd0. eapply nok_mono; [apply (@jacobi_setup_spec Qc Of); auto|]. intros d ->.
  apply list_fmap_ext. intros i k _. rewrite (vat_machine u Of H). reflexivity.
Qed.

Section Main.
  Variables (u : Qc) (Of : machine) (dot : list Qc -> list nat -> nat -> nat -> Qc -> @P Qc Qc) (M : srmat Qc) (b xs : list Qc) (W : nat -> Qc) (rho X : Qc) (m : nat) (lim e : Qc).
  Hypothesis (H : rounds u Of) (Hdot : dot_rounds u dot) (HC : relax_case u M b xs W rho X m lim) (He : 0 <= e).
  Notation n := (nbrows M).
  Notation r := (rho * growth u (m + 3)).
  Let Hu0 : 0 <= u := rd_nonneg u Of H.
  Let Hu1 : u < 1 := rd_lt u Of H.
  Definition kind (k : nat) : nat -> Qc -> Prop := rball xs W (r ^ k * e + lim).

  Lemma r_pos : 0 <= r.
  Proof. apply Qcmul_nonneg; [apply (rc_rho0 _ _ _ _ _ _ _ _ _ HC)|apply Qclt_le_weak, growth_pos; auto]. Qed.
  Lemma rk_pos k : 0 <= r ^ k.
  Proof. induction k as [|k IH]; simpl; [discriminate|]. apply Qcmul_nonneg; [apply r_pos|exact IH]. Qed.
  Lemma kind_better k l v : (l < n * 1)%nat -> kind (S k) l v -> kind k l v.
  Proof.
    intros Hl Hk. unfold kind, rball in *. eapply Qcle_trans; [exact Hk|].
    apply Qcmult_le_compat_r; [|apply (rc_weights _ _ _ _ _ _ _ _ _ HC); lia].
    apply Qcplus_le_compat; [|apply Qcle_refl]. simpl. apply Qcmult_le_compat_r; [|exact He].
    replace (r ^ k) with (1 * r ^ k) at 2 by ring. apply Qcmult_le_compat_r; [|apply rk_pos]. apply (rc_rate _ _ _ _ _ _ _ _ _ HC).
  Qed.
  Hypothesis Hlim : 0 <= lim.
  Lemma kind_improves d k i : d = ((fun i => @sdiv Qc Of (@s1 Qc Of) (vat (vals M) (dg M i))) <$> seq 0 n) -> (i < n)%nat ->
    improves 1 n (@relax_with Qc Of dot M d b) (kind k) (kind (S k)) i.
  Proof.
    intros Ed Hi. destruct (rc_wf _ _ _ _ _ _ _ _ _ HC) as (Hw & Hd & Hs).
    assert (0 <= r ^ k * e + lim) as Hek.
    { replace 0 with (0 + 0) by ring. apply Qcplus_le_compat; [|exact Hlim]. apply Qcmul_nonneg; [apply rk_pos|exact He]. }
    destruct (relax_fl_improves u Of H dot Hdot M Hw Hd Hs (rc_vals _ _ _ _ _ _ _ _ _ HC) (rc_diag _ _ _ _ _ _ _ _ _ HC) b xs W rho X m
      (rc_b _ _ _ _ _ _ _ _ _ HC) (rc_sol _ _ _ _ _ _ _ _ _ HC) (rc_weights _ _ _ _ _ _ _ _ _ HC) (rc_rho1 _ _ _ _ _ _ _ _ _ HC) (rc_X _ _ _ _ _ _ _ _ _ HC)
      (rc_dominant _ _ _ _ _ _ _ _ _ HC) (rc_size _ _ _ _ _ _ _ _ _ HC) (rc_rows _ _ _ _ _ _ _ _ _ HC) d) with (e := r ^ k * e + lim) (i := i) as [_ Hwp]; auto.
    { rewrite Ed, fmap_length, seq_length. reflexivity. }
    { intros i' Hi'. rewrite Ed. apply vat_eq. rewrite list_lookup_fmap, lookup_seq_lt by exact Hi'. reflexivity. }
    split; [exact Hi|]. eapply wp_post; [exact Hwp|]. intros seg [Hl Hseg]. split; [exact Hl|]. intros p v Hv.
    specialize (Hseg p v Hv). unfold kind, rball in *. eapply Qcle_trans; [exact Hseg|].
    assert (p = 0)%nat as -> by (apply lookup_lt_Some in Hv; lia).
    apply Qcmult_le_compat_r; [|apply (rc_weights _ _ _ _ _ _ _ _ _ HC); lia].
    pose proof (rc_lim _ _ _ _ _ _ _ _ _ HC) as HL. cbn [Qcpower].
    replace (r * (r ^ k * e + lim) + (growth u (m + 3) - 1) * X) with (r * r ^ k * e + (r * lim + (growth u (m + 3) - 1) * X)) by ring.
    apply Qcplus_le_compat; [apply Qcle_refl|exact HL].
  Qed.
  Lemma relax_ker z d i : length d = n -> length z = (n * 1)%nat -> (i < n)%nat -> kernel_ok 1 (@relax_with Qc Of dot M d z) n (offdep M) i.
  Proof.
    intros Hdl Hz Hi. destruct (rc_wf _ _ _ _ _ _ _ _ _ HC) as (Hw & Hd & Hs). apply (relax_with_ok u); auto. apply (rc_vals _ _ _ _ _ _ _ _ _ HC).
  Qed.
  Lemma kind_all k x : all_in (n * 1) (kind k) x <-> error_within Qcabs Qcle n W xs (r ^ k * e + lim) x.
  Proof.
    unfold all_in, error_within, kind, rball. rewrite Nat.mul_1_r. split; intros [Hl Hx]; (split; [exact Hl|]).
    - intros l Hll. apply Hx. apply vat_Some. lia.
    - intros l v Hv. rewrite <- (vat_eq x l v Hv). apply Hx. rewrite <- Hl. eapply lookup_lt_Some; eauto.
  Qed.
End Main.

(** ** For any way of evaluating sums *)
Lemma every_schedule_with : forall u (Of : machine) dot M b xs W rho X m lim e d0 x,
  let n := nbrows M in
  let r := rho * growth u (m + 3) in
  rounds u Of -> dot_rounds u dot -> relax_case u M b xs W rho X m lim -> 0 <= lim -> 0 <= e -> length d0 = n ->
  error_within Qcabs Qcle n W xs (e + lim) x ->
  forall calls : list (nat * nat * nat), Forall (fun '(steps, chunk, nthr) => 1 <= steps /\ 1 <= chunk /\ 1 <= nthr)%nat calls ->
  nok (nbind (@jacobi_setup Qc Of M d0) (fun d =>
         in_turn ((fun '(steps, chunk, nthr) => chaotic_relax 1 n (@relax_with Qc Of dot M d) steps chunk nthr b) <$> calls) x))
      (error_within Qcabs Qcle n W xs (r ^ length calls * e + lim)) /\
  nok (nbind (@jacobi_setup Qc Of M d0) (fun d =>
         in_turn ((fun '(its, chunk, nthr) => sgs_relax 1 n (@relax_with Qc Of dot M d) its chunk nthr b) <$> calls) x))
      (error_within Qcabs Qcle n W xs (r ^ length calls * e + lim)).
Proof.
  intros u Of dot M b xs W rho X m lim e d0 x n r H Hdot HC Hlim He Hd0 Hx calls Hcalls.
  destruct (rc_wf _ _ _ _ _ _ _ _ _ HC) as (Hw & Hd & Hs).
  assert (length b = n * 1)%nat as Hb by (rewrite Nat.mul_1_r; apply (rc_b _ _ _ _ _ _ _ _ _ HC)).
  assert (all_in (n * 1) (kind u xs W rho m lim e 0) x) as Hx0.
  { apply kind_all. simpl. replace (1 * e + lim) with (e + lim) by ring. exact Hx. }
  assert (forall (f : list Qc -> nat * nat * nat -> list Qc -> nd (list Qc)) d,
    (forall c k y, c ∈ calls -> all_in (n * 1) (kind u xs W rho m lim e k) y -> nok (f d c y) (all_in (n * 1) (kind u xs W rho m lim e (S k)))) ->
    nok (in_turn (f d <$> calls) x) (error_within Qcabs Qcle n W xs (r ^ length calls * e + lim))) as Hturn.
  { intros f d Hf.
    assert (forall cs k y, (forall c, c ∈ cs -> c ∈ calls) -> all_in (n * 1) (kind u xs W rho m lim e k) y ->
      nok (in_turn (f d <$> cs) y) (all_in (n * 1) (kind u xs W rho m lim e (length cs + k)))) as Hrec.
    { induction cs as [|c cs IH]; intros k y Hcs Hy; cbn [fmap list_fmap in_turn length].
      - apply nok_ret. exact Hy.
      - eapply nok_bind; [apply (Hf c k y); [apply Hcs; left|exact Hy]|]. intros y' Hy'.
        eapply nok_mono; [apply (IH (S k)); [intros; apply Hcs; right; auto|exact Hy']|].
        intros z Hz. replace (S (length cs) + k)%nat with (length cs + S k)%nat by lia. exact Hz. }
    eapply nok_mono; [apply (Hrec calls 0%nat x); auto|]. intros z Hz. rewrite Nat.add_0_r in Hz. apply kind_all, Hz. }
  rewrite Forall_forall in Hcalls.
  split; (eapply nok_bind; [apply (round_setup u Of M d0 H Hw Hd (rc_vals _ _ _ _ _ _ _ _ _ HC) Hd0)|]); intros d Ed;
    assert (length d = n) as Hdl by (rewrite Ed, fmap_length, seq_length; reflexivity).
  - apply (Hturn (fun d '(steps, chunk, nthr) => chaotic_relax 1 n (@relax_with Qc Of dot M d) steps chunk nthr b)).
    intros [[s c] t] k y Hin Hy. specialize (Hcalls _ Hin). simpl in Hcalls. destruct Hcalls as (H1 & H2 & H3).
    apply (shrink_chaotic 1 n (@relax_with Qc Of dot M d) (offdep M) b (kind u xs W rho m lim e)); auto.
    + intros k0 l v. exact (kind_better u Of M b xs W rho X m lim e H HC He k0 l v).
    + intros k0 i Hi. exact (kind_improves u Of dot M b xs W rho X m lim e H Hdot HC He Hlim d k0 i Ed Hi).
    + intros z i Hz Hi. apply (relax_ker u Of dot M b xs W rho X m lim Hdot HC); auto.
  - apply (Hturn (fun d '(its, chunk, nthr) => sgs_relax 1 n (@relax_with Qc Of dot M d) its chunk nthr b)).
    intros [[s c] t] k y Hin Hy. specialize (Hcalls _ Hin). simpl in Hcalls. destruct Hcalls as (H1 & H2 & H3).
    apply (shrink_sgs 1 n (@relax_with Qc Of dot M d) (offdep M) b (kind u xs W rho m lim e)); auto.
    + intros k0 l v. exact (kind_better u Of M b xs W rho X m lim e H HC He k0 l v).
    + intros k0 i Hi. exact (kind_improves u Of dot M b xs W rho X m lim e H Hdot HC He Hlim d k0 i Ed Hi).
    + intros z i Hz Hi. apply (relax_ker u Of dot M b xs W rho X m lim Hdot HC); auto.
Qed.

Lemma every_sweep_with : forall u (Of : machine) dot M b xs W rho X m lim e d0 x,
  let n := nbrows M in
  let r := rho * growth u (m + 3) in
  rounds u Of -> dot_rounds u dot -> relax_case u M b xs W rho X m lim -> 0 <= lim -> 0 <= e -> length d0 = n ->
  error_within Qcabs Qcle n W xs (e + lim) x ->
  (forall steps chunk, (1 <= chunk)%nat ->
    nok (nbind (@jacobi_setup Qc Of M d0) (fun d => chaotic_relax 1 n (@relax_with Qc Of dot M d) steps chunk 1 b x))
        (error_within Qcabs Qcle n W xs (r ^ steps * e + lim))) /\
  (forall its chunk, (1 <= chunk)%nat ->
    nok (nbind (@jacobi_setup Qc Of M d0) (fun d => sgs_relax 1 n (@relax_with Qc Of dot M d) its chunk 1 b x))
        (error_within Qcabs Qcle n W xs (r ^ (2 * its) * e + lim))) /\
  (forall levels its nthr, valid_levels M levels -> (1 <= nthr)%nat ->
    nok (nbind (@jacobi_setup Qc Of M d0) (fun d => level_relax 1 (@relax_with Qc Of dot M d) levels its nthr b x))
        (error_within Qcabs Qcle n W xs (r ^ (2 * its) * e + lim))) /\
  (forall ssqrt slt p xtemp, length xtemp = n ->
    nok (nbind (@jacobi_setup Qc Of M d0) (fun d => @jacobi_relax Qc Of ssqrt slt 1 n (@relax_with Qc Of dot M d) p xtemp b x))
        (fun x' => exists k, (k <= maxits p)%nat /\ (ctol p = false -> k = maxits p) /\ (1 <= maxits p -> 1 <= k)%nat /\
           error_within Qcabs Qcle n W xs (r ^ k * e + lim) x')).
Proof.
  intros u Of dot M b xs W rho X m lim e d0 x n r H Hdot HC Hlim He Hd0 Hx.
  pose proof (rc_wf _ _ _ _ _ _ _ _ _ HC) as Hwf. destruct Hwf as (Hw & Hd & Hs).
  assert (length b = n * 1)%nat as Hb by (rewrite Nat.mul_1_r; apply (rc_b _ _ _ _ _ _ _ _ _ HC)).
  assert (all_in (n * 1) (kind u xs W rho m lim e 0) x) as Hx0.
  { apply kind_all. simpl. replace (1 * e + lim) with (e + lim) by ring. exact Hx. }
  assert (forall (f : list Qc -> nd (list Qc)) Q, (forall d, d = ((fun i => @sdiv Qc Of (@s1 Qc Of) (vat (vals M) (dg M i))) <$> seq 0 n) -> length d = n -> nok (f d) Q) ->
    nok (nbind (@jacobi_setup Qc Of M d0) f) Q) as Hstart.
  { intros f Q Hf. eapply nok_bind; [apply (round_setup u Of M d0 H Hw Hd (rc_vals _ _ _ _ _ _ _ _ _ HC) Hd0)|]. intros d Ed. apply Hf; [exact Ed|].
    rewrite Ed, fmap_length, seq_length. reflexivity. }
  assert (forall d, d = ((fun i => @sdiv Qc Of (@s1 Qc Of) (vat (vals M) (dg M i))) <$> seq 0 n) -> length d = n ->
    (forall k l v, (l < n * 1)%nat -> kind u xs W rho m lim e (S k) l v -> kind u xs W rho m lim e k l v) /\
    (forall k i, (i < n)%nat -> improves 1 n (@relax_with Qc Of dot M d b) (kind u xs W rho m lim e k) (kind u xs W rho m lim e (S k)) i) /\
    (forall z i, length z = (n * 1)%nat -> (i < n)%nat -> kernel_ok 1 (@relax_with Qc Of dot M d z) n (offdep M) i)) as Hall.
  { intros d Ed Hdl. split; [|split].
    - intros k0 l v. exact (kind_better u Of M b xs W rho X m lim e H HC He k0 l v).
    - intros k0 i Hi. exact (kind_improves u Of dot M b xs W rho X m lim e H Hdot HC He Hlim d k0 i Ed Hi).
    - intros z i Hz Hi. apply (relax_ker u Of dot M b xs W rho X m lim Hdot HC); auto. }
  split; [|split; [|split]].
  - intros steps chunk Hc. apply Hstart. intros d Ed Hdl. destruct (Hall d Ed Hdl) as (A1 & A2 & A3).
    eapply nok_mono; [apply (shrink_chaotic_seq 1 n (@relax_with Qc Of dot M d) (offdep M) b (kind u xs W rho m lim e) A1 A2 A3 Hb steps chunk 0 x Hc Hx0)|].
    intros z Hz. rewrite Nat.add_0_r in Hz. apply kind_all, Hz.
  - intros its chunk Hc. apply Hstart. intros d Ed Hdl. destruct (Hall d Ed Hdl) as (A1 & A2 & A3).
    eapply nok_mono; [apply (shrink_sgs_seq 1 n (@relax_with Qc Of dot M d) (offdep M) b (kind u xs W rho m lim e) A1 A2 A3 Hb its chunk 0 x Hc Hx0)|].
    intros z Hz. rewrite Nat.add_0_r in Hz. apply kind_all, Hz.
  - intros levels its nthr Hlev Hn. apply Hstart. intros d Ed Hdl. destruct (Hall d Ed Hdl) as (A1 & A2 & A3).
    destruct (mat_levels M levels (conj Hw (conj Hd Hs)) Hlev) as (_ & _ & L3).
    eapply nok_mono; [apply (shrink_level 1 n (@relax_with Qc Of dot M d) (offdep M) b (kind u xs W rho m lim e) A1 A2 A3 Hb levels its nthr 0 x Hn L3 Hx0)|].
    intros z Hz. rewrite Nat.add_0_r in Hz. apply kind_all, Hz.
  - intros ssqrt slt p xtemp Hxt. apply Hstart. intros d Ed Hdl. destruct (Hall d Ed Hdl) as (A1 & A2 & A3).
    eapply nok_mono; [apply (shrink_jacobi 1 n (@relax_with Qc Of dot M d) b (kind u xs W rho m lim e) A2 Hb ssqrt slt p 0 xtemp x Hx0); lia|].
    intros z (k & H1 & H2 & H3 & Hz). rewrite Nat.add_0_r in Hz. exists k. split; [exact H1|]. split; [exact H2|]. split; [exact H3|]. apply kind_all, Hz.
Qed.

(** ** C93 *)
(** Any number of calls of asynchronous relaxation, or of relaxation by symmetric
    Gauss-Seidel sweeps, with any numbers of steps, chunk sizes and threads, under every
    schedule, in the arithmetic of any machine that rounds: every call multiplies by
    [rho * g] the part of the error above [lim]. *)
Theorem C93_every_schedule : forall u (Of : machine) M b xs W rho X m lim e d0 x,
  let n := nbrows M in
  let r := rho * growth u (m + 3) in
  rounds u Of -> relax_case u M b xs W rho X m lim -> 0 <= lim -> 0 <= e -> length d0 = n ->
  error_within Qcabs Qcle n W xs (e + lim) x ->
  forall calls : list (nat * nat * nat), Forall (fun '(steps, chunk, nthr) => 1 <= steps /\ 1 <= chunk /\ 1 <= nthr)%nat calls ->
  nok (nbind (@jacobi_setup Qc Of M d0) (fun d =>
         in_turn ((fun '(steps, chunk, nthr) => chaotic_relax 1 n (@scalar_relaxC Qc Of M d) steps chunk nthr b) <$> calls) x))
      (error_within Qcabs Qcle n W xs (r ^ length calls * e + lim)) /\
  nok (nbind (@jacobi_setup Qc Of M d0) (fun d =>
         in_turn ((fun '(its, chunk, nthr) => sgs_relax 1 n (@scalar_relaxC Qc Of M d) its chunk nthr b) <$> calls) x))
      (error_within Qcabs Qcle n W xs (r ^ length calls * e + lim)).
Proof.
  intros u Of M b xs W rho X m lim e d0 x n r H HC.
  exact (every_schedule_with u Of (@sdot Qc Of) M b xs W rho X m lim e d0 x H (sdot_rounds u Of H) HC).
Qed.

(** Methods that wait for every sweep gain the factor with each one: asynchronous and
    Gauss-Seidel relaxation with one thread, level scheduling with any number, and
    Jacobi's method with or without its test for convergence. *)
Theorem C93_every_sweep : forall u (Of : machine) M b xs W rho X m lim e d0 x,
  let n := nbrows M in
  let r := rho * growth u (m + 3) in
  rounds u Of -> relax_case u M b xs W rho X m lim -> 0 <= lim -> 0 <= e -> length d0 = n ->
  error_within Qcabs Qcle n W xs (e + lim) x ->
  (forall steps chunk, (1 <= chunk)%nat ->
    nok (nbind (@jacobi_setup Qc Of M d0) (fun d => chaotic_relax 1 n (@scalar_relaxC Qc Of M d) steps chunk 1 b x))
        (error_within Qcabs Qcle n W xs (r ^ steps * e + lim))) /\
  (forall its chunk, (1 <= chunk)%nat ->
    nok (nbind (@jacobi_setup Qc Of M d0) (fun d => sgs_relax 1 n (@scalar_relaxC Qc Of M d) its chunk 1 b x))
        (error_within Qcabs Qcle n W xs (r ^ (2 * its) * e + lim))) /\
  (forall levels its nthr, valid_levels M levels -> (1 <= nthr)%nat ->
    nok (nbind (@jacobi_setup Qc Of M d0) (fun d => level_relax 1 (@scalar_relaxC Qc Of M d) levels its nthr b x))
        (error_within Qcabs Qcle n W xs (r ^ (2 * its) * e + lim))) /\
  (forall ssqrt slt p xtemp, length xtemp = n ->
    nok (nbind (@jacobi_setup Qc Of M d0) (fun d => @jacobi_relax Qc Of ssqrt slt 1 n (@scalar_relaxC Qc Of M d) p xtemp b x))
        (fun x' => exists k, (k <= maxits p)%nat /\ (ctol p = false -> k = maxits p) /\ (1 <= maxits p -> 1 <= k)%nat /\
           error_within Qcabs Qcle n W xs (r ^ k * e + lim) x')).
Proof.
  intros u Of M b xs W rho X m lim e d0 x n r H HC.
  exact (every_sweep_with u Of (@sdot Qc Of) M b xs W rho X m lim e d0 x H (sdot_rounds u Of H) HC).
Qed.

(** What can be attained: if the rate with rounding is below 1, the smallest [lim] is
    (g-1) X / (1 - rho g), which is positive or zero; and g - 1 is at most
    K u / (1 - K u), where K = m+3. *)
Theorem C93_attainable : forall u (Of : machine) rho X m,
  rounds u Of -> 0 <= X ->
  let g := growth u (m + 3) in
  let lim := (g - 1) * X / (1 - rho * g) in
  (rho * g < 1 -> 0 <= lim /\ rho * g * lim + (g - 1) * X = lim) /\
  0 <= g - 1 /\ (g - 1) * (1 - count (m + 3) * u) <= count (m + 3) * u.
Proof.
  intros u Of rho X m H HX g lim. pose proof (rd_nonneg u Of H) as Hu0. pose proof (rd_lt u Of H) as Hu1.
  pose proof (growth_ge1 u Hu0 Hu1 (m + 3)) as Hg. fold g in Hg. pose proof Hg as Hg'. apply Qcle_minus_iff in Hg'.
  split; [|split; [exact Hg'|]].
  - intros Hr. apply Qclt_minus_iff in Hr. assert (1 - rho * g <> 0) as Hne by (intros E; change (1 + - (rho * g)) with (1 - rho * g) in Hr; rewrite E in Hr; discriminate).
    split.
    + apply Qcnot_lt_le. intros Hl. assert (0 < (1 + - (rho * g)) * - lim) as H2.
      { apply Qcmul_pos; [exact Hr|]. apply Qclt_minus_iff in Hl. replace (- lim) with (0 + - lim) by ring. exact Hl. }
      replace ((1 + - (rho * g)) * - lim) with (- ((g + - (1)) * X)) in H2 by (unfold lim; field; exact Hne).
      apply (Qclt_not_le _ _ H2). apply Qcle_minus_iff. replace (0 + - - ((g + - (1)) * X)) with ((g + - (1)) * X) by ring.
      apply Qcmul_nonneg; auto.
    + unfold lim. field. exact Hne.
  - assert (close u (m + 3) g) as Hcl.
    { split; [|unfold g; rewrite growth_inv by auto; apply Qcle_refl].
      eapply Qcle_trans; [apply pow_le1; auto|exact Hg]. }
    pose proof (close_abs u Hu0 Hu1 _ _ Hcl) as HW. unfold within in HW. rewrite Qcmult_1_r in HW.
    rewrite Qcabs_pos in HW by exact Hg'. exact HW.
Qed.

(** ** Not vacuous: the matrix (2 1; 1 2) in double precision, ten calls of two steps
    with four threads from (5, -3): within 1/256 + 2^-49 of (1, 1) *)
Definition dlim : Qc := 1 / q (2 ^ 49).
Example C93_case : relax_case (1 / q (2 ^ 53)) domM [q 3; q 3] [q 1; q 1] (fun _ => q 1) half (q 1) 2 dlim.
Proof.
  constructor.
  - apply domM_wf.
  - reflexivity.
  - apply domM_diag.
  - reflexivity.
  - apply domM_sol.
  - intros i _. vm_compute. discriminate.
  - apply half_pos.
  - apply half_one.
  - apply domM_dom.
  - vm_compute. discriminate.
  - intros i Hi. destruct i as [|[|]]; [vm_compute; discriminate|vm_compute; discriminate|simpl in Hi; lia].
  - intros i Hi. destruct i as [|[|]]; [vm_compute; lia|vm_compute; lia|simpl in Hi; lia].
  - vm_compute. discriminate.
  - vm_compute. discriminate.
Qed.
Example C93_applies :
  nok (nbind (@jacobi_setup Qc double_machine domM [q 0; q 0]) (fun d =>
       in_turn (replicate 10 (chaotic_relax 1 2 (@scalar_relaxC Qc double_machine domM d) 2 1 4 [q 3; q 3])) [q 5; q (-3)]))
      (fun x => length x = 2%nat /\ forall i, (i < 2)%nat -> Qcle (Qcabs (vat x i - q 1)) (1 / q 255)).
Proof.
  destruct (C93_every_schedule (1 / q (2 ^ 53)) double_machine domM [q 3; q 3] [q 1; q 1] (fun _ => q 1) half (q 1) 2 dlim (q 4) [q 0; q 0] [q 5; q (-3)])
    with (calls := replicate 10 (2, 1, 4)%nat) as [H _].
  - apply C91_machine.
  - apply C93_case.
  - vm_compute. discriminate.
  - vm_compute. discriminate.
  - reflexivity.
  - split; [reflexivity|]. intros i Hi. destruct i as [|[|]]; [vm_compute; discriminate|vm_compute; discriminate|simpl in Hi; lia].
  - apply Forall_replicate. lia.
  - cbn [replicate fmap list_fmap] in H. eapply nok_mono; [exact H|].
    intros x [Hl Hx]. split; [exact Hl|]. intros i Hi. specialize (Hx i Hi).
    replace (vat [q 1; q 1] i) with (q 1) in Hx by (destruct i as [|[|]]; [reflexivity|reflexivity|lia]).
    eapply Qcle_trans; [exact Hx|]. vm_compute. discriminate.
Qed.

Print Assumptions C93_every_schedule.
Print Assumptions C93_every_sweep.
Print Assumptions C93_attainable.
