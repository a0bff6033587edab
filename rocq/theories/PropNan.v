(** * PropNan: property C104 (a solver started from the exact solution), in IEEE double precision *)
From Verif Require Import Base Alg SRMatrix Nd Reduction Matvec MatvecFacts TriFacts Solvers SolversFacts Inst NanFacts Sgs PropSgs.
From Coq Require Import Floats.SpecFloat ZArith.
Open Scope nat_scope.

(** What is needed of the matrix and of the preconditioner: zero vectors (of zeros with any signs) are mapped to zero vectors, and a
    residual of a vector of NaNs holds a NaN. *)
Definition double_matrix (N : nat) (Aapply : list double -> list double -> nd (list double))
    (Agemv3 : double -> list double -> double -> list double -> list double -> nd (list double)) : Prop :=
  (forall x y, length x = N -> length y = N ->
    nok (Aapply x y) (fun y' => length y' = N /\ ((forall i, i < N -> dzero (vat x i)) -> forall i, i < N -> dzero (vat y' i)))) /\
  (forall a x b y z, length x = N -> length y = N -> length z = N ->
    nok (Agemv3 a x b y z) (fun z' => length z' = N /\ ((forall i, i < N -> vat x i = S754_nan) -> exists i, i < N /\ vat z' i = S754_nan))).
Definition double_prec (N : nat) (prec : list double -> list double -> nd (list double)) : Prop :=
  forall x y, length x = N -> length y = N ->
    nok (prec x y) (fun y' => length y' = N /\ ((forall i, i < N -> dzero (vat x i)) -> forall i, i < N -> dzero (vat y' i))).
(** the residual of [x0], as the program computes it, is zero *)
Definition exact_guess (N : nat) (Agemv3 : double -> list double -> double -> list double -> list double -> nd (list double)) (b x0 : list double) : Prop :=
  forall z r, length z = N -> Agemv3 (sopp s1) x0 s1 b z (Ok r) -> forall i, i < N -> dzero (vat r i).

(** ** The program's matrices *)
Lemma facc_zero (init : double) t lo hi : dzero init -> (forall j, lo <= j < hi -> dzero (t j)) -> dzero (facc init t lo hi).
Proof.
  intros H0 Ht. destruct (decide (lo <= hi)) as [Hl|Hl]; [|unfold facc; rewrite range_nil by lia; exact H0].
  replace hi with (lo + (hi - lo)) in * by lia. clear Hl. induction (hi - lo) as [|n IH].
  - replace (lo + 0) with lo by lia. rewrite facc_nil. exact H0.
  - replace (lo + S n) with (lo + n + 1) by lia. rewrite facc_snoc by lia. apply dzero_add; [apply IH; intros; apply Ht; lia|apply Ht; lia].
Qed.
Lemma facc_nan (init : double) t lo hi j : lo <= j < hi -> dnan (t j) -> dnan (facc init t lo hi).
Proof.
  intros Hj Hn. replace hi with (lo + (hi - lo)) in * by lia. induction (hi - lo) as [|n IH]; [lia|].
  replace (lo + S n) with (lo + n + 1) by lia. rewrite facc_snoc by lia.
  destruct (decide (j = lo + n)) as [->|Hne]; [apply dnan_add_r, Hn|apply dnan_add_l, IH; lia].
Qed.
Lemma dlt_zero sg tol : SFltb (S754_zero false) tol = true -> dlt (S754_zero sg) tol = true.
Proof. unfold dlt, SFltb. destruct tol; cbn; auto. Qed.
Lemma zero_over sg c : SFltb (S754_zero false) c = true -> (S754_zero sg / c : double)%s = S754_zero sg.
Proof. unfold SFltb. destruct c as [?|[|]| |[|] ? ?]; cbn; intros; try discriminate; destruct sg; reflexivity. Qed.
(** A CSR matrix with finite entries, at least one of them, is as required. *)
Theorem C104_csr : forall M : srmat double, wf_pat M -> length (vals M) = nnz M -> 0 < nnz M -> (forall jj, jj < nnz M -> dfinite (vat (vals M) jj)) ->
  double_matrix (nbrows M) (csr_apply M) (fun a x b y z => csr_gemv3 M a x b (Some y) z).
Proof.
  intros M Hw Hv Hn Hf. split.
  - intros x y Hx Hy. eapply nok_mono; [apply csr_apply_spec; assumption|]. intros y' [L H]. split; [exact L|]. intros Hz i Hi.
    rewrite (vat_eq _ _ _ (H i Hi)). apply facc_zero; [exists false; reflexivity|]. intros j Hj.
    assert (inrow M i j) as Hin by (split; lia). pose proof (inrow_lt M i j Hw Hin) as Hl.
    apply dzero_mul_r; [apply Hf, Hl|apply Hz, (wf_col M Hw), Hl].
  - intros a x b y z Hx Hy Hz. eapply nok_mono; [apply csr_gemv3_spec; assumption|]. intros z' [L H]. split; [exact L|]. intros Hnan.
    destruct (inrow_exists M 0 Hw Hn) as (i & Hi & Hin). exists i. split; [exact Hi|]. rewrite (vat_eq _ _ _ (H i Hi)).
    apply (facc_nan _ _ _ _ 0); [exact Hin|]. apply dnan_mul_r, Hnan, (wf_col M Hw), Hn.
Qed.
(** With it, zero is an exact guess for the right-hand side zero. *)
Theorem C104_zero_system : forall (M : srmat double) b x0, wf_pat M -> length (vals M) = nnz M -> (forall jj, jj < nnz M -> dfinite (sopp s1 * vat (vals M) jj)%s) ->
  length b = nbrows M -> length x0 = nbrows M -> (forall i, i < nbrows M -> dzero (vat b i)) -> (forall i, i < nbrows M -> dzero (vat x0 i)) ->
  exact_guess (nbrows M) (fun a x b y z => csr_gemv3 M a x b (Some y) z) b x0.
Proof.
  intros M b x0 Hw Hv Hf Lb Lx Zb Zx z r Lz Hr i Hi.
  pose proof (nok_all_ok _ _ _ (csr_gemv3_spec M x0 Hw Hv Lx (sopp s1) s1 (Some b) z Lz Lb) Hr) as [L H]. rewrite (vat_eq _ _ _ (H i Hi)).
  apply facc_zero; [apply dzero_mul_r; [apply done_finite|apply Zb, Hi]|]. intros j Hj.
  assert (inrow M i j) as Hin by (split; lia). pose proof (inrow_lt M i j Hw Hin) as Hl.
  apply dzero_mul_r; [apply Hf, Hl|apply Zx, (wf_col M Hw), Hl].
Qed.

(** ** The solvers *)
(** Richardson started from the exact solution returns it without a step. *)
Theorem C104_richardson : forall N Aapply Agemv3 prec maxiter tol b x0, double_matrix N Aapply Agemv3 -> double_prec N prec ->
  length b = N -> length x0 = N -> 0 < maxiter -> exact_guess N Agemv3 b x0 -> SFltb (S754_zero false) tol = true ->
  nok (richardson dsqrt dlt N Agemv3 prec maxiter tol b x0) (fun '(x', info) =>
    SFltb (S754_zero false) (bnorm info) = true -> x' = x0 /\ iters info = 0 /\ dzero (resnorm info)).
Proof.
  intros N Aapply Agemv3 prec maxiter tol b x0 [HA HG] HP Lb Lx Hm Hex Htol. unfold richardson. cbv zeta.
  eapply nok_bind; [apply vdot_any; assumption|]. intros bb _.
  assert (forall k step rn s ddu du, length s = N -> length ddu = N -> length du = N ->
    nok (richardson_loop dsqrt dlt N Agemv3 prec tol b (dsqrt bb) k step rn s ddu du) (fun _ => True)) as Hany.
  { induction k as [|k IH]; intros step rn s ddu du Ls Ld Lu; cbn [richardson_loop]; [apply nok_ret; exact I|].
    eapply nok_bind; [apply HG; assumption|]. intros s' [Ls' _]. eapply nok_bind; [apply vdot_any; assumption|]. intros ss _. cbv zeta.
    destruct (dlt _ tol); [apply nok_ret; exact I|].
    eapply nok_bind; [apply HP; assumption|]. intros d [Ld' _]. eapply nok_bind; [apply axpby_ok; assumption|]. intros ? ->.
    apply IH; [assumption|assumption|apply mk_length]. }
  destruct (SFltb (S754_zero false) (dsqrt bb)) eqn:Eb.
  - destruct maxiter as [|k]; [lia|]. cbn [richardson_loop].
    eapply nok_bind with (P := fun '(x', m, rn) => x' = x0 /\ m = 0 /\ dzero rn); [|intros [[x' m] rn] H; apply nok_ret; intros _; exact H].
    eapply nok_bind; [apply nok_self, HG; auto using replicate_length|]. intros s' [[Ls' _] Hs'].
    assert (zeros N s') as Z by (intros i Hi; eapply (Hex _ _ (replicate_length N s0) Hs'); exact Hi).
    eapply nok_bind; [apply vdot_any; assumption|]. intros ss [Hss _]. cbv zeta.
    destruct (Hss Z Z) as [sg ->].
    assert (dlt (dsqrt (S754_zero sg) / dsqrt bb)%s tol = true) as ->.
    { change (dsqrt (S754_zero sg)) with (S754_zero sg). rewrite zero_over by exact Eb. apply dlt_zero, Htol. }
    apply nok_ret. split; [reflexivity|]. split; [reflexivity|]. exists sg. reflexivity.
  - eapply nok_bind; [apply Hany; auto using replicate_length|]. intros [[x' m] rn] _. apply nok_ret. cbn. intros H. congruence.
Qed.
(** BiCGSTAB and GCR do not: they divide zero by zero and return a vector of NaNs, after all the steps allowed. *)
Theorem C104_bicgstab_refuted : forall N Aapply Agemv3 prec maxiter tol hundred b x0, double_matrix N Aapply Agemv3 -> double_prec N prec ->
  length b = N -> length x0 = N -> 0 < N -> 0 < maxiter -> exact_guess N Agemv3 b x0 ->
  nok (bicgstab dsqrt dlt N Aapply Agemv3 prec maxiter tol hundred b x0) (fun '(x', info) =>
    (forall i, i < N -> vat x' i = S754_nan) /\ iters info = maxiter + 1 /\ resnorm info = S754_nan).
Proof.
  intros N Aapply Agemv3 prec maxiter tol hundred b x0 [HA HG] HP Lb Lx HN Hm Hex. unfold bicgstab. cbv zeta.
  eapply nok_bind; [apply nok_self, HG; auto using replicate_length|]. intros r [[Lr _] Hr].
  assert (zeros N r) as Z by (intros i Hi; eapply (Hex _ _ (replicate_length N s0) Hr); exact Hi).
  eapply nok_bind; [apply rhs_any; auto using replicate_length|]. intros [bb rh] ->.
  eapply nok_bind; [apply (bloop_any N Aapply prec HA HP tol r (dsqrt bb) maxiter HN 0 hundred)|].
  - exact Lr.
  - unfold bshape. cbn. rewrite !replicate_length. auto 10.
  - right. cbn. pose proof (zeros_replicate N) as Z0. auto 10.
  - intros [[x' m] rn] [-> H]. apply nok_ret. cbn. destruct H as [H1 H2]; [right; exact Hm|]. split; [exact H1|]. split; [reflexivity|exact H2].
Qed.
Theorem C104_gcr_refuted : forall N Aapply Agemv3 prec maxiter tol nrestart b x0, double_matrix N Aapply Agemv3 -> double_prec N prec ->
  length b = N -> length x0 = N -> 0 < N -> 0 < maxiter -> 0 < nrestart -> exact_guess N Agemv3 b x0 ->
  nok (gcr dsqrt dlt dle N Aapply Agemv3 prec maxiter tol nrestart b x0) (fun '(x', info) =>
    (forall i, i < N -> vat x' i = S754_nan) /\ iters info = maxiter /\ resnorm info = S754_nan /\ converged info = false).
Proof.
  intros N Aapply Agemv3 prec maxiter tol nrestart b x0 [HA HG] HP Lb Lx HN Hm Hnr Hex. unfold gcr. cbv zeta.
  eapply nok_bind; [apply vdot_any; assumption|]. intros bb _.
  eapply nok_bind; [apply (gloop_any N Aapply Agemv3 prec HA HG HP maxiter tol nrestart b (dsqrt bb) maxiter HN Hnr Lb 0)|].
  - lia.
  - lia.
  - unfold gshape. cbn. rewrite !replicate_length. do 6 (split; [reflexivity || exact Lx|]).
    split; apply Forall_forall; intros v Hv; apply elem_of_replicate in Hv as [-> _]; apply replicate_length.
  - right. split; [exact Hm|]. exact Hex.
  - intros [[x' m] rn] (-> & H1 & H2). apply nok_ret. cbn. split; [exact H1|]. split; [reflexivity|]. split; [exact H2|].
    apply dnan_le, dnan_div_l, H2.
Qed.

(** ** A case: the matrix (2 1; 0 3), no preconditioner, the system A x = 0 with the guess 0 *)
Definition dbl (m : positive) : double := SFldexp 53 1024 (S754_finite false m 0) 0.
Definition dblM : srmat double := SR [0; 2; 3] [0; 1; 1] [dbl 2; dbl 1; dbl 3] [0; 2] [1; 3] 2 3 3.
Example C104_case : double_matrix 2 (csr_apply dblM) (fun a x b y z => csr_gemv3 dblM a x b (Some y) z) /\ double_prec 2 (noprec_apply 1 dblM) /\
  exact_guess 2 (fun a x b y z => csr_gemv3 dblM a x b (Some y) z) [S754_zero false; S754_zero false] [S754_zero false; S754_zero false] /\
  SFltb (S754_zero false) (dbl 1) = true.
Proof.
  assert (wf_pat dblM) as Hw by (apply wfb_pat_ok; reflexivity).
  split; [|split; [|split]].
  - apply (C104_csr dblM Hw eq_refl); [vm_compute; lia|]. intros [|[|[|jj]]] Hj; [vm_compute; exact I..|vm_compute in Hj; lia].
  - intros x y Hx Hy. eapply nok_mono; [apply (C42_identity double double_ops 1 dblM x y); assumption|]. intros y' ->. auto.
  - apply (C104_zero_system dblM _ _ Hw eq_refl); [|reflexivity|reflexivity| |].
    + intros [|[|[|jj]]] Hj; [vm_compute; exact I..|vm_compute in Hj; lia].
    + intros [|[|i]] Hi; [exists false; reflexivity..|vm_compute in Hi; lia].
    + intros [|[|i]] Hi; [exists false; reflexivity..|vm_compute in Hi; lia].
  - vm_compute. reflexivity.
Qed.

Print Assumptions C104_csr.
Print Assumptions C104_zero_system.
Print Assumptions C104_richardson.
Print Assumptions C104_bicgstab_refuted.
Print Assumptions C104_gcr_refuted.
