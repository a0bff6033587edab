(** * PropSolvers: property C99 (the residual norms which the iterative solvers report) *)
From Verif Require Import Base Alg SRMatrix Nd Reduction Matvec MatvecFacts MatvecMain PropMatvec TriSpec TriFacts SymSpec SolveSpec Solvers SolversFacts Inst.
From Coq Require Import QArith.Qcanon.
Open Scope nat_scope.

(** The matrix object multiplies by the N x N matrix A ... *)
Definition matrix_object {F} {O : SOps F} (N : nat) (A : nat -> nat -> F)
    (Aapply : list F -> list F -> nd (list F)) (Agemv3 : F -> list F -> F -> list F -> list F -> nd (list F)) : Prop :=
  (forall x y, length x = N -> length y = N -> nok (Aapply x y) (fun y' => length y' = N /\ is_prod N A x y')) /\
  (forall a x b y z, length x = N -> length y = N -> length z = N ->
    nok (Agemv3 a x b y z) (fun z' => length z' = N /\ forall i, i < N -> vat z' i = (a * bsum N (fun j => A i j * vat x j) + b * vat y i)%s)).
(** ... and the preconditioner is any function on vectors with N entries, with one or more outcomes *)
Definition prec_object {F} (N : nat) (prec : list F -> list F -> nd (list F)) : Prop :=
  forall x y, length x = N -> length y = N -> nok (prec x y) (fun y' => length y' = N).
(** [d] is one of its answers to [s] *)
Definition answer {F} (N : nat) (prec : list F -> list F -> nd (list F)) (s d : list F) : Prop :=
  exists old, length old = N /\ prec s old (Ok d).

(** The matrix views of the library are such objects. *)
Theorem C99_matrix_views : forall (F : Type) (O : SOps F) (R : CRing F) (M : srmat F), wf_pat M -> wf_nodup M ->
  (wf_vals 1 M -> matrix_object (nbrows M) (dense M) (csr_apply M) (fun a x b y z => csr_gemv3 M a x b (Some y) z)) /\
  (forall so bs, wf_vals bs M -> matrix_object (nbrows M * bs) (bdense so bs M) (bsr_apply so bs M) (fun a x b y z => bsr_gemv3 so bs M a x b (Some y) z)).
Proof.
  intros F O R M Hw Hn. split.
  - intros Hv. split.
    + intros x y Hx Hy. apply C08_scalar_product; assumption.
    + intros a x b y z Hx Hy Hz. apply (C09_scalar_gemv3 F O R M a x b (Some y) z); assumption.
  - intros so bs Hv. split.
    + intros x y Hx Hy. apply C08_block_product; assumption.
    + intros a x b y z Hx Hy Hz. apply (C09_block_gemv3 F O R so bs M a x b (Some y) z); assumption.
Qed.

Section Thms.
  Context {F : Type} {O : SOps F} {R : CRing F}.
  Variables (ssqrt : F -> F) (slt sle : F -> F -> bool) (N : nat) (A : nat -> nat -> F).
  Variables (Aapply : list F -> list F -> nd (list F)) (Agemv3 : F -> list F -> F -> list F -> list F -> nd (list F)) (prec : list F -> list F -> nd (list F)).
  Hypotheses (HM : matrix_object N A Aapply Agemv3) (HP : prec_object N prec).
  Variables (maxiter : nat) (tol : F).
  (** the 2-norm of the residual b - A x, and of b *)
  Notation resnorm_of b x := (ssqrt (sqnorm N (resid N A b x))).
  Notation norm_of b := (ssqrt (sqnorm N b)).

  Lemma richardson_main b x0 : length b = N -> length x0 = N ->
    nok (richardson ssqrt slt N Agemv3 prec maxiter tol b x0) (fun '(x', info) =>
      bnorm info = norm_of b /\ iters info <= maxiter /\ iterates N A (answer N prec) b x0 (iters info) x' /\ converged info = false /\
      (iters info < maxiter -> resnorm info = resnorm_of b x' /\ slt (resnorm info / bnorm info)%s tol = true) /\
      (iters info = maxiter -> maxiter = 0 /\ resnorm info = s0 \/ exists x d, iterates N A (answer N prec) b x0 (maxiter - 1) x /\
         answer N prec (resid N A b x) d /\ x' = vadd N x d /\ resnorm info = resnorm_of b x /\ slt (resnorm info / bnorm info)%s tol = false)).
  Proof.
    intros Hb Hx. destruct HM as [_ HG]. unfold richardson.
    eapply nok_bind; [apply vdot_ok; exact Hb|]. intros ? ->. cbv zeta.
    eapply nok_bind; [apply (richardson_loop_ok ssqrt slt N A Agemv3 prec HG HP tol b x0); auto using replicate_length; constructor|].
    intros [[x' m] rn]. cbn beta iota. intros (H1 & H2 & H3 & H4). apply nok_ret. cbn.
    split; [reflexivity|]. split; [lia|]. split; [exact H2|]. split; [reflexivity|]. split; [exact H3|].
    intros Hm. destruct (H4 Hm) as [[? ?]|(x & d & G)]; [left; split; [lia|assumption]|right]. exists x, d. rewrite <- Hm. exact G.
  Qed.
  Lemma bicgstab_main hundred b x0 : length b = N -> length x0 = N ->
    nok (bicgstab ssqrt slt N Aapply Agemv3 prec maxiter tol hundred b x0) (fun '(x', info) =>
      bnorm info = norm_of b /\ length x' = N /\ 1 <= iters info <= maxiter + 1 /\ converged info = false /\
      (0 < maxiter -> resnorm info = resnorm_of b x' /\ (iters info <= maxiter <-> slt (resnorm info / bnorm info)%s tol = true)) /\
      (maxiter = 0 -> x' = x0 /\ resnorm info = hundred)).
  Proof.
    intros Hb Hx. destruct HM as [HA HG]. unfold bicgstab. cbv zeta.
    eapply nok_bind; [apply (Agemv3_ok N A Agemv3 HG); auto using replicate_length|]. intros ? ->.
    eapply nok_bind; [apply rhs_loop_ok; auto using replicate_length, resid_length|]. intros [bb rhat] [-> ->].
    eapply nok_bind; [apply (bicgstab_loop_ok ssqrt slt N A Aapply prec HA HP tol b); auto using resid_length|].
    - unfold bs_good. cbn. rewrite !replicate_length. auto 10.
    - intros [[x' m] rn]. cbn beta iota. intros (H1 & H2 & H3 & H4 & H5). apply nok_ret. cbn in *.
      split; [reflexivity|]. split; [exact H2|]. split; [lia|]. split; [reflexivity|]. split; [|exact H5].
      intros Hm. destruct (H4 Hm) as [E1 E2]. split; [exact E1|]. split; [intros; apply H3; lia|].
      intros Ht. destruct (decide (m = maxiter)) as [Em|Em]; [|lia]. change (dot N b b) with (sqnorm N b) in *. rewrite (E2 Em) in Ht. discriminate Ht.
  Qed.
  Lemma gcr_main nrestart b x0 : length b = N -> length x0 = N -> 0 < nrestart ->
    nok (gcr ssqrt slt sle N Aapply Agemv3 prec maxiter tol nrestart b x0) (fun '(x', info) =>
      bnorm info = norm_of b /\ length x' = N /\ iters info <= maxiter /\ converged info = sle (resnorm info / bnorm info)%s tol /\
      (0 < maxiter -> 0 < iters info /\ resnorm info = resnorm_of b x') /\ (iters info < maxiter -> slt (resnorm info / bnorm info)%s tol = true) /\
      (maxiter = 0 -> x' = x0 /\ resnorm info = s1)).
  Proof.
    intros Hb Hx Hn. destruct HM as [HA HG]. unfold gcr. cbv zeta.
    eapply nok_bind; [apply vdot_ok; exact Hb|]. intros ? ->.
    eapply nok_bind.
    - apply (gcr_loop_ok ssqrt slt N A Aapply Agemv3 prec HA HG HP maxiter nrestart tol b Hb _ (fun _ => gs_good N nrestart b)
        (fun _ k => gs_inv N A nrestart b (k + 1)) (fun _ k => gs_inv N A nrestart b (k + 1))).
      + auto.
      + auto.
      + intros step s p0 Hg L0 _. apply start_inv; assumption.
      + intros _ k s Hk Hi. apply update_inv; assumption.
      + intros _ k s z beta Hk Hi _ _ Lz _ Lb. apply next_inv; assumption.
      + intros step sc s _ Hi _ _. apply Hi.
      + exact Hn.
      + lia.
      + unfold gs_good. cbn. rewrite !replicate_length. repeat (split; [assumption || reflexivity|]). split; [|split; [|reflexivity]]; apply Forall_replicate, replicate_length.
    - intros [[x' m] rn] H. apply nok_ret. cbn in *. split; [reflexivity|].
      destruct H as [(H1 & -> & -> & ->)|(H1 & H2 & H3 & sc & m0 & k' & s' & _ & _ & _ & _ & _ & _ & _ & Hi & ->)].
      + split; [exact Hx|]. split; [lia|]. split; [reflexivity|]. split; [lia|]. split; [lia|auto].
      + split; [apply Hi|]. split; [lia|]. split; [reflexivity|]. split; [intros _; split; [lia|exact H2]|]. split; [exact H3|lia].
  Qed.
End Thms.

(** ** C99 *)
(** Richardson: the iterates are x, x + M(b - A x), ...; if the solver stops before the last allowed step, the reported norm is that of the
    residual of the returned vector, and below the tolerance; if it does not, the reported norm is that of the vector before (0 if no step is
    allowed). The flag [converged] is never set. *)
Theorem C99_richardson : forall (F : Type) (O : SOps F) (R : CRing F) ssqrt slt N A Aapply Agemv3 prec maxiter tol (b x0 : list F),
  matrix_object N A Aapply Agemv3 -> prec_object N prec -> length b = N -> length x0 = N ->
  nok (richardson ssqrt slt N Agemv3 prec maxiter tol b x0) (fun '(x', info) =>
    bnorm info = ssqrt (sqnorm N b) /\ iters info <= maxiter /\ iterates N A (answer N prec) b x0 (iters info) x' /\ converged info = false /\
    (iters info < maxiter -> resnorm info = ssqrt (sqnorm N (resid N A b x')) /\ slt (resnorm info / bnorm info)%s tol = true) /\
    (iters info = maxiter -> maxiter = 0 /\ resnorm info = s0 \/ exists x d, iterates N A (answer N prec) b x0 (maxiter - 1) x /\
       answer N prec (resid N A b x) d /\ x' = vadd N x d /\ resnorm info = ssqrt (sqnorm N (resid N A b x)) /\
       slt (resnorm info / bnorm info)%s tol = false)).
Proof. intros. eapply richardson_main; eassumption. Qed.
(** BiCGSTAB: with at least one step allowed, the reported norm is that of the residual of the returned vector, whatever the preconditioner does;
    it is below the tolerance if and only if at most the allowed number of steps is reported. The flag [converged] is never set. *)
Theorem C99_bicgstab : forall (F : Type) (O : SOps F) (R : CRing F) ssqrt slt N A Aapply Agemv3 prec maxiter tol hundred (b x0 : list F),
  matrix_object N A Aapply Agemv3 -> prec_object N prec -> length b = N -> length x0 = N ->
  nok (bicgstab ssqrt slt N Aapply Agemv3 prec maxiter tol hundred b x0) (fun '(x', info) =>
    bnorm info = ssqrt (sqnorm N b) /\ length x' = N /\ 1 <= iters info <= maxiter + 1 /\ converged info = false /\
    (0 < maxiter -> resnorm info = ssqrt (sqnorm N (resid N A b x')) /\ (iters info <= maxiter <-> slt (resnorm info / bnorm info)%s tol = true)) /\
    (maxiter = 0 -> x' = x0 /\ resnorm info = hundred)).
Proof. intros. eapply bicgstab_main; eassumption. Qed.
(** GCR, with any restart length and any preconditioner: the reported norm is that of the residual of the returned vector, and
    the flag tells whether it meets the tolerance. *)
Theorem C99_gcr : forall (F : Type) (O : SOps F) (R : CRing F) ssqrt slt sle N A Aapply Agemv3 prec maxiter tol nrestart (b x0 : list F),
  matrix_object N A Aapply Agemv3 -> prec_object N prec -> length b = N -> length x0 = N -> 0 < nrestart ->
  nok (gcr ssqrt slt sle N Aapply Agemv3 prec maxiter tol nrestart b x0) (fun '(x', info) =>
    bnorm info = ssqrt (sqnorm N b) /\ length x' = N /\ iters info <= maxiter /\ converged info = sle (resnorm info / bnorm info)%s tol /\
    (0 < maxiter -> 0 < iters info /\ resnorm info = ssqrt (sqnorm N (resid N A b x'))) /\
    (iters info < maxiter -> slt (resnorm info / bnorm info)%s tol = true) /\
    (maxiter = 0 -> x' = x0 /\ resnorm info = s1)).
Proof. intros. eapply gcr_main; eassumption. Qed.

(** ** Failures *)
(** The reported number of steps of BiCGSTAB is not bounded by the allowed number: it is one more whenever the tolerance is not met. *)
Theorem C99_bicgstab_count_refuted : forall (F : Type) (O : SOps F) (R : CRing F) ssqrt slt N A Aapply Agemv3 prec maxiter tol hundred (b x0 : list F),
  matrix_object N A Aapply Agemv3 -> prec_object N prec -> length b = N -> length x0 = N -> 0 < maxiter ->
  nok (bicgstab ssqrt slt N Aapply Agemv3 prec maxiter tol hundred b x0) (fun '(_, info) =>
    slt (resnorm info / bnorm info)%s tol = false -> iters info = maxiter + 1).
Proof.
  intros F O R ssqrt slt N A Aapply Agemv3 prec maxiter tol hundred b x0 HM HP Hb Hx Hm.
  eapply nok_mono; [apply (C99_bicgstab _ _ _ ssqrt slt N A Aapply Agemv3 prec maxiter tol hundred b x0); assumption|].
  intros [x' info] (_ & _ & H1 & _ & H2 & _) Ht. destruct (H2 Hm) as [_ H3]. destruct (decide (iters info <= maxiter)) as [Hl|Hl]; [|lia].
  apply H3 in Hl. congruence.
Qed.
(** GCR without directions (restart length 0): undefined behaviour. *)
Theorem C99_gcr_no_directions_refuted : forall (F : Type) (O : SOps F) (R : CRing F) ssqrt slt sle N A Aapply Agemv3 prec maxiter tol (b x0 : list F) o,
  matrix_object N A Aapply Agemv3 -> length b = N -> length x0 = N -> 0 < maxiter ->
  gcr ssqrt slt sle N Aapply Agemv3 prec maxiter tol 0 b x0 o -> o = UB.
Proof.
  intros F O R ssqrt slt sle N A Aapply Agemv3 prec [|maxiter] tol b x0 o [_ HG] Hb Hx Hm H; [lia|].
  destruct H as (o1 & H1 & H). apply (vdot_ok N b b Hb Hb) in H1. destruct o1 as [bb| | |]; try contradiction.
  destruct H as (o2 & H2 & H). cbn in H2.
  assert (o2 = UB) as ->; [|exact H].
  destruct H2 as (o3 & H3 & H2).
  assert (o3 = UB) as ->; [|exact H2].
  destruct H3 as (o4 & H4 & H3). apply (Agemv3_ok N A Agemv3 HG x0 b _ Hx Hb (replicate_length _ _)) in H4. destruct o4 as [r| | |]; try contradiction.
  destruct H3 as (o5 & H5 & H3). cbv in H5. subst o5. exact H3.
Qed.

(** ** A case: 2 x = 2 in one unknown, with the preconditioner 1/2; the first step gives the solution *)
Definition oneM : srmat Qc := SR [0; 1] [0] [q 2] [0] [1] 1 1 1.
Definition halve (x y : list Qc) : nd (list Qc) := nret ((fun v => v / q 2)%Qc <$> x).
Lemma halve_object : prec_object 1 halve.
Proof. intros x y Hx _. apply nok_ret. rewrite fmap_length. exact Hx. Qed.
Lemma oneM_object : matrix_object 1 (dense oneM) (csr_apply oneM) (fun a x b y z => csr_gemv3 oneM a x b (Some y) z).
Proof.
  apply (proj1 (C99_matrix_views Qc Qc_ops Qc_ring oneM (wfb_pat_ok oneM eq_refl) (sorted_nodup oneM (wfb_sorted_ok oneM eq_refl)))). reflexivity.
Qed.
(** the square root and the comparison are correct at the numbers which occur *)
Definition qsqrt (x : Qc) : Qc := if Qc_eq_dec x (q 4) then q 2 else x.
Definition qlt (a b : Qc) : bool := if Qclt_le_dec a b then true else false.
Definition qle (a b : Qc) : bool := if Qclt_le_dec b a then false else true.
(** Richardson with one step allowed returns the solution 1, but reports the norm 2 of the residual at 0. *)
Theorem C99_richardson_last_refuted :
  nok (richardson qsqrt qlt 1 (fun a x b y z => csr_gemv3 oneM a x b (Some y) z) halve 1 (q 1 / q 10)%Qc [q 2] [q 0]) (fun '(x', info) =>
    x' = [q 1] /\ qsqrt (sqnorm 1 (resid 1 (dense oneM) [q 2] x')) = q 0 /\ resnorm info = q 2).
Proof.
  eapply nok_mono; [eapply (C99_richardson _ _ _ qsqrt qlt 1); [exact oneM_object|exact halve_object|reflexivity|reflexivity]|].
  intros [x' info] (Hbn & Hit & Hx & _ & H1 & H2).
  assert (forall x, iterates 1 (dense oneM) (answer 1 halve) [q 2] [q 0] 0 x -> x = [q 0]) as H0 by (intros x H; inversion H; reflexivity).
  destruct (decide (iters info < 1)) as [Hl|Hl].
  - destruct (H1 Hl) as [Hr Ht]. assert (iters info = 0) as E by lia. rewrite E in Hx. rewrite (H0 _ Hx) in Hr. rewrite Hr, Hbn in Ht. vm_compute in Ht. discriminate Ht.
  - destruct (H2 ltac:(lia)) as [[? _]|(x & d & Hi & (old & _ & Hd) & -> & Hr & _)]; [discriminate|]. rewrite (H0 _ Hi) in *.
    injection Hd as ->. rewrite Hr. split; [vm_compute; repeat f_equal; apply Qc_is_canon; reflexivity|]. split; vm_compute; apply Qc_is_canon; reflexivity.
Qed.
(** The hypotheses of the theorems hold in this case, and for the matrix [exM] with three unknowns. *)
Example C99_case : matrix_object 1 (dense oneM) (csr_apply oneM) (fun a x b y z => csr_gemv3 oneM a x b (Some y) z) /\ prec_object 1 halve /\
  matrix_object 3 (dense exM) (csr_apply exM) (fun a x b y z => csr_gemv3 exM a x b (Some y) z) /\ prec_object 3 halve.
Proof.
  split; [exact oneM_object|]. split; [exact halve_object|]. split.
  - apply (proj1 (C99_matrix_views Qc Qc_ops Qc_ring exM exM_pat (sorted_nodup _ exM_sorted))). reflexivity.
  - intros x y Hx _. apply nok_ret. rewrite fmap_length. exact Hx.
Qed.

Print Assumptions C99_matrix_views.
Print Assumptions C99_richardson.
Print Assumptions C99_bicgstab.
Print Assumptions C99_gcr.
Print Assumptions C99_bicgstab_count_refuted.
Print Assumptions C99_gcr_no_directions_refuted.
Print Assumptions C99_richardson_last_refuted.
