(** * PropKrylovNan: property C109 in IEEE double precision (BiCGSTAB with an exact preconditioner returns NaNs) *)
From Coq Require Import Floats.SpecFloat ZArith.
From Verif Require Import Base Alg SRMatrix Nd Reduction Matvec MatvecFacts TriFacts Solvers SolversFacts Inst NanFacts Sgs SgsMain PropNan.
Open Scope nat_scope.

(** The system 2 x = 2. *)
Definition twoM : srmat double := SR [0; 1] [0] [dbl 2] [0] [1] 1 1 1.
(** an exact preconditioner: the answer to 2 is 1, to a zero a zero *)
Definition halves (prec : list double -> list double -> nd (list double)) : Prop :=
  double_prec 1 prec /\ forall y, length y = 1 -> nok (prec [dbl 2] y) (fun y' => y' = [dbl 1]).

Lemma vdot_one (a c : double) : (s0 + c)%s = c -> (c + s0)%s = c -> (s0 + a * a)%s = c -> nok (vdot 1 [a] [a]) (fun s => s = c).
Proof.
  intros H1 H2 H3. unfold vdot.
  set (cnt := fun l : list (option nat) => length (filter (fun o => o <> None) l)).
  assert (forall l1 l2, cnt (l1 ++ l2) = cnt l1 + cnt l2) as Happ by (intros; unfold cnt; rewrite filter_app, app_length; reflexivity).
  apply (nok_reduce (fun l s => (cnt l = 0 -> s = s0) /\ (cnt l = 1 -> s = c)) sadd).
  - intros l l' s Hp [K1 K2]. assert (cnt l = cnt l') as <- by (unfold cnt; rewrite Hp; reflexivity). auto.
  - intros l1 l2 u v [K1 K2] [K3 K4]. rewrite Happ. split; intros H.
    + rewrite K1, K3 by lia. reflexivity.
    + destruct (decide (cnt l1 = 0)); [rewrite K1, K4 by lia; exact H1|rewrite K2, K3 by lia; exact H2].
  - split; [reflexivity|]. discriminate.
  - split; [reflexivity|]. discriminate.
  - intros l i s Hi [K1 K2]. assert (i = 0) as -> by lia. cbn [get]. rewrite !(vat_get [a] 0) by (cbn; lia). cbn [bind]. apply ok_ret. rewrite Happ.
    change (cnt [Some 0]) with 1. split; intros H; [lia|]. rewrite K1 by lia. exact H3.
  - intros s [_ K]. apply K. reflexivity.
Qed.
Lemma one_entry (y : list double) : length y = 1 -> y = [vat y 0].
Proof. destruct y as [|a [|? ?]]; cbn; try discriminate. intros _. reflexivity. Qed.
(** BiCGSTAB on 2 x = 2 from x = 0 with the exact preconditioner: the first half of the first step finds the solution; the second half
    divides zero by zero. The result is NaN, after all the steps allowed, whatever the tolerance. *)
Theorem C109_bicgstab_exact_refuted : forall prec maxiter tol hundred, halves prec -> 0 < maxiter ->
  nok (bicgstab dsqrt dlt 1 (csr_apply twoM) (fun a x b y z => csr_gemv3 twoM a x b (Some y) z) prec maxiter tol hundred [dbl 2] [S754_zero false])
    (fun '(x', info) => vat x' 0 = S754_nan /\ iters info = maxiter + 1 /\ resnorm info = S754_nan).
Proof.
  intros prec maxiter tol hundred [HP Hhalf] Hm.
  assert (wf_pat twoM) as Hw by (apply wfb_pat_ok; reflexivity).
  destruct (C104_csr twoM Hw eq_refl) as [HA HG]; [vm_compute; lia|intros [|jj] Hj; [vm_compute; exact I|vm_compute in Hj; lia]|].
  change (nbrows twoM) with 1 in *. change (csr_apply twoM) with (csr_apply twoM) in HA.
  assert (forall x y, length y = 1 -> nok (csr_apply twoM [x] y) (fun y' => y' = [s0 + dbl 2 * x]%s)) as HAv.
  { intros x y Hy. eapply nok_mono; [apply (csr_apply_spec twoM [x] Hw eq_refl eq_refl y Hy)|]. intros y' [L H]. rewrite (one_entry y' L), (vat_eq _ _ _ (H 0 ltac:(cbn; lia))). reflexivity. }
  unfold bicgstab. cbv zeta. change (replicate 1 (s0 : double)) with [S754_zero false].
  eapply nok_bind with (P := fun r => r = [dbl 2]).
  { eapply nok_mono; [apply (csr_gemv3_spec twoM [S754_zero false] Hw eq_refl eq_refl); reflexivity|]. intros z' [L H]. cbn in L. rewrite (one_entry z' L), (vat_eq _ _ _ (H 0 ltac:(cbn; lia))). vm_compute. reflexivity. }
  intros r ->. eapply nok_bind; [apply rhs_any; reflexivity|]. intros [bb rh] ->.
  eapply nok_bind with (P := fun '(x', m, rn) => vat x' 0 = S754_nan /\ m = maxiter /\ rn = S754_nan).
  2: { intros [[x' m] rn] (H & -> & ->). apply nok_ret. auto. }
  destruct maxiter as [|k]; [lia|]. cbn [bicgstab_loop].
  eapply nok_bind with (P := fun '(s', _) => bshape 1 s' /\ nans 1 (bs_x s') /\ nans 1 (bs_r s')).
  { cbn [bicgstab_step].
    eapply nok_bind; [apply (vdot_one (dbl 2) (dbl 4)); vm_compute; reflexivity|]. intros rho ->.
    eapply nok_bind; [apply axpbypcz_ok; reflexivity|]. intros p ->.
    eapply nok_bind with (P := fun y => y = [dbl 1]).
    { match goal with |- nok (prec ?l _) _ => replace l with [dbl 2] by (vm_compute; reflexivity) end. apply Hhalf. reflexivity. }
    intros y ->. eapply nok_bind; [apply HAv; reflexivity|]. intros v ->.
    replace ([s0 + dbl 2 * dbl 1]%s : list double) with [dbl 2] by (vm_compute; reflexivity).
    eapply nok_bind; [apply (vdot_one (dbl 2) (dbl 4)); vm_compute; reflexivity|]. intros rv ->.
    eapply nok_bind; [apply axpby_ok; reflexivity|]. intros r ->.
    match goal with |- context [prec ?l _] => replace l with [S754_zero false : double] by (vm_compute; reflexivity) end.
    eapply nok_bind; [apply HP; reflexivity|]. intros z [Lz Zz].
    assert (zeros 1 z) as Hz by (refine (Zz _); intros [|i] Hi; [exists false; reflexivity|lia]). clear Zz.
    eapply nok_bind; [apply HA; [exact Lz|reflexivity]|]. intros t [Lt Zt]. specialize (Zt Hz).
    assert (zeros 1 [S754_zero false]) as Z0 by (intros [|i] Hi; [exists false; reflexivity|lia]).
    eapply nok_bind; [apply (vdot_any 1 t _ Lt); reflexivity|]. intros tr [Htr _].
    eapply nok_bind; [apply (vdot_any 1 t t Lt Lt)|]. intros t2 [Ht2 _].
    assert (dnan (tr / t2)%s) as Nan by (apply dzero_div; auto).
    eapply nok_bind; [apply axpbypcz_ok; auto|]. intros x ->.
    eapply nok_bind; [apply axpby_ok; auto|]. intros r2 ->.
    apply nok_ret. cbn [bs_x bs_r]. split; [unfold bshape; cbn; auto 10|]. split; intros i Hi; rewrite (mk_at 1 _ i Hi).
    - apply dnan_add_r, dnan_mul_l, Nan.
    - apply dnan_add_r, dnan_mul_l, dnan_opp, Nan. }
  intros [s rho] (Hs & Nx & Nr). 
  assert (length (bs_r s) = 1 /\ length (bs_x s) = 1) as [Lr Lxs] by (unfold bshape in Hs; tauto).
  eapply nok_bind; [apply (vdot_any 1 _ _ Lr Lr)|]. intros rr [_ Hrr]. cbv zeta.
  assert (dnan rr) as Nrr by (apply Hrr, (nans_some 1); [lia|exact Nr]).
  rewrite (dnan_lt _ tol (dnan_div_l _ _ (dnan_sqrt _ Nrr))).
  eapply nok_mono; [apply (bloop_any 1 (csr_apply twoM) prec HA HP tol [dbl 2] (dsqrt bb) k ltac:(lia))|].
  - reflexivity.
  - unfold bshape in *. cbn. tauto.
  - left. cbn. auto.
  - cbn [bs_x]. intros [[x' m] rn] [-> H]. cbn. destruct H as [H1 H2]; [left; split; [exact Nx|apply dnan_sqrt, Nrr]|].
    split; [apply H1; lia|]. split; [reflexivity|exact H2].
Qed.
(** Jacobi is such a preconditioner: its diagonal is 1/2. *)
Example C109_nan_case : halves (jacobi_apply twoM [s1 / dbl 2]%s) /\ dense twoM 0 0 = dbl 2.
Proof.
  split; [|reflexivity]. split.
  - intros x y Hx Hy. eapply nok_mono; [apply (jacobi_apply_spec twoM [s1 / dbl 2]%s x y eq_refl Hx Hy)|]. intros y' ->. split; [reflexivity|].
    intros Hz [|i] Hi; [|lia]. cbn. apply dzero_mul_r; [vm_compute; exact I|apply (Hz 0 Hi)].
  - intros y Hy. eapply nok_mono; [apply (jacobi_apply_spec twoM [s1 / dbl 2]%s [dbl 2] y eq_refl eq_refl Hy)|]. intros y' ->. vm_compute. reflexivity.
Qed.
Print Assumptions C109_bicgstab_exact_refuted.
