(** * PropEnergyEx (C81): matrices whose error loses energy, and Jacobi's method, with which it grows *)
From Coq Require Import ZArith QArith.Qcanon QArith.Qcabs.
From Verif Require Import Base Alg Norms SRMatrix Async AsyncTheory AsyncSystem AsyncSweeps Nd Kernels KernelFacts
  IluApply IluApplyFacts TriSpec TriFacts IluApplyProofs IluApplyMain Sgs SgsFacts SgsProofs SgsForms SgsMain Levels PropLevels GsSweep SymSpec SymFacts
  PropConverge PropConvergeEx PropSgs PropLinear PropLinearEx PropEnergy Inst.
Open Scope nat_scope.

(** 4 on the diagonal and 3 elsewhere, for which Jacobi's method and relaxation with
    three threads diverge: two sweeps in order, one by Gauss-Seidel and one by levels *)
Example C81_case : nok (jacobi_setup spdM [q 0; q 0; q 0]) (fun d =>
  nok (in_turn [chaotic_relax 1 3 (scalar_relaxC spdM d) 2 1 1 [q 0; q 0; q 0];
                sgs_relax 1 3 (scalar_relaxC spdM d) 1 2 1 [q 0; q 0; q 0];
                level_relax 1 (scalar_relaxC spdM d) [0; 1; 2; 3] 1 4 [q 0; q 0; q 0]] [q 1; q 1; q 1])
      (fun x' => Qclt (form 3 (dense spdM) (vat x')) (q 30))).
Proof.
  destruct spdM_definite as [Hs Hd].
  eapply nok_mono; [apply (C81_energy spdM (fun x => Qclt (q 0) x) [q 0; q 0; q 0] [q 0; q 0; q 0] [q 0; q 0; q 0] [q 1; q 1; q 1])|].
  1: apply spdM_wf. 1: reflexivity. 1: apply Qc_ordered. 1: exact Hs. 1: exact Hd. 1,2,4,5: reflexivity.
  { intros i Hi. cbn in Hi. destruct i as [|[|[|]]]; [reflexivity..|lia]. }
  intros d H. eapply nok_mono; [apply H|].
  - discriminate.
  - repeat constructor; try lia.
    + intros l a c Ha Hc. destruct l as [|[|[|[|]]]]; simpl in Ha, Hc; try discriminate Hc; injection Ha as <-; injection Hc as <-; lia.
    + intros l a c i j Ha Hc. destruct l as [|[|[|[|]]]]; simpl in Ha, Hc; try discriminate Hc; injection Ha as <-; injection Hc as <-; lia.
  - intros x' (Hl & _ & Hp). specialize (Hp ltac:(discriminate)).
    assert (forall e : Qc, Qclt (q 0) (q 30 - e)%Qc -> Qclt e (q 30)) as Hlt by (intros e He; apply Qclt_minus_iff; exact He).
    apply Hlt. replace (q 30) with (energy 3 (dense spdM) [q 0; q 0; q 0] [q 1; q 1; q 1]) by (apply Qc_is_canon; vm_compute; reflexivity).
    replace (form 3 (dense spdM) (vat x')) with (energy 3 (dense spdM) [q 0; q 0; q 0] x'); [exact Hp|].
    unfold energy, form. apply bsum_ext. intros i Hi. f_equal; [destruct i as [|[|[|]]]; [..|lia]; cbn -[Qcminus]; change (vat [q 0; q 0; q 0] _) with 0%Qc; unfold Qcminus; change (- 0)%Qc with 0%Qc; apply Qcplus_0_r|].
    apply bsum_ext. intros j Hj. f_equal. destruct j as [|[|[|]]]; [..|lia]; cbn -[Qcminus]; change (vat [q 0; q 0; q 0] _) with 0%Qc; unfold Qcminus; change (- 0)%Qc with 0%Qc; apply Qcplus_0_r.
Qed.
Example C81_block_case : wf_mat symB /\ length (vals symB) = nnz symB * (2 * 2) /\ inverse_oracle RowMajor 2 inv2 /\
  (exists E, is_inverse (2 * 2) (bdiag 2 (bdense RowMajor 2 symB)) E) /\ ordered positive /\
  symm 4 (bdense RowMajor 2 symB) /\ pos_def positive 4 (bdense RowMajor 2 symB) /\
  is_prod 4 (bdense RowMajor 2 symB) (q <$> [1; 0; 0; 1]%Z) (q <$> [3; 2; 2; 4]%Z).
Proof.
  split; [apply symB_wf|]. split; [reflexivity|]. split; [apply inv2_oracle|]. split; [eexists; apply symB_inverse|].
  split; [apply Qc_ordered|]. split; [apply symB_symm|]. split; [apply symB_pos|].
  intros i Hi. destruct i as [|[|[|[|]]]]; [apply Qc_is_canon; vm_compute; reflexivity..|lia].
Qed.

(** ** What does not hold: Jacobi's method *)
(** For the same matrix [k] iterations of Jacobi's method multiply the error by (-3/2)^k:
    the energy grows by the factor 9/4 each time, whatever the order of the rows. *)
Theorem C81_jacobi_refuted ssqrt slt p d0 xtemp : length d0 = 3 -> length xtemp = 3 -> ctol p = false ->
  symmetric 3 (dense spdM) /\ positive_definite 3 (dense spdM) /\
  is_prod 3 (dense spdM) [q 0; q 0; q 0] [q 0; q 0; q 0] /\
  nok (ndo d := jacobi_setup spdM d0 in
       jacobi_relax ssqrt slt 1 3 (scalar_relaxC spdM d) p xtemp [q 0; q 0; q 0] [q 1; q 1; q 1])
      (fun x' => x' = replicate 3 (spow (- (q 3 / q 2))%Qc (maxits p))).
Proof.
  intros Hd0 Hxt Hc. split; [apply spdM_definite|]. split; [apply spdM_definite|].
  split; [intros i Hi; destruct i as [|[|[|]]]; [reflexivity|reflexivity|reflexivity|lia]|].
  eapply nok_mono; [apply (C40_jacobi_relax Qc _ _ spdM ssqrt slt p d0 xtemp [q 0; q 0; q 0] [q 1; q 1; q 1]); auto|].
  - apply spdM_wf.
  - apply spdM_diag.
  - intros x' (m & _ & -> & Hm & _). rewrite (Hm Hc). clear Hm m.
    change (nbrows spdM) with 3. generalize (maxits p) as k. intros k. unfold iterate. induction k as [|k IH]; [reflexivity|].
    cbn [Nat.iter nat_rect spow]. unfold Nat.iter in IH. rewrite IH. generalize (spow (- (q 3 / q 2))%Qc k) as c. intros c.
    assert (forall i, i < 3 -> (vat (replicate 3 c) i + bsum 3 (fun k => diag_inv (dense spdM) i k * residual 3 (dense spdM) [q 0; q 0; q 0] (replicate 3 c) k))%s =
       (- (q 3 / q 2) * c)%Qc) as Hrow.
    { intros i Hi.
      assert (forall i j, i < 3 -> j < 3 -> dense spdM i j = if decide (i = j) then q 4 else q 3) as Hdn.
      { intros k' l Hk Hl. destruct k' as [|[|[|]]], l as [|[|[|]]]; try lia; reflexivity. }
      assert (forall i j, i < 3 -> j < 3 -> diag_inv (dense spdM) i j = if decide (i = j) then (q 1 / q 4)%Qc else 0%Qc) as Hdi.
      { intros k' l Hk Hl. destruct k' as [|[|[|]]], l as [|[|[|]]]; try lia; reflexivity. }
      replace (- (q 3 / q 2))%Qc with (1 - (q 1 / q 4) * (q 4 + q 3 + q 3))%Qc by (apply Qc_is_canon; vm_compute; reflexivity).
      unfold residual. cbn [bsum]. rewrite !Hdn, !Hdi by lia. generalize (q 1 / q 4)%Qc. intros t. generalize (q 4) (q 3). intros u v.
      destruct i as [|[|[|]]]; [..|lia]; repeat first [rewrite decide_True by lia|rewrite decide_False by lia];
        change (vat (replicate 3 c) _) with c; change (vat [q 0; q 0; q 0] _) with 0%Qc; change (@s0 Qc _) with 0%Qc; cbn -[Qcmult Qcminus Qcplus Qcopp]; change (Q2Qc (QArith_base.Qmake 0 1)) with 0%Qc; ring. }
    unfold jacobi_iter. cbn [seq fmap list_fmap replicate]. rewrite !Hrow by lia. reflexivity.
Qed.
Print Assumptions C81_jacobi_refuted.
