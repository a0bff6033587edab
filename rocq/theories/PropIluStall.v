(** * C31: without separated sweeps asynchronous factorisation need not be exact *)
From Verif Require Import Base Alg SRMatrix Async AsyncTheory AsyncSystem AsyncSweeps AsyncFlat Nd Kernels
  IluPattern IluPatternFacts IluApply IluApplyFacts TriSpec TriFacts IluApplyProofs IluApplyMain IluFactor IluFactorFacts IluFactorInit IluFactorProofs IluFactorMain
  IluFactorStall PropIluFactor Inst.

(** The code does not separate the sweeps (nowait). For every chunk size, number of
    sweeps and way of initialising the factors there is a matrix that has exact
    incomplete factors with nonzero pivots, found by sequential factorisation, while
    two threads may leave other factors: the schedule used is sequentially
    consistent. *)
Theorem C31_unseparated_sweeps_refuted :
  forall (F : Type) (O : SOps F) (R : Field F) (ssqrt sabs : F -> F) nsweeps chunk finit info,
  (s1 + s1)%s <> s0 -> 1 <= chunk -> 1 <= nsweeps ->
  exists M : srmat F, wf_mat M /\ length (vals M) = nnz M /\
    let exact lu := exact_on_pattern M (unitlower (entry M lu)) (upper (entry M lu)) (dense M) in
    (exists lu, length lu = nnz M /\ (forall i, i < nbrows M -> entry M lu i i <> s0) /\ exact lu /\
       forall gi gs, length gi = nnz M -> length gs = nbrows M ->
         nok (scalar_ilu0_compute ssqrt sabs nsweeps chunk false 1 finit false info gi gs M ilu_new)
             (fun '(st, _) => st_ilu st = Some lu)) /\
    forall gi gs, length gi = nnz M -> length gs = nbrows M ->
      exists st i lu, scalar_ilu0_compute ssqrt sabs nsweeps chunk true 2 finit false info gi gs M ilu_new (Ok (st, i)) /\
        st_ilu st = Some lu /\ length lu = nnz M /\ ~ exact lu.
Proof.
  intros F O R ssqrt sabs k c finit info H2 Hc Hk. set (a := 2 * c - 2). set (M := lagM (F := F) a). exists M.
  pose proof (lag_wf (F := F) a) as HM. pose proof HM as (Hw & Hd & Hs).
  pose proof (lag_vals_len (F := F) a) as Hv. pose proof (lag_nnz (F := F) a) as HN. fold M in HM, Hw, Hd, Hs, Hv, HN.
  split; [exact HM|]. split; [exact Hv|]. intros exact. split.
  - assert (length (lag_lu (F := F) a) = nnz M) as Hll by (unfold lag_lu; rewrite replicate_length; lia).
    assert (forall i, i < nbrows M -> entry M (lag_lu a) i i <> s0) as Hpv.
    { intros i Hi. rewrite (entry_diag M _ Hd Hs i Hi). unfold lag_lu.
      rewrite (vat_eq _ (dg M i) s1); [apply field_10|].
      apply lookup_replicate_2. pose proof (row_bounds M Hw Hd i Hi). lia. }
    assert (exact (lag_lu a)) as Hex.
    { intros i cc Hi Hcc Hp. apply lag_lu_exact; auto. }
    exists (lag_lu a). split; [exact Hll|]. split; [exact Hpv|]. split; [exact Hex|].
    intros gi gs Hgi Hgs.
    destruct (C29_compute_sequential F O R ssqrt sabs M false HM Hv) as (lu & _ & _ & Hu & Hrun).
    rewrite (Hu (lag_lu a) Hll Hpv Hex).
    eapply nok_mono; [apply Hrun; auto|]. intros [st i] [H _]. exact H.
  - intros gi gs Hgi Hgs.
    assert (exists o, length o = nnz M /\ o !! (a + 3) = Some (s1 + s1)%s /\
      forall out, scalar_ilu0_compute ssqrt sabs k c true 2 finit false info gi gs M ilu_new out <->
        (ndo (ilu, scale, i) := factorize_from sabs M k c true 2 info None o in
         nret (IluState (Some ilu) scale (positions M), i)) out) as (o & Ho & Ho3 & Hout).
    { assert (vat (vals M) (a + 3) = (s1 + s1)%s) as Hv3 by (unfold M; rewrite lag_val by lia; reflexivity).
      assert ({finit = INIT_F_NONE} + {finit <> INIT_F_NONE}) as [->|Hf] by (destruct finit; auto; right; discriminate).
      - destruct (compute_none ssqrt sabs M Hw Hd Hs Hv false k c true 2 info gi gs ilu_new (or_introl eq_refl) Hgi Hgs)
          as (o & (H1 & H3 & _) & H4).
        exists o. split; [exact H1|]. split; [|exact H4]. rewrite (H3 eq_refl), <- Hv3. apply vat_Some. lia.
      - destruct (compute_outcomes ssqrt sabs M Hw Hd Hs Hv false finit Hf ltac:(discriminate)) as (o & H1 & H3 & H4).
        exists o. split; [exact H1|]. split; [|apply H4; auto].
        rewrite H3 by lia. f_equal. rewrite <- Hv3.
        assert (rowof M (a + 3) = a + 1) as Hr.
        { apply rowof_inrow; auto. split; [simpl; lia|]. unfold M. rewrite (rp_hi a 1), (row_hi a 1) by lia. lia. }
        unfold init_entry, sgs_entry, orig_entry. rewrite Hr. unfold M at 1. rewrite (dg_hi a 1) by lia. cbn [taildg].
        rewrite Nat.ltb_irrefl. destruct finit; reflexivity. }
    destruct (async_factor_value c Hc k o Hk Ho Ho3) as (lu & He & Hl & Hval). fold a in He, Hl, Hval. fold M in He, Hl.
    assert (forall m : list F, length m = nnz M -> exists r, (if info then nonlinear_res sabs M (positions M) None m else nret s0) (Ok r)) as Hres.
    { intros m Hm. destruct info; [|exists s0; reflexivity].
      destruct (nonlinear_res_ok sabs M None Hw Hd Hs m Hv Logic.I Hm) as [(x & Hx) H]. specialize (H x Hx).
      destruct x as [r| | |]; simpl in H; try tauto. exists r. exact Hx. }
    destruct (Hres o Ho) as (r0 & Hr0). destruct (Hres lu Hl) as (r1 & Hr1).
    exists (IluState (Some lu) None (positions M)), (if info then Some (r0, r1) else None), lu.
    split; [|split; [reflexivity|split; [exact Hl|]]].
    + apply Hout. exists (Ok (lu, None, if info then Some (r0, r1) else None)). split; [|reflexivity].
      exists (Ok r0). split; [exact Hr0|]. exists (Ok lu). split; [exact He|]. exists (Ok r1). split; [exact Hr1|]. reflexivity.
    + intros Hx. assert (vat lu (a + 4) = s1) as E by (apply lag_exact_value; exact Hx).
      rewrite Hval in E. exact (half_not_one H2 E).
Qed.

(** rational numbers meet the hypothesis on the scalars *)
Example C31_unseparated_case : exists M : srmat Qcanon.Qc, wf_mat M /\ nbrows M = 9 /\ nnz M = 12.
Proof. exists (lagM 6). split; [apply lag_wf|]. split; [reflexivity|]. apply lag_nnz. Qed.
Example C31_two : (s1 + s1 : Qcanon.Qc)%s <> s0.
Proof. intros E. apply (f_equal (fun q => QArith_base.Qnum (Qcanon.this q))) in E. vm_compute in E. discriminate. Qed.

Print Assumptions C31_unseparated_sweeps_refuted.
