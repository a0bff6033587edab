(** * IluApplyStall: asynchronous application need not give the solution *)
From Verif Require Import Base Alg SRMatrix Async AsyncTheory AsyncSystem AsyncSweeps Nd Kernels KernelFacts
  IluApply IluApplyFacts TriSpec TriFacts IluApplyProofs IluApplyMain.

Section Stall.
  Context {F : Type} {O : SOps F} {R : Field F}.
  Add Ring Fr : cring.
  Variable c : nat.
  Hypothesis Hc : 1 <= c.

  (** c+1 rows: the identity and one more entry, row c, column 0; all values one *)
  Definition stallM : srmat F :=
    SR (seq 0 (c + 1) ++ [c + 2]) (seq 0 c ++ [0; c]) (replicate (c + 2) s1)
       (seq 0 c ++ [c + 1]) (seq 1 c ++ [c + 2]) (c + 1) (c + 2) (c + 2).
  Definition stall_ilu : list F := replicate (c + 2) s1.
  Definition stall_r : list F := replicate (c + 1) s1.

  Lemma stall_rp i : i <= c -> rp stallM i = i.
  Proof.
    intros Hi. unfold rp. simpl. rewrite list_lookup_total_alt, lookup_app_l by (rewrite seq_length; lia).
    rewrite lookup_seq_lt by lia. reflexivity.
  Qed.
  Lemma stall_rp_last : rp stallM (c + 1) = c + 2.
  Proof.
    unfold rp. simpl. rewrite list_lookup_total_alt, lookup_app_r by (rewrite seq_length; lia).
    rewrite seq_length, Nat.sub_diag. reflexivity.
  Qed.
  Lemma stall_col j : j < c -> col stallM j = j.
  Proof.
    intros Hi. unfold col. simpl. rewrite list_lookup_total_alt, lookup_app_l by (rewrite seq_length; lia).
    rewrite lookup_seq_lt by lia. reflexivity.
  Qed.
  Lemma stall_col0 : col stallM c = 0.
  Proof.
    unfold col. simpl. rewrite list_lookup_total_alt, lookup_app_r by (rewrite seq_length; lia).
    rewrite seq_length, Nat.sub_diag. reflexivity.
  Qed.
  Lemma stall_col1 : col stallM (c + 1) = c.
  Proof.
    unfold col. simpl. rewrite list_lookup_total_alt, lookup_app_r by (rewrite seq_length; lia).
    rewrite seq_length. replace (c + 1 - c) with 1 by lia. reflexivity.
  Qed.
  Lemma stall_dg i : i < c -> dg stallM i = i.
  Proof.
    intros Hi. unfold dg. simpl. rewrite list_lookup_total_alt, lookup_app_l by (rewrite seq_length; lia).
    rewrite lookup_seq_lt by lia. reflexivity.
  Qed.
  Lemma stall_dg_last : dg stallM c = c + 1.
  Proof.
    unfold dg. simpl. rewrite list_lookup_total_alt, lookup_app_r by (rewrite seq_length; lia).
    rewrite seq_length, Nat.sub_diag. reflexivity.
  Qed.
  Lemma stall_rp_succ i : i < c + 1 -> rp stallM (i + 1) = if decide (i < c) then i + 1 else c + 2.
  Proof.
    intros Hi. destruct (decide (i < c)); [apply stall_rp; lia|]. replace i with c by lia. apply stall_rp_last.
  Qed.
  Lemma stall_wf : wf_mat stallM.
  Proof.
    assert (nnz stallM = c + 2) as Hn by (apply stall_rp_last).
    split; [|split].
    - constructor; rewrite ?Hn.
      + simpl. rewrite app_length, seq_length. simpl. lia.
      + apply stall_rp. lia.
      + simpl. intros i Hi. rewrite stall_rp_succ, stall_rp by lia. destruct (decide (i < c)); lia.
      + simpl. rewrite app_length, seq_length. simpl. lia.
      + simpl. intros j Hj. destruct (decide (j < c)); [rewrite stall_col; lia|].
        destruct (decide (j = c)) as [->|]; [rewrite stall_col0; lia|].
        replace j with (c + 1) by lia. rewrite stall_col1. lia.
    - split; [simpl; rewrite app_length, seq_length; simpl; lia|]. simpl. intros i Hi.
      rewrite stall_rp_succ, stall_rp by lia. destruct (decide (i < c)).
      + rewrite stall_dg, stall_col by lia. lia.
      + replace i with c by lia. rewrite stall_dg_last, stall_col1. lia.
    - intros i j1 j2 Hi. simpl in Hi. rewrite stall_rp_succ, stall_rp by lia. intros H1 H2 H3.
      destruct (decide (i < c)); [lia|]. replace j1 with c by lia. replace j2 with (c + 1) by lia.
      rewrite stall_col0, stall_col1. lia.
  Qed.
  Lemma stall_nnz : nnz stallM = c + 2.
  Proof. apply stall_rp_last. Qed.
  Lemma vat_ilu j : j < c + 2 -> vat stall_ilu j = s1.
  Proof. intros H. apply vat_eq. apply lookup_replicate_2. lia. Qed.
  Lemma vat_r j : j < c + 1 -> vat stall_r j = s1.
  Proof. intros H. apply vat_eq. apply lookup_replicate_2. lia. Qed.
  Lemma stall_entry_c0 : entry stallM stall_ilu c 0 = s1.
  Proof.
    destruct stall_wf as (Hw & Hd & Hs). unfold entry. rewrite <- stall_col0.
    rewrite (pos_of stallM c c); [apply vat_ilu; lia|apply sorted_nodup, Hs|].
    split; [simpl; lia|]. rewrite stall_rp, stall_rp_last by lia. lia.
  Qed.
  Lemma stall_entry_c j : 0 < j -> j < c -> entry stallM stall_ilu c j = s0.
  Proof.
    intros H0 Hj. unfold entry. destruct (pos stallM c j) as [k|] eqn:E; [|reflexivity].
    apply pos_Some in E as [[_ Hk] Hcol]; [|simpl; lia].
    rewrite stall_rp, stall_rp_last in Hk by lia.
    destruct (decide (k = c)) as [->|]; [rewrite stall_col0 in Hcol; lia|].
    replace k with (c + 1) in Hcol by lia. rewrite stall_col1 in Hcol. lia.
  Qed.
  Lemma stall_row_c (y : list F) :
    bsum (c + 1) (fun cc => if decide (cc < c) then (entry stallM stall_ilu c cc * vat y cc)%s else s0) = vat y 0.
  Proof.
    rewrite (bsum_single (c + 1) 0); [|lia|].
    - rewrite decide_True by lia. rewrite stall_entry_c0. ring.
    - intros i Hi Hne. destruct (decide (i < c)); [|reflexivity]. rewrite stall_entry_c by lia. ring.
  Qed.

  Lemma writefree_bind {A B} (p : @P F A) (f : A -> @P F B) :
    writefree p -> (forall a, writefree (f a)) -> writefree (pbind p f).
  Proof. induction p; simpl; auto. Qed.
  Lemma writefree_plift {A} (r : res A) : writefree (@plift F A r).
  Proof. destruct r; simpl; auto. Qed.
  Lemma writefree_pfor {St} (body : nat -> St -> @P F St) lo hi s :
    (forall i s, writefree (body i s)) -> writefree (pfor lo hi body s).
  Proof.
    intros H. unfold pfor. generalize (hi - lo). intros k. revert lo s.
    induction k as [|k IH]; intros lo s; simpl; [auto|]. apply writefree_bind; auto.
  Qed.
  Lemma writefree_lowC (M : srmat F) ilu z i : writefree (scalar_lowC M ilu z i).
  Proof.
    unfold scalar_lowC. repeat (apply writefree_bind; [apply writefree_plift|intros ?]).
    apply writefree_bind; [|simpl; auto]. unfold scalar_unit_lower_triangular.
    apply writefree_bind; [|simpl; auto]. unfold sdot. apply writefree_pfor. intros j s.
    repeat (apply writefree_bind; [apply writefree_plift|intros ?]). simpl. auto.
  Qed.

  Lemma chunks_stall : chunks c (seq 0 (c + 1)) = [seq 0 c; [c]].
  Proof.
    unfold chunks. rewrite seq_length. replace (c + 1) with (S (S (c - 1))) at 1 by lia.
    rewrite seq_app. simpl.
    destruct (seq 0 c ++ [c]) eqn:E; [destruct (seq 0 c); discriminate|]. rewrite <- E.
    rewrite take_app_alt, drop_app_alt by (rewrite seq_length; reflexivity). f_equal.
    rewrite take_ge by (simpl; lia). rewrite drop_ge by (simpl; lia).
    destruct (c - 1); reflexivity.
  Qed.

  (** two threads, any number of sweeps, either initialisation: some legal,
      sequentially consistent schedule ends with a z that is not the solution *)
  Lemma async_apply_wrong k init ytemp z :
    1 <= k -> init <> INIT_A_NONE -> length ytemp = c + 1 -> length z = c + 1 ->
    exists y' z',
      scalar_ilu0_apply stallM stall_ilu None ytemp k c true 2 init stall_r z (Ok (y', z')) /\
      length z' = c + 1 /\
      ~ is_prod (c + 1) (mprod (c + 1) (unitlower (entry stallM stall_ilu)) (upper (entry stallM stall_ilu))) z' stall_r.
  Proof.
    intros Hk Hinit Hyt Hz. pose proof stall_wf as HM. destruct HM as (Hw & Hd & Hs).
    assert (length stall_ilu = nnz stallM) as Hil by (rewrite stall_nnz; apply replicate_length).
    assert (length stall_r = c + 1) as Hrl by apply replicate_length.
    set (n := c + 1).
    assert (forall (m : nd (list F)) Q, nok m Q -> exists a, m (Ok a) /\ Q a) as Hex.
    { intros m Q [(o & Ho) H]. specialize (H o Ho). destruct o; simpl in H; try tauto. eauto. }
    destruct (Hex _ _ (init_z_spec (n * 1) None stall_r z I ltac:(lia) ltac:(lia))) as (z1 & Hz1 & ->). simpl in Hz1.
    destruct (Hex _ _ (fill_spec (n * 1) s0 ytemp ltac:(lia))) as (y1 & Hy1 & ->).
    set (y1 := replicate (n * 1) s0) in *.
    set (C := scalar_lowC stallM stall_ilu stall_r).
    assert (length y1 = n * 1) as Hy1l by apply replicate_length.
    assert (forall i, i < n -> kernel_ok 1 C n (lowdep stallM) i) as Hkern.
    { intros i Hi. unfold C, n. apply (scalar_lowC_ok stallM stall_ilu Hw Hd); auto. simpl. lia. }
    destruct k as [|k']; [lia|].
    set (rest := @concat (list nat) (replicate k' (chunks c (seq 0 n)))).
    assert (nowait_sweeps (S k') c (seq 0 n) = seq 0 c :: [c] :: rest) as Hq.
    { unfold nowait_sweeps. cbn [replicate concat]. unfold n at 1. rewrite chunks_stall. reflexivity. }
    assert (forall r, r ∈ seq 0 c ++ concat rest -> r < n) as Hrows.
    { intros r Hr. apply elem_of_app in Hr as [Hr|Hr]; [apply elem_of_seq in Hr; unfold n; lia|].
      assert (r ∈ concat (nowait_sweeps (S k') c (seq 0 n))) as H'.
      { rewrite Hq. cbn [concat]. apply elem_of_app. right. right. exact Hr. }
      rewrite concat_nowait in H' by done. apply elem_of_concat_replicate, elem_of_seq in H'. lia. }
    destruct (exec_seq_total 1 C n (lowdep stallM) (seq 0 c ++ concat rest) y1) as (m1 & Hm1 & Hm1l); auto.
    destruct (exec_pwseg [s1] (c * 1) m1) as (y' & Hy' & Hy'l & Hy'v & _); [simpl; lia|].
    assert (exec y1 (C c) = Ok ([s1], y1)) as Hst.
    { unfold C. rewrite (exec_scalar_lowC stallM stall_ilu Hw Hd Hs stall_r y1 c) by (auto; simpl; lia).
      simpl nbrows. rewrite stall_row_c. rewrite vat_r by lia.
      assert (vat y1 0 = s0) as -> by (apply vat_eq, lookup_replicate_2; lia). repeat f_equal. ring. }
    pose proof (stalled_task 1 C (seq 0 c) c rest y1 [s1] m1 y') as Hstall.
    assert (region (T 1 C) 2 (nowait_sweeps (S k') c (seq 0 n)) y1 y') as Hreg.
    { rewrite Hq. apply region_sc_region. apply Hstall; auto.
      - intros E. apply (f_equal length) in E. rewrite seq_length in E. simpl in E. lia.
      - apply writefree_lowC. }
    assert (vat y' c = s1) as Hyc.
    { apply vat_eq. specialize (Hy'v 0 ltac:(simpl; lia)). replace (c * 1 + 0) with c in Hy'v by lia. exact Hy'v. }
    assert (length y' = n * 1) as Hy'n by lia.
    assert (exists z2, match init with INIT_A_JACOBI => vcopy (n * 1) y' stall_r | INIT_A_ZERO => fill (n * 1) s0 stall_r
             | INIT_A_NONE => nlift (Throw " scalar_ilu0_apply: Invalid init type!") end (Ok z2) /\ length z2 = n * 1)
      as (z2 & Hz2 & Hz2l).
    { destruct init; [| |contradiction].
      - destruct (Hex _ _ (fill_spec (n * 1) s0 stall_r ltac:(lia))) as (a & Ha & ->). eexists. split; [exact Ha|apply replicate_length].
      - destruct (Hex _ _ (vcopy_spec (n * 1) y' stall_r ltac:(lia) ltac:(lia))) as (a & Ha & ->). eexists. split; [exact Ha|auto]. }
    destruct (upper_sweeps 1 n (scalar_upC stallM stall_ilu) (updep stallM)) with (y := y') as (xs & [Hxl Hxf] & _ & Hrun).
    { intros y i Hy Hi. unfold n. apply (scalar_upC_ok stallM stall_ilu Hw Hd); auto. }
    { intros i cc Hi H. apply (updep_lt stallM i cc Hw Hd Hs Hi H). }
    { exact Hy'n. }
    exists y', xs. split; [|split].
    - unfold scalar_ilu0_apply, ilu0_apply. simpl nbrows. fold n.
      exists (Ok stall_r). split; [exact Hz1|].
      exists (Ok y1). split; [destruct init; auto; contradiction|].
      exists (Ok y'). split; [left; exists y'; auto|].
      exists (Ok z2). split; [exact Hz2|].
      exists (Ok xs). split.
      { left. exists xs. split; [|reflexivity]. apply sequential_is_a_schedule; [lia|]. apply Hrun; auto; lia. }
      exists (Ok xs). split; reflexivity.
    - lia.
    - intros Hp. apply is_prod_mprod_inv in Hp. unfold n in Hp.
      set (u := mvec (c + 1) (upper (entry stallM stall_ilu)) xs) in *.
      assert (vat u c = s1) as Huc.
      { specialize (Hxf c ltac:(unfold n; lia)).
        rewrite (fix_at_1 _ xs c _ (exec_scalar_upC stallM stall_ilu Hw Hd Hs y' xs c Hil ltac:(simpl; lia) ltac:(simpl; lia) ltac:(simpl; lia))) in Hxf by lia.
        apply inv_mul in Hxf; [|rewrite stall_dg_last, vat_ilu by lia; apply field_10].
        unfold u, mvec. rewrite vat_fmap_seq by lia. pose proof (upper_row stallM (entry stallM stall_ilu) c xs ltac:(simpl; lia)) as Hur.
        simpl nbrows in Hur. rewrite Hur, (entry_diag stallM stall_ilu Hd Hs c) by (simpl; lia). rewrite Hxf. simpl nbrows.
        rewrite Hyc. ring. }
      assert (vat u 0 = s1) as Hu0.
      { specialize (Hp 0 ltac:(lia)). pose proof (unitlower_row stallM (entry stallM stall_ilu) 0 u ltac:(simpl; lia)) as Hur.
        simpl nbrows in Hur. rewrite Hur in Hp. rewrite vat_r in Hp by lia. rewrite <- Hp.
        rewrite bsum_zero; [ring|]. intros i Hi. rewrite decide_False by lia. reflexivity. }
      specialize (Hp c ltac:(lia)). pose proof (unitlower_row stallM (entry stallM stall_ilu) c u ltac:(simpl; lia)) as Hur.
      simpl nbrows in Hur. rewrite Hur, stall_row_c, Huc, Hu0, vat_r in Hp by lia.
      apply field_10. transitivity (s1 + s1 - s1)%s; [ring|]. rewrite Hp. ring.
  Qed.
End Stall.
