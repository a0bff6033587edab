(** * ObjShape: what apply() of a usable object returns has the right size *)
From Coq Require Import ZArith.
From Verif Require Import Base Alg SRMatrix Async AsyncTheory AsyncSystem AsyncSweeps Nd Reduction Kernels KernelFacts IluApply IluApplyFacts TriSpec TriFacts
  IluApplyMain IluPattern IluPatternFacts IluFactor IluFactorFacts IluFactorInit IluFactorMain Sgs SgsFacts SgsProofs SgsForms SgsMain Memory Levels PropLevels ColMat ColMatFacts ColMatRing ReorderFacts PropColMat Coo CooFacts PropIluInit
  PropIluFactor PropIluApply Factory Petsc Objects ObjFacts ObjHistory ObjAlg ObjTotal.
Open Scope nat_scope.

Section Any.
  Context {F : Type} {O : SOps F}.
  Lemma ilu0_apply_shape w n (lowC upC : list F -> nat -> @P F (list F)) ldep udep scale ytemp k chunk ut nthr init r z :
    (forall z i, length z = n * w -> i < n -> kernel_ok w (lowC z) n ldep i) ->
    (forall z i, length z = n * w -> i < n -> kernel_ok w (upC z) n udep i) ->
    scale_ok scale (n * w) -> length r = n * w -> length ytemp = n * w -> length z = n * w -> 1 <= chunk -> 1 <= nthr -> init <> INIT_A_NONE ->
    nok (ilu0_apply w n lowC upC scale ytemp k chunk ut nthr init r z) (fun '(_, z') => length z' = n * w).
  Proof.
    intros Hlow Hup Hs Hr Hyt Hz Hc Hn Hi. pose proof (scaled_rhs_length scale r _ Hs Hr) as Hsl. unfold ilu0_apply.
    eapply nok_bind; [apply init_z_spec; auto|]. intros z1 ->.
    apply (nok_bind _ _ (fun y => length y = n * w)).
    { destruct init; [| |congruence]; (eapply nok_mono; [apply fill_spec, Hyt|intros ? ->; apply replicate_length]). }
    intros y Hy. eapply nok_bind.
    { apply (region_total w n _ ldep); [exact Hn|exact Hy|]. intros r0 H0. rewrite concat_nowait in H0 by done.
      apply elem_of_concat_replicate, elem_of_seq in H0. apply Hlow; [exact Hsl|lia]. }
    intros y1 Hy1. cbn beta in Hy1. apply (nok_bind _ _ (fun z => length z = n * w)).
    { destruct init; [| |congruence].
      - eapply nok_mono; [apply fill_spec, Hsl|intros ? ->; apply replicate_length].
      - eapply nok_mono; [apply (vcopy_spec (n * w)); auto|intros ? ->; exact Hy1]. }
    intros z2 Hz2. eapply nok_bind.
    { apply (region_total w n _ udep); [exact Hn|exact Hz2|]. intros r0 H0. rewrite concat_nowait in H0 by done.
      apply elem_of_concat_replicate in H0. rewrite <- reverse_rev, elem_of_reverse, elem_of_seq in H0. apply Hup; [exact Hy1|lia]. }
    intros z3 Hz3. cbn beta in Hz3. eapply nok_bind; [apply final_scale_spec; auto|]. intros z4 ->. apply nok_ret.
    destruct scale as [s|]; cbn in Hs |- *; [|exact Hz3]. rewrite ?fmap_length, ?imap_length, ?seq_length, ?zip_with_length; lia.
  Qed.

  Variables (ssqrt sabs : F -> F) (inv : list F -> list F).
  (** a usable object gives a vector of the right size *)
  Lemma apply_shape p maxthr (M0 M : srmat F) nthr g M1 (st : @pstate F) r z : well_equipped inv p M0 -> usable p -> sane ssqrt sabs inv p maxthr M0 M st ->
    1 <= nthr -> same_pattern M0 M1 -> fits (pshape p) M1 -> length r = obj_dim p M -> length z = obj_dim p M ->
    (forall na c, p = PCscBgs na c -> nthr = 1) ->
    nok (obj_apply nthr g p M1 st r z) (fun '(_, z') => length z' = obj_dim p M).
  Proof.
    intros (HM0 & Hsym & Heq) Hu (Hp & Hf & Hst) Hn Hp1 Hf1 Hr Hz Hcsc. pose proof (same_pattern_wf _ _ Hp1 HM0) as HM.
    assert (same_pattern M M1) as Hpp by (apply (same_pattern_trans M M0); [apply same_pattern_sym, Hp|exact Hp1]).
    assert (nbrows M = nbrows M1) as En by (destruct Hpp as (? & _); congruence).
    assert (nnz M = nnz M1) as Enz by (destruct M, M1, Hpp as (? & ? & _); simpl in *; unfold nnz, rp; simpl; congruence).
    unfold obj_dim in *. rewrite En in *.
    assert (forall sh, lawful inv sh -> holds_d inv sh M st -> exists d, p_d st = Some d /\ length d = nbrows M1 * bsize sh) as Hd.
    { intros sh _ (d & E & Hl & _). exists d. rewrite <- En. auto. }
    destruct p as [sh|sh na ch|na ch|sh na ai ch|sh|sh i|sh i|i|bs]; cbn [obj_apply pshape width usable needs_symmetry] in *.
    - destruct (Hd sh Heq Hst) as (d & E & Hl). rewrite E. cbn [member].
      apply (nok_bind _ _ (fun z => length z = nbrows M1 * width sh)); [|intros; apply nok_ret; assumption]. destruct sh as [|bs so]; cbn [bsize width] in *.
      + eapply nok_mono; [apply jacobi_apply_spec; lia|]. intros ? ->. rewrite fmap_length, seq_length. lia.
      + unfold bjacobi_apply. apply (nok_par_for 0 (nbrows M1) _ z (fun _ z => length z = nbrows M1 * bs)); [exact Hz| |auto].
        intros dn i z' _ Hi _ Hl'.
        apply ok_bind with (P := fun seg => length seg = bs); [apply ok_getseg; nia|]. intros seg Hseg.
        apply ok_bind with (P := fun u => length u = bs); [apply ok_bmatvec; auto; nia|]. intros u Hul.
        unfold setblk. destruct (exec_pwseg u (i * bs) z') as (m' & E' & L' & _); [nia|]. rewrite E'. simpl. lia.
    - destruct (Hd sh Heq Hst) as (d & E & Hl). rewrite E. cbn [member]. apply chunked_pos; [exact Hu|].
      eapply nok_bind; [apply (chaotic_total (width sh) (nbrows M1) _ (offdep M1)); auto; [|lia]|intros; apply nok_ret; assumption].
      intros z0 i Hz0 Hi. apply relax_of_ok; auto.
    - destruct Hst as (C & Ed & Ec & HC). rewrite Ed, Ec. cbn [member]. apply chunked_pos; [exact Hu|]. rewrite (Hcsc _ _ eq_refl), Nat.eqb_refl.
      pose proof (same_pattern_wf _ _ Hp HM0) as HMM. unfold fits in Hf. cbn [bsize] in Hf.
      eapply nok_bind; [apply (csc_apply_total M C); auto; rewrite ?alloc_length, ?fmap_length, ?seq_length; rewrite ?En; lia|].
      intros z' Lz'. apply nok_ret. cbn beta in Lz'. lia.
    - destruct Hst as [Hhd (y & Ey & Hy)]. destruct (Hd sh Heq Hhd) as (d & E & Hl). rewrite E, Ey. cbn [member]. apply chunked_pos; [exact Hu|]. rewrite En in Hy.
      eapply nok_bind; [apply (sgs_apply_total (width sh) (nbrows M1) _ _ (lowdep M1) (updep M1)); auto; [| |lia]|intros [y' z'] L; apply nok_ret; exact L].
      + intros z0 i Hz0 Hi. apply fgs_of_ok; auto.
      + intros z0 i Hz0 Hi. apply bgs_of_ok; auto.
    - destruct Hst as (Hhd & (y & Ey & Hy) & Hlev). destruct (Hd sh Heq Hhd) as (d & E & Hl). rewrite E, Ey. cbn [member]. rewrite En in Hy.
      apply (valid_levels_pattern _ _ _ Hpp) in Hlev. destruct (mat_levels M1 _ HM Hlev) as (L1 & L2 & _). destruct (mat_deps M1 HM) as (D1 & D2 & _).
      destruct (level_sgs_spec (width sh) (nbrows M1) (fgs_of sh M1 d) (bgs_of sh M1 d) (lowdep M1) (updep M1)) with (levels := p_levels st) (r := r) as (ys & zs & _ & [Lzs _] & H); auto.
      + intros z0 i Hz0 Hi. apply fgs_of_ok; auto.
      + intros z0 i Hz0 Hi. apply bgs_of_ok; auto.
      + eapply nok_bind; [apply (H y z nthr); auto|]. intros [y' z'] [= -> ->]. apply nok_ret. exact Lzs.
    - destruct Hu as (Hc & Hai & _), Heq as [Hl He]. destruct (ilu_members ssqrt sabs inv sh i M0 M maxthr st) as (y & lu & E1 & L1 & E2 & L2 & Hsc); auto.
      rewrite En in *. rewrite Enz in L2. unfold ilu_apply. rewrite E1, E2. cbn [member]. apply chunked_pos; [exact Hc|].
      apply (nok_bind _ _ (fun '(_, z) => length z = nbrows M1 * width sh)); [|intros [a b] L; apply nok_ret; exact L]. destruct HM as (Hw & Hdg & Hs).
      destruct sh as [|bs so]; cbn [width bsize] in *.
      + apply (ilu0_apply_shape 1 (nbrows M1) _ _ (lowdep M1) (updep M1)); auto; [| |lia]; intros z0 k Hz0 Hk; [apply scalar_lowC_ok|apply scalar_upC_ok]; auto; lia.
      + apply (ilu0_apply_shape bs (nbrows M1) _ _ (lowdep M1) (updep M1)); auto; [| |lia]; intros z0 k Hz0 Hk; [apply block_lowC_ok|apply block_upC_ok]; auto.
    - destruct Hu as (Hc & _), Heq as [Hl He], Hst as [Hhi Hlev]. destruct (ilu_members ssqrt sabs inv sh i M0 M maxthr st) as (y & lu & E1 & L1 & E2 & L2 & Hsc); auto.
      rewrite En in *. rewrite Enz in L2. unfold level_ilu_apply. rewrite E1, E2. cbn [member].
      apply (nok_bind _ _ (fun '(_, z) => length z = nbrows M1 * width sh)); [|intros [a b] L; apply nok_ret; exact L].
      apply (valid_levels_pattern _ _ _ Hpp) in Hlev. pose proof HM as (Hw & Hdg & Hs).
      destruct sh as [|bs so]; cbn [width bsize] in *.
      + rewrite !Nat.mul_1_r in *. destruct (C37_scalar_level_apply F O M1 lu (p_levels st) (IluFactor.st_scale (p_ilu st)) r) as (out & H & H'); auto.
        eapply nok_mono; [apply H; auto|]. intros ? ->.
        assert (nok (ilu0_apply 1 (nbrows M1) (scalar_lowC M1 lu) (scalar_upC M1 lu) (IluFactor.st_scale (p_ilu st)) y 1 1 false 1 INIT_A_ZERO r z) (fun '(_, z') => length z' = nbrows M1 * 1)) as Hsh.
        { apply (ilu0_apply_shape 1 (nbrows M1) _ _ (lowdep M1) (updep M1)); rewrite ?Nat.mul_1_r; auto; try discriminate; intros z0 k Hz0 Hk; [apply scalar_lowC_ok|apply scalar_upC_ok]; auto; lia. }
        destruct (ObjFacts.nok_exists _ _ (nok_and _ _ _ Hsh (H' y z 1 1 false 1 INIT_A_ZERO ltac:(assumption) ltac:(assumption) ltac:(lia) ltac:(lia) ltac:(discriminate) ltac:(auto)))) as (o & _ & L & ->).
        destruct out. lia.
      + destruct (C37_block_level_apply F O so bs M1 lu (p_levels st) (IluFactor.st_scale (p_ilu st)) r) as (out & H & H'); auto.
        eapply nok_mono; [apply H; auto|]. intros ? ->.
        assert (nok (ilu0_apply bs (nbrows M1) (block_lowC so bs M1 lu) (block_upC so bs M1 lu) (IluFactor.st_scale (p_ilu st)) y 1 1 false 1 INIT_A_ZERO r z) (fun '(_, z') => length z' = nbrows M1 * bs)) as Hsh.
        { apply (ilu0_apply_shape bs (nbrows M1) _ _ (lowdep M1) (updep M1)); auto; try discriminate; intros z0 k Hz0 Hk; [apply block_lowC_ok|apply block_upC_ok]; auto. }
        destruct (ObjFacts.nok_exists _ _ (nok_and _ _ _ Hsh (H' y z 1 1 false 1 INIT_A_ZERO ltac:(assumption) ltac:(assumption) ltac:(lia) ltac:(lia) ltac:(discriminate) ltac:(auto)))) as (o & _ & L & ->).
        destruct out. exact L.
    - contradiction.
    - eapply nok_bind; [apply vcopy_spec; auto|]. intros ? ->. apply nok_ret. exact Hr.
  Qed.
End Any.
