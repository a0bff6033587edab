(** * PropScaleIlu (C77): symmetric scaling does not change what the ILU preconditioner does *)
From Coq Require Import ZArith QArith.Qcanon QArith.Qcabs.
From Verif Require Import Base Alg Norms SRMatrix Async AsyncTheory AsyncSystem AsyncSweeps Nd Kernels KernelFacts IluApply IluApplyFacts IluApplyProofs TriSpec TriFacts
  IluApplyMain IluPattern IluFactor IluFactorMain Sgs SgsFacts SgsProofs SgsForms SgsMain Memory Levels PropLevels PropIluInit
  PropIluFactor PropIluApply PropIluSolve Factory Petsc Objects ObjFacts ObjHistory ObjAlg ObjTotal GsSweep PropDominantIlu ScaledLu PropSgs PropObjects Inst PropObjectsEx.
Open Scope nat_scope.

Definition plain_ilu : ilu := {| i_nbuild := 1; i_napply := 1; i_chunk := 1; i_tfactor := false; i_tapply := false; i_finit := INIT_F_ORIGINAL; i_ainit := INIT_A_JACOBI; i_scale := false; i_info := false |}.

Lemma scale_length {F} {O : SOps F} ssqrt n (A : nat -> nat -> F) : length (diagonal_scale ssqrt n A) = n.
Proof. unfold diagonal_scale. rewrite fmap_length, seq_length. reflexivity. Qed.

(** Suppose that the matrix, as it is, has incomplete factors L0 and U0 with non-zero pivots. Then for each vector there is one answer z0, the solution with L0 and U0: every object of the two ILU classes, made
    without scaling, or with scaling by square roots that are not zero, whatever was done with it before, gives this answer. *)
Theorem C77_scaling :
  forall (F : Type) (O : SOps F) (R : Field F) ssqrt sabs inv (M : srmat F) lu0 r,
  let n := nbrows M in
  let L0 := unitlower (entry M lu0) in
  let U0 := upper (entry M lu0) in
  wf_mat M -> wf_end M -> length (vals M) = nnz M -> length lu0 = nnz M ->
  exact_on_pattern M L0 U0 (dense M) -> (forall k, k < n -> U0 k k <> s0) -> length r = n ->
  exists z0, length z0 = n /\ is_prod n (mprod n L0 U0) z0 r /\ (forall z, length z = n -> is_prod n (mprod n L0 U0) z r -> z = z0) /\
    forall p i M0 maxthr st nthr g z,
    p = PIlu Scalar i \/ p = PLevelIlu Scalar i -> well_equipped inv p M0 -> same_pattern M0 M ->
    (1 <= i_nbuild i)%Z -> i_tfactor i = false \/ maxthr = 1 -> i_finit i <> INIT_F_SGS \/ i_scale i = false -> (i_scale i = true -> forall k, k < n -> ssqrt (dense M k k) <> s0) ->
    lived ssqrt sabs inv p maxthr M0 M st -> length z = n -> 1 <= nthr ->
    p = PLevelIlu Scalar i \/ ((1 <= i_napply i)%Z /\ i_ainit i <> INIT_A_NONE /\ (i_tapply i = false \/ nthr = 1)) ->
    nok (obj_apply nthr g p M st r z) (fun '(_, z') => z' = z0).
Proof.
  intros F O R ssqrt sabs inv M lu0 r n L0 U0 Hwf He Hv Hl0 Hex Hp0 Hr.
  assert (forall k, k < n -> entry M lu0 k k <> s0) as Hp.
  { intros k Hk. specialize (Hp0 k Hk). unfold U0, upper in Hp0. rewrite decide_True in Hp0 by lia. exact Hp0. }
  destruct (C34_scalar_sequential_apply F O R M lu0 None r Hwf Hl0 Hp Logic.I Hr) as (z0 & Hz0 & Hprod & Huniq & _).
  cbn [scaled_rhs] in Hprod, Huniq. exists z0. split; [exact Hz0|]. split; [exact Hprod|]. split; [exact Huniq|].
  intros p i M0 maxthr st nthr g z Hcl Heq Hsame Hb Ht Hin Hsq Hlived Hz Hthr Happ.
  pose proof (C68_ilu F O R ssqrt sabs inv p i M0 M maxthr Hcl Heq Hsame Hv Hb Ht Hin) as (lu & Hlu & _ & Hun & Hrun). fold n in Hrun, Hun.
  destruct (i_scale i) eqn:Esc; cbn [scale_used] in Hun, Hrun.
  - set (s := diagonal_scale ssqrt n (dense M)) in *.
    assert (forall k, k < n -> vat s k <> s0) as Hs by (intros k Hk; apply diagonal_scale_nz; auto).
    assert (scaled_lu M s lu0 = lu) as E.
    { apply Hun; [apply scaled_lu_length, Hl0| |].
      - intros k Hk. apply (scaled_lu_pivot M s lu0); auto.
      - apply (scaled_lu_exact M s lu0); auto. }
    rewrite <- E in Hrun. destruct (Hrun (fun k Hk => scaled_lu_pivot M s lu0 Hwf Hl0 Hs k Hk (Hp k Hk)) r Hr) as (x & Hx & Hx1 & Hx2 & Hx3).
    destruct (scaled_solution n (mprod n L0 U0) (mprod n (unitlower (entry M (scaled_lu M s lu0))) (upper (entry M (scaled_lu M s lu0)))) s z0 r)
      as (x' & Hx' & Hx1' & Ez); auto.
    { apply scale_length. }
    { intros a b Ha Hb'. apply (scaled_lu_product M s lu0); auto. }
    rewrite (Hx2 x' Hx' Hx1') in Ez. rewrite <- Ez. apply Hx3; auto.
  - assert (lu0 = lu) as <- by (apply Hun; auto).
    destruct (Hrun Hp r Hr) as (x & Hx & Hx1 & Hx2 & Hx3). cbn [scaled_rhs scaled_sol] in *.
    rewrite (Hx2 z0 Hz0 Hprod). apply Hx3; auto.
Qed.

(** The same for blocks. The diagonal blocks of the factors have inverses; the scaling is by the roots of the diagonal entries of the whole matrix. *)
Theorem C77_block_scaling :
  forall (F : Type) (O : SOps F) (R : Field F) ssqrt sabs inv bs so (M : srmat F) x0 r,
  let n := nbrows M in
  let N := n * bs in
  let L0 := bunitlower bs (bentry so bs M x0) in
  let U0 := bupper bs (bentry so bs M x0) (bentry so bs M x0) in
  wf_mat M -> wf_end M -> lawful inv (Blocks bs so) -> length (vals M) = nnz M * (bs * bs) -> length x0 = nnz M * (bs * bs) ->
  bexact_on_pattern bs M L0 U0 (bdense so bs M) -> (forall k, k < n -> exists Y, is_inverse bs (dblock bs U0 k) Y) -> length r = N ->
  exists z0, length z0 = N /\ is_prod N (mprod N L0 U0) z0 r /\ (forall z, length z = N -> is_prod N (mprod N L0 U0) z r -> z = z0) /\
    forall p i M0 maxthr st nthr g z,
    p = PIlu (Blocks bs so) i \/ p = PLevelIlu (Blocks bs so) i -> well_equipped inv p M0 -> same_pattern M0 M ->
    (1 <= i_nbuild i)%Z -> i_tfactor i = false \/ maxthr = 1 -> (i_scale i = true -> forall I, I < N -> ssqrt (bdense so bs M I I) <> s0) ->
    lived ssqrt sabs inv p maxthr M0 M st -> length z = N -> 1 <= nthr ->
    p = PLevelIlu (Blocks bs so) i \/ ((1 <= i_napply i)%Z /\ i_ainit i <> INIT_A_NONE /\ (i_tapply i = false \/ nthr = 1)) ->
    nok (obj_apply nthr g p M st r z) (fun '(_, z') => z' = z0).
Proof.
  intros F O R ssqrt sabs inv bs so M x0 r n N L0 U0 Hwf He Hlaw Hv Hl0 Hex Hp0 Hr.
  assert (forall k, k < n -> exists Y, is_inverse bs (dblock bs (bentry so bs M x0) k) Y) as Hp.
  { intros k Hk. destruct (Hp0 k Hk) as [Y HY]. exists Y. intros p q Hp Hq. destruct (HY p q Hp Hq) as [H1 H2]. unfold mprod in *.
    assert (forall a b, a < bs -> b < bs -> dblock bs U0 k a b = dblock bs (bentry so bs M x0) k a b) as E.
    { intros a b Ha Hb. unfold dblock, U0, bupper. rewrite !flat_div by done. rewrite decide_False by lia. rewrite decide_True by done. reflexivity. }
    split; [rewrite <- H1|rewrite <- H2]; apply bsum_ext; intros m Hm; rewrite E by done; reflexivity. }
  assert (well_equipped inv (PIlu (Blocks bs so) plain_ilu) M) as Heq0 by (split; [exact Hwf|]; split; [discriminate|]; split; [exact Hlaw|exact He]).
  destruct (C68_block_ilu F O R ssqrt sabs inv (PIlu (Blocks bs so) plain_ilu) bs so plain_ilu M M 1 (or_introl eq_refl) Heq0) as (x1 & _ & _ & Hun0 & Hrun0); auto.
  { repeat split. } { cbn. lia. }
  assert (x0 = x1) as <- by (apply Hun0; auto). clear Hun0.
  destruct (Hrun0 Hp r Hr) as (z0 & Hz0 & Hprod & Huniq & _). clear Hrun0.
  cbn [scaled_rhs scale_used plain_ilu i_scale] in Hprod, Huniq. exists z0. split; [exact Hz0|]. split; [exact Hprod|]. split; [exact Huniq|].
  intros p i M0 maxthr st nthr g z Hcl Heq Hsame Hb Ht Hsq Hlived Hz Hthr Happ.
  pose proof (C68_block_ilu F O R ssqrt sabs inv p bs so i M0 M maxthr Hcl Heq Hsame Hv Hb Ht) as (x & Hlx & _ & Hun & Hrun). fold n in Hrun, Hun. fold N in Hrun, Hun.
  destruct (i_scale i) eqn:Esc; cbn [scale_used] in Hun, Hrun.
  - set (s := diagonal_scale ssqrt N (bdense so bs M)) in *.
    assert (forall k, k < N -> vat s k <> s0) as Hs by (intros k Hk; apply diagonal_scale_nz; auto).
    assert (forall k, k < n -> exists Y, is_inverse bs (dblock bs (bentry so bs M (scaled_blocks so bs M s x0)) k) Y) as Hinv.
    { intros k Hk. destruct (Hp k Hk) as [Y HY]. apply (scaled_blocks_invertible so bs M s x0 Hwf Hl0 Hs k Y Hk HY). }
    assert (scaled_blocks so bs M s x0 = x) as E.
    { apply Hun; [apply scaled_blocks_length, Hl0|exact Hinv|]. apply (scaled_blocks_exact so bs M s x0); auto. }
    rewrite <- E in Hrun. destruct (Hrun Hinv r Hr) as (u & Hu & Hu1 & Hu2 & Hu3).
    destruct (scaled_solution N (mprod N L0 U0) (mprod N (bunitlower bs (bentry so bs M (scaled_blocks so bs M s x0)))
       (bupper bs (bentry so bs M (scaled_blocks so bs M s x0)) (bentry so bs M (scaled_blocks so bs M s x0)))) s z0 r)
      as (u' & Hu' & Hu1' & Ez); auto.
    { apply scale_length. }
    { intros a b Ha Hb'. apply (scaled_blocks_product so bs M s x0); auto. }
    rewrite (Hu2 u' Hu' Hu1') in Ez. rewrite <- Ez. apply Hu3; auto.
  - assert (x0 = x) as <- by (apply Hun; auto).
    destruct (Hrun Hp r Hr) as (u & Hu & Hu1 & Hu2 & Hu3). cbn [scaled_rhs scaled_sol] in *.
    rewrite (Hu2 z0 Hz0 Hprod). apply Hu3; auto.
Qed.

(** cases: the tridiagonal matrix of C30, and its block version; objects of both classes with and without scaling have been used with them *)
Definition two_ilus (sh : shape) : list prec := [PIlu sh exSet; PLevelIlu sh exSet; PIlu sh plain_ilu; PLevelIlu sh plain_ilu].
Example C77_case : forall p, p ∈ two_ilus Scalar ->
  wf_mat exM /\ wf_end exM /\ length (vals exM) = nnz exM /\ length exM_lu = nnz exM /\
  exact_on_pattern exM (unitlower (entry exM exM_lu)) (upper (entry exM exM_lu)) (dense exM) /\
  (forall k, k < nbrows exM -> upper (entry exM exM_lu) k k <> s0) /\ (forall k, k < nbrows exM -> (fun x : Qc => x) (dense exM k k) <> s0) /\
  well_equipped inv2 p exM /\ exists st, lived (fun x => x) (fun x => x) inv2 p 4 exM exM st.
Proof.
  intros p Hp. destruct C30_case as (H1 & H2 & H3 & H4 & H5).
  assert (wf_end exM) as He by (split; [reflexivity|]; intros i Hi; cbn in Hi; destruct i as [|[|[|i]]]; [reflexivity..|lia]).
  split; [exact H1|]. split; [exact He|]. split; [exact H2|]. split; [exact H3|]. split; [exact H4|].
  split; [intros k Hk; unfold upper; rewrite decide_True by lia; apply H5, Hk|]. split; [intros k Hk; apply exM_nonzero, Hk|].
  assert (well_equipped inv2 p exM /\ usable p /\ fits (pshape p) exM) as (K1 & K2 & K3).
  { assert (sym_pattern exM) as Hsym by (apply sym3; reflexivity).
    unfold two_ilus in Hp. repeat (apply elem_of_cons in Hp as [-> |Hp]; [|]); try (apply elem_of_nil in Hp as []);
      (split; [split; [exact exM_wf|split; [intros _; exact Hsym|split; [exact Logic.I|exact He]]]|split; [|reflexivity]]).
    all: repeat split; cbn; try lia; try discriminate; left; discriminate. }
  split; [exact K1|].
  pose (g0 := Fresh (fun _ _ => q 0) (fun _ _ => 0) (fun _ => 0%Z)).
  pose (pg := {| Sgs.rtol := q 0; atol := q 0; Sgs.dtol := q 0; ctol := false; maxits := 1 |}).
  destruct (C68_calls_return Qc _ (fun x => x) (fun x => x) inv2 p 4 exM K1 K2) as (H & _ & _).
  destruct (nok_exists _ _ (H pg 2 g0 exM ltac:(lia) ltac:(repeat split) K3)) as ([st i] & _ & Hl). eauto.
Qed.
Example C77_block_case : forall p, p ∈ two_ilus (Blocks 2 RowMajor) ->
  let U0 := bupper 2 (bentry RowMajor 2 exBB exBB_lu) (bentry RowMajor 2 exBB exBB_lu) in
  wf_mat exBB /\ wf_end exBB /\ lawful inv2 (Blocks 2 RowMajor) /\ length (vals exBB) = nnz exBB * (2 * 2) /\ length exBB_lu = nnz exBB * (2 * 2) /\
  bexact_on_pattern 2 exBB (bunitlower 2 (bentry RowMajor 2 exBB exBB_lu)) U0 (bdense RowMajor 2 exBB) /\
  (forall k, k < nbrows exBB -> exists Y, is_inverse 2 (dblock 2 U0 k) Y) /\
  (forall I, I < nbrows exBB * 2 -> (fun x : Qc => x) (bdense RowMajor 2 exBB I I) <> s0) /\
  well_equipped inv2 p exBB /\ exists st, lived (fun x => x) (fun x => x) inv2 p 4 exBB exBB st.
Proof.
  intros p Hp U0. destruct C30_block_case as (H1 & He & H2 & H3 & H4 & H5).
  assert (lawful inv2 (Blocks 2 RowMajor)) as Hlaw by (split; [lia|apply inv2_oracle]).
  split; [exact H1|]. split; [exact He|]. split; [exact Hlaw|]. split; [exact H2|]. split; [exact H3|]. split; [exact H4|].
  split; [|split].
  - intros k Hk. destruct (H5 k Hk) as [Y HY]. exists Y. intros a b Ha Hb. destruct (HY a b Ha Hb) as [I1 I2]. unfold mprod in *.
    assert (forall a b, a < 2 -> b < 2 -> dblock 2 U0 k a b = dblock 2 (bentry RowMajor 2 exBB exBB_lu) k a b) as E.
    { intros a' b' Ha' Hb'. unfold dblock, U0, bupper. rewrite !flat_div by done. rewrite decide_False by lia. rewrite decide_True by done. reflexivity. }
    split; [rewrite <- I1|rewrite <- I2]; apply bsum_ext; intros m Hm; rewrite E by done; reflexivity.
  - intros I HI. cbn in HI. destruct I as [|[|[|[|]]]]; [vm_compute; discriminate..|lia].
  - assert (well_equipped inv2 p exBB /\ usable p /\ fits (pshape p) exBB) as (K1 & K2 & K3).
    { assert (sym_pattern exBB) as Hsym.
      { intros i j Hi Hj. cbn in Hi, Hj. destruct i as [|[|]]; try lia; destruct j as [|[|]]; try lia; vm_compute; discriminate. }
      unfold two_ilus in Hp. repeat (apply elem_of_cons in Hp as [-> |Hp]; [|]); try (apply elem_of_nil in Hp as []);
        (split; [split; [exact H1|split; [intros _; exact Hsym|split; [exact Hlaw|exact He]]]|split; [|reflexivity]]).
      all: repeat split; cbn; try lia; try discriminate; try exact Hlaw; left; discriminate. }
    split; [exact K1|].
    pose (g0 := Fresh (fun _ _ => q 0) (fun _ _ => 0) (fun _ => 0%Z)).
    pose (pg := {| Sgs.rtol := q 0; atol := q 0; Sgs.dtol := q 0; ctol := false; maxits := 1 |}).
    destruct (C68_calls_return Qc _ (fun x => x) (fun x => x) inv2 p 4 exBB K1 K2) as (H & _ & _).
    destruct (nok_exists _ _ (H pg 2 g0 exBB ltac:(lia) ltac:(repeat split) K3)) as ([st i] & _ & Hl). eauto.
Qed.

Print Assumptions C77_scaling.
Print Assumptions C77_block_scaling.
