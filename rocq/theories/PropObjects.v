(** * PropObjects: what preconditioner objects do after any history of calls *)
From Coq Require Import ZArith.
From Verif Require Import Base Alg Coo CooFacts ColMat PropColMat SRMatrix Async AsyncTheory AsyncSystem AsyncSweeps Nd Kernels KernelFacts IluApply IluApplyFacts IluApplyProofs TriSpec TriFacts
  IluApplyMain IluPattern IluFactor IluFactorMain Sgs SgsFacts SgsProofs SgsForms SgsMain Memory Levels PropLevels PropIluInit
  PropIluFactor PropIluApply PropIluSolve Factory Petsc Objects ObjFacts ObjHistory ObjAlg ObjTotal GsSweep Inst.
Open Scope nat_scope.

(** ** C68: applying an object, whatever was done with it before *)
(** compute() and apply() return, also with many threads and whatever the numbers; so there are objects with histories of any length *)
Theorem C68_calls_return :
  forall (F : Type) (O : SOps F) ssqrt sabs inv p maxthr (M0 : srmat F),
  well_equipped inv p M0 -> usable p ->
  (forall pg nthr g M, 1 <= nthr <= maxthr -> same_pattern M0 M -> fits (pshape p) M ->
     nok (obj_compute ssqrt sabs inv nthr g p M (p_new pg)) (fun '(st, _) => lived ssqrt sabs inv p maxthr M0 M st)) /\
  (forall M1 st nthr g M, lived ssqrt sabs inv p maxthr M0 M1 st -> 1 <= nthr <= maxthr -> same_pattern M0 M -> fits (pshape p) M ->
     nok (obj_compute ssqrt sabs inv nthr g p M st) (fun '(st', _) => lived ssqrt sabs inv p maxthr M0 M st')) /\
  (forall M st nthr g M1 r z, lived ssqrt sabs inv p maxthr M0 M st -> 1 <= nthr <= maxthr -> same_pattern M0 M1 -> fits (pshape p) M1 ->
     length r = obj_dim p M -> length z = obj_dim p M -> (forall na c, p = PCscBgs na c -> nthr = 1) ->
     nok (obj_apply nthr g p M1 st r z) (fun '(st', _) => lived ssqrt sabs inv p maxthr M0 M st')).
Proof.
  intros F O ssqrt sabs inv p maxthr M0 Heq Hu. split; [|split].
  - intros pg nthr g M Hn Hp Hf. eapply nok_mono; [apply (nok_self _ (fun _ => True)), (compute_total ssqrt sabs inv p maxthr M0); eauto; lia|].
    intros [st info] H. eapply lv_first; eauto.
  - intros M1 st nthr g M Hl Hn Hp Hf. eapply nok_mono; [apply (nok_self _ (fun _ => True)), (compute_total ssqrt sabs inv p maxthr M0); eauto; [lia|]|].
    + right. exists M1. apply lived_sane; auto.
    + intros [st' info] H. eapply lv_again; eauto.
  - intros M st nthr g M1 r z Hl Hn Hp Hf Hr Hz Hc. eapply nok_mono; [apply (nok_self _ (fun _ => True)), (apply_total ssqrt sabs inv p maxthr M0 M); eauto; [apply lived_sane; auto|lia]|].
    intros [st' z'] H. apply (lv_apply ssqrt sabs inv p maxthr M0 nthr g M st M1 r z st' z'); auto.
Qed.
(** No preconditioning: the result is the argument. *)
Theorem C68_none :
  forall (F : Type) (O : SOps F) bs (M : srmat F) nthr g st r z,
  length r = nbrows M * bs -> length z = nbrows M * bs ->
  nok (obj_apply nthr g (PNone bs) M st r z) (fun '(_, z') => z' = r).
Proof.
  intros F O bs M nthr g st r z Hr Hz. cbn [obj_apply]. eapply nok_bind; [apply vcopy_spec; auto|]. intros z' ->. apply nok_ret. reflexivity.
Qed.
(** Jacobi: [D z = r], D the diagonal (blocks) of the matrix in the last compute() *)
Theorem C68_jacobi :
  forall (F : Type) (O : SOps F) (R : Field F) ssqrt sabs inv sh maxthr (M0 M : srmat F) E st nthr g r z,
  let p := PJacobi sh in
  let N := obj_dim p M in
  let D := bdiag (width sh) (matrix_of sh M) in
  well_equipped inv p M0 -> lived ssqrt sabs inv p maxthr M0 M st ->
  is_inverse N D E -> length r = N -> length z = N ->
  nok (obj_apply nthr g p M st r z) (fun '(_, z') => length z' = N /\ is_prod N D z' r).
Proof.
  intros F O R ssqrt sabs inv sh maxthr M0 M E st nthr g r z p N D Heq Hl HE Hr Hz.
  destruct (lived_sane ssqrt sabs inv p maxthr M0 M st Heq Hl) as (Hp & Hf & (d & Ed & Hdl & Hdet)).
  destruct Heq as (HM0 & _ & Hlaw). pose proof (same_pattern_wf _ _ Hp HM0) as HM. cbn [pshape p] in *. unfold fits in Hf.
  cbn [obj_apply p]. rewrite Ed. cbn [member].
  eapply nok_bind; [|intros z' Hz'; apply nok_ret; exact Hz'].
  specialize (Hdet d Hdl). unfold N, D, obj_dim, p in *. cbn [pshape] in *. clear N D p. destruct sh as [|bs so]; cbn [bsize width matrix_of setup_of lawful] in *.
  - rewrite !Nat.mul_1_r in *.
    assert (forall i, i < nbrows M -> dense M i i <> s0) as Hnz.
    { intros i Hi. eapply bdiag_nonzero; [rewrite Nat.mul_1_r; exact HE|exact Hi]. }
    eapply nok_mono; [exact (nok_at _ (fun d' => jacobi_apply M d' r z) _ _ (scalar_jacobi_main M d r z HM Hf Hnz Hdl Hr Hz) Hdet)|].
    cbn beta. intros z' [H1 H2]. split; [exact H1|]. intros i Hi. rewrite <- (H2 i Hi).
      rewrite (bsum_single _ i); [|exact Hi|intros j Hj Hne; unfold bdiag; rewrite !Nat.div_1_r, decide_False by auto; apply smul_0_l].
      unfold bdiag. rewrite decide_True by done. reflexivity.
  - destruct Hlaw as [Hb Hor]. refine (nok_at _ (fun d' => bjacobi_apply so bs M d' r z) _ _ _ Hdet). apply (block_jacobi_main so bs inv M E d r z); auto.
Qed.
(** Symmetric Gauss-Seidel: [(D+L) D^-1 (D+U) z = r]; one thread, or level scheduling and any number of threads *)
Theorem C68_sgs :
  forall (F : Type) (O : SOps F) (R : Field F) ssqrt sabs inv p sh (M0 M : srmat F) E r,
  (exists na ainit chunk, p = PSgs sh na ainit chunk /\ (1 <= na)%Z /\ (1 <= chunk)%Z) \/ p = PLevelSgs sh ->
  let N := obj_dim p M in
  let A := matrix_of sh M in
  well_equipped inv p M0 -> same_pattern M0 M -> fits sh M -> is_inverse N (bdiag (width sh) A) E -> length r = N ->
  exists x, length x = N /\ is_prod N (sgs_matrix (width sh) (nbrows M) A E) x r /\
    (forall x', length x' = N -> is_prod N (sgs_matrix (width sh) (nbrows M) A E) x' r -> x' = x) /\
    forall maxthr st nthr g z, lived ssqrt sabs inv p maxthr M0 M st -> length z = N -> 1 <= nthr -> p = PLevelSgs sh \/ nthr = 1 ->
      nok (obj_apply nthr g p M st r z) (fun '(_, z') => z' = x).
Proof.
  intros F O R ssqrt sabs inv p sh M0 M E r Hcls N A Heq Hp Hf HE Hr.
  assert (pshape p = sh) as Esh by (destruct Hcls as [(? & ? & ? & -> & _)| ->]; reflexivity).
  assert (lawful inv sh) as Hlaw by (destruct Heq as (_ & _ & H); destruct Hcls as [(? & ? & ? & -> & _)| ->]; exact H).
  unfold N, obj_dim in *. rewrite Esh in *. clear N.
  destruct Heq as (HM0 & Hsym & Heq). pose proof (same_pattern_wf _ _ Hp HM0) as HM.
  destruct (diag_good inv sh M E HM Hf Hlaw HE) as (d & dinv & Hdl & Hg & Hst).
  destruct (mat_deps M HM) as (D1 & D2 & _).
  destruct (sgs_main (width sh) (nbrows M) 0 (matrix_of sh M) E dinv (fgs_of sh M) (bgs_of sh M) (relax_of sh M) (lowdep M) (updep M) (offdep M)
     (fun _ => nret d)) with (r := r) as (y & x & _ & _ & Hx & Hxp & Hxu & Hrun); auto.
  { intros d0 _. apply nok_ret. exact Hg. }
  exists x. split; [exact Hx|]. split; [exact Hxp|]. split; [exact Hxu|].
  intros maxthr st nthr g z Hl Hz Hn Hcase.
  assert (well_equipped inv p M0) as Heq' by (split; [exact HM0|split; [exact Hsym|exact Heq]]).
  destruct (lived_sane ssqrt sabs inv p maxthr M0 M st Heq' Hl) as (_ & _ & Hs).
  assert (forall A0 B0 (k : A0 -> nd B0) a Q, nok (nbind (nret a) k) Q -> nok (k a) Q) as Hret.
  { intros A0 B0 k a Q H. eapply nok_at; [exact H|]. apply nok_ret. reflexivity. }
  destruct Hcls as [(na & ainit & chunk & -> & Hna & Hc)| ->]; cbn [obj_apply pshape] in *.
  - destruct Hcase as [|Hn1]; [discriminate|]. destruct Hs as [Hd (yt & Ey & Hy)]. rewrite (Hst _ Hd), Ey. cbn [member].
    apply chunked_pos; [lia|]. destruct (Hrun (replicate 0 s0) yt z) as [H _]; auto.
    specialize (H (Z.to_nat na) (Z.to_nat chunk) nthr ainit ltac:(lia) ltac:(lia) Hn). apply Hret in H.
    eapply nok_bind; [exact H|]. intros [y' z'] [_ H']. apply nok_ret. apply H', Hn1.
  - destruct Hs as (Hd & (yt & Ey & Hy) & Hlev). rewrite (Hst _ Hd), Ey. cbn [member].
    destruct (mat_levels M _ HM Hlev) as (L1 & L2 & _). destruct (Hrun (replicate 0 s0) yt z) as [_ H]; auto.
    specialize (H (p_levels st) nthr L1 L2 Hn). apply Hret in H.
    eapply nok_bind; [exact H|]. intros [y' z'] H'. injection H' as -> ->. apply nok_ret. reflexivity.
Qed.
(** The column-based backward Gauss-Seidel, one thread: [(D+U) z = r] *)
Theorem C68_csc_bgs :
  forall (F : Type) (O : SOps F) (R : Field F) ssqrt sabs inv na chunk maxthr (M0 M : srmat F) st g r z,
  let p := PCscBgs na chunk in
  let n := nbrows M in
  well_equipped inv p M0 -> lived ssqrt sabs inv p maxthr M0 M st ->
  (forall i, i < n -> dense M i i <> s0) -> (1 <= na)%Z -> (1 <= chunk)%Z -> length r = n -> length z = n ->
  nok (obj_apply 1 g p M st r z) (fun '(_, z') => length z' = n /\ is_prod n (upper (dense M)) z' r).
Proof.
  intros F O R ssqrt sabs inv na chunk maxthr M0 M st g r z p n Heq Hl Hnz Hna Hc Hr Hz.
  destruct (lived_sane ssqrt sabs inv p maxthr M0 M st Heq Hl) as (Hp & Hf & (C & Ed & Ec & HC)).
  destruct Heq as (HM0 & _ & _). pose proof (same_pattern_wf _ _ Hp HM0) as HM.
  cbn [obj_apply p]. rewrite Ed, Ec. cbn [member]. apply chunked_pos; [lia|]. rewrite Nat.eqb_refl.
  eapply nok_bind; [apply (csc_apply_ok M C (Z.to_nat na)); auto; [rewrite alloc_length; apply (cf_n _ _ _ HC)|lia]|].
  intros z' Hz'. apply nok_ret. exact Hz'.
Qed.
(** The point-wise Gauss-Seidel relaxation used as a preconditioner, one thread: forward sweeps that start from what the output
    vector contained *)
Theorem C68_gs :
  forall (F : Type) (O : SOps F) (R : Field F) ssqrt sabs inv sh na chunk maxthr (M0 M : srmat F) E st g r z,
  let p := PChaotic sh na chunk in
  let N := obj_dim p M in
  let A := matrix_of sh M in
  well_equipped inv p M0 -> lived ssqrt sabs inv p maxthr M0 M st ->
  is_inverse N (bdiag (width sh) A) E -> (1 <= chunk)%Z -> length r = N -> length z = N ->
  nok (obj_apply 1 g p M st r z) (fun '(_, z') => iterated (gs_forward (width sh) N A r) (Z.to_nat na) z z').
Proof.
  intros F O R ssqrt sabs inv sh na chunk maxthr M0 M E st g r z p N A Heq Hl HE Hc Hr Hz.
  destruct (lived_sane ssqrt sabs inv p maxthr M0 M st Heq Hl) as (Hp & Hf & Hd).
  destruct Heq as (HM0 & _ & Hlaw). pose proof (same_pattern_wf _ _ Hp HM0) as HM.
  destruct (diag_good inv sh M E HM Hf Hlaw HE) as (d & dinv & Hdl & Hg & Hst).
  cbn [obj_apply p]. rewrite (Hst _ Hd). cbn [member]. apply chunked_pos; [lia|].
  eapply nok_bind; [|intros z' Hz'; apply nok_ret; exact Hz'].
  apply (chaotic_iterates (width sh) (nbrows M) A (dinv d) (relax_of sh M d) (offdep M)); auto; try apply Hg; [|lia].
  intros i Hi. apply (mat_deps M HM). exact Hi.
Qed.
(** ILU(0), scalar: the object applies the factorisation of the matrix in the last compute(), which is exact on the pattern *)
Theorem C68_ilu :
  forall (F : Type) (O : SOps F) (R : Field F) ssqrt sabs inv p i (M0 M : srmat F) maxthr,
  p = PIlu Scalar i \/ p = PLevelIlu Scalar i ->
  let n := nbrows M in
  let A := dense M in
  let scale := scale_used ssqrt (i_scale i) n A in
  let exact lu := exact_on_pattern M (unitlower (entry M lu)) (upper (entry M lu)) (scaled_mat scale A) in
  well_equipped inv p M0 -> same_pattern M0 M -> length (vals M) = nnz M ->
  (1 <= i_nbuild i)%Z -> i_tfactor i = false \/ maxthr = 1 -> i_finit i <> INIT_F_SGS \/ i_scale i = false ->
  exists lu, length lu = nnz M /\
    ((forall k, k < n -> entry M lu k k <> s0) -> exact lu) /\
    (forall lu', length lu' = nnz M -> (forall k, k < n -> entry M lu' k k <> s0) -> exact lu' -> lu' = lu) /\
    ((forall k, k < n -> entry M lu k k <> s0) -> forall r, length r = n ->
      let LU := mprod n (unitlower (entry M lu)) (upper (entry M lu)) in
      exists x, length x = n /\ is_prod n LU x (scaled_rhs scale r) /\
        (forall x', length x' = n -> is_prod n LU x' (scaled_rhs scale r) -> x' = x) /\
        forall st nthr g z, lived ssqrt sabs inv p maxthr M0 M st -> length z = n -> 1 <= nthr ->
          p = PLevelIlu Scalar i \/ ((1 <= i_napply i)%Z /\ i_ainit i <> INIT_A_NONE /\ (i_tapply i = false \/ nthr = 1)) ->
          nok (obj_apply nthr g p M st r z) (fun '(_, z') => z' = scaled_sol scale x)).
Proof.
  intros F O R ssqrt sabs inv p i M0 M maxthr Hcls n A scale exact Heq Hp Hv Hnb Hseq Hsgs.
  pose proof Heq as (HM0 & _ & Hrest). pose proof (same_pattern_wf _ _ Hp HM0) as HM.
  assert (wf_end M0) as He by (destruct Hcls as [-> | ->]; apply Hrest). clear Hrest.
  destruct (C29_compute_sequential F O R ssqrt sabs M (i_scale i) HM Hv) as (lu & Hl & Hex & Huniq & Hc).
  fold n A scale in Hex, Huniq, Hc.
  exists lu. split; [exact Hl|]. split; [exact Hex|]. split; [exact Huniq|]. intros Hpiv r Hr LU.
  assert (scale_ok scale n) as Hsc.
  { unfold scale, scale_used. destruct (i_scale i); simpl; [|exact Logic.I]. unfold diagonal_scale. rewrite fmap_length, seq_length. reflexivity. }
  destruct (C34_scalar_sequential_apply F O R M lu scale r HM Hl Hpiv Hsc Hr) as (x & H1 & H2 & H3 & y0 & H4).
  exists x. split; [exact H1|]. split; [exact H2|]. split; [exact H3|]. intros st nthr g z Hlived Hz Hn Happ.
  destruct (lived_sane ssqrt sabs inv p maxthr M0 M st Heq Hlived) as (_ & _ & Hs).
  assert (holds_ilu ssqrt sabs inv Scalar i M0 M maxthr st) as Hi by (destruct Hcls as [-> | ->]; apply Hs).
  pose proof Hi as (_ & (y & Ey & Hy) & s1 & gi & gs & gd & nt & inf & Hh & Hnt & Hch & L1 & L2 & L3 & Hlast).
  cbn [ilu_hist ilu_compute_of bsize width] in *. rewrite !Nat.mul_1_r in *.
  assert (st_ilu (p_ilu st) = Some lu /\ IluFactor.st_scale (p_ilu st) = scale) as [E1 E2].
  { assert (i_tfactor i = false \/ nt = 1) as Hseq' by (destruct Hseq as [|]; [auto|right; lia]).
    destruct (C44_none_sequential F O ssqrt sabs (i_scale i) M0 M HM0 Hp Hv) as (st1 & Hst1).
    pose proof (nok_out _ _ _ (Hst1 s1 (i_finit i) (Z.to_nat (i_nbuild i)) (Z.to_nat (i_chunk i)) (i_tfactor i) nt (i_info i) gi gs Hh L1 L2 Hsgs ltac:(lia) ltac:(lia) Hseq') Hlast) as Ea.
    cbn beta iota in Ea.
    specialize (Hc (Z.to_nat (i_nbuild i)) (Z.to_nat (i_chunk i)) (i_tfactor i) nt (i_finit i) (i_info i) gi gs L1 L2 ltac:(lia) ltac:(lia) Hseq' Hsgs).
    destruct (nok_exists _ _ Hc) as ([st2 i2] & Ho & Hq).
    pose proof (nok_out _ _ _ (Hst1 ilu_new (i_finit i) (Z.to_nat (i_nbuild i)) (Z.to_nat (i_chunk i)) (i_tfactor i) nt (i_info i) gi gs (sh_new _ _ _ _) L1 L2 Hsgs ltac:(lia) ltac:(lia) Hseq') Ho) as Eb.
    cbn beta iota in Eb. rewrite Ea, <- Eb. exact Hq. }
  destruct Hcls as [-> | ->]; cbn [obj_apply].
  - destruct Happ as [|(Hna & Hai & Hta)]; [discriminate|]. unfold ilu_apply. rewrite Ey, E1, E2. cbn [member]. apply chunked_pos; [exact Hch|].
    eapply nok_bind; [apply (H4 y z (Z.to_nat (i_napply i)) (Z.to_nat (i_chunk i)) (i_tapply i) nthr (i_ainit i)); auto; try lia|].
    intros [y' z'] E. injection E as -> ->. apply nok_ret. reflexivity.
  - destruct Hs as [_ Hlev]. unfold level_ilu_apply. rewrite Ey, E1, E2. cbn [member].
    destruct (C37_scalar_level_apply F O M lu (p_levels st) scale r HM Hlev Hl Hsc Hr) as (out & K1 & K2).
    eapply nok_bind; [apply (K1 y z nthr); auto|]. intros [y' z'] E. apply nok_ret.
    pose proof (H4 y z 1 1 false 1 INIT_A_ZERO Hy Hz ltac:(lia) ltac:(lia) ltac:(discriminate) ltac:(auto)) as G1.
    pose proof (K2 y z 1 1 false 1 INIT_A_ZERO Hy Hz ltac:(lia) ltac:(lia) ltac:(discriminate) ltac:(auto)) as G2.
    pose proof (nok_same _ _ _ G1 G2) as Eo. rewrite <- Eo in E. injection E as -> ->. reflexivity.
Qed.
(** ... and with blocks: [x] holds the blocks of the factors, the object the inverses of the diagonal blocks *)
Theorem C68_block_ilu :
  forall (F : Type) (O : SOps F) (R : Field F) ssqrt sabs inv p bs so i (M0 M : srmat F) maxthr,
  p = PIlu (Blocks bs so) i \/ p = PLevelIlu (Blocks bs so) i ->
  let n := nbrows M in
  let A := bdense so bs M in
  let scale := scale_used ssqrt (i_scale i) (n * bs) A in
  let B := bentry so bs M in
  let invertible x := forall k, k < n -> exists Y, is_inverse bs (dblock bs (B x) k) Y in
  let exact x := bexact_on_pattern bs M (bunitlower bs (B x)) (bupper bs (B x) (B x)) (scaled_mat scale A) in
  well_equipped inv p M0 -> same_pattern M0 M -> length (vals M) = nnz M * (bs * bs) ->
  (1 <= i_nbuild i)%Z -> i_tfactor i = false \/ maxthr = 1 ->
  exists x, length x = nnz M * (bs * bs) /\
    (invertible x -> exact x) /\
    (forall x', length x' = nnz M * (bs * bs) -> invertible x' -> exact x' -> x' = x) /\
    (invertible x -> forall r, length r = n * bs ->
      let LU := mprod (n * bs) (bunitlower bs (B x)) (bupper bs (B x) (B x)) in
      exists u, length u = n * bs /\ is_prod (n * bs) LU u (scaled_rhs scale r) /\
        (forall u', length u' = n * bs -> is_prod (n * bs) LU u' (scaled_rhs scale r) -> u' = u) /\
        forall st nthr g z, lived ssqrt sabs inv p maxthr M0 M st -> length z = n * bs -> 1 <= nthr ->
          p = PLevelIlu (Blocks bs so) i \/ ((1 <= i_napply i)%Z /\ i_ainit i <> INIT_A_NONE /\ (i_tapply i = false \/ nthr = 1)) ->
          nok (obj_apply nthr g p M st r z) (fun '(_, z') => z' = scaled_sol scale u)).
Proof.
  intros F O R ssqrt sabs inv p bs so i M0 M maxthr Hcls n A scale B invertible exact Heq Hp Hv Hnb Hseq.
  pose proof Heq as (HM0 & _ & Hrest). pose proof (same_pattern_wf _ _ Hp HM0) as HM.
  assert (lawful inv (Blocks bs so) /\ wf_end M0) as [[Hbs Hor] He0] by (destruct Hcls as [-> | ->]; apply Hrest). clear Hrest.
  pose proof (same_pattern_end _ _ Hp He0) as He.
  assert (forall b, length b = bs * bs -> length (inv b) = bs * bs) as Hinv by (intros b Hb; apply Hor; auto).
  destruct (C29_block_compute_sequential F O _ ssqrt sabs inv so bs M (i_scale i) HM He Hv Hor) as (lu & x & Hl & Hxl & Hex & Huniq & Hc).
  fold n A scale B in Hex, Huniq, Hc.
  exists x. split; [exact Hxl|]. split; [intros Hiv; apply Hex, Hiv|]. split; [exact Huniq|]. intros Hpiv r Hr LU.
  destruct (Hex Hpiv) as (_ & Hst & Hsi).
  assert (scale_ok scale (n * bs)) as Hsc.
  { unfold scale, scale_used. destruct (i_scale i); simpl; [|exact Logic.I]. unfold diagonal_scale. rewrite fmap_length, seq_length. reflexivity. }
  destruct (C34_block_sequential_apply F O _ so bs M lu (B x) scale r Hbs HM Hl Hsi Hsc Hr) as (u & H1 & H2 & H3 & y0 & H4).
  assert (forall I J, I < n * bs -> J < n * bs ->
    mprod (n * bs) (bunitlower bs (B lu)) (bupper bs (B lu) (B x)) I J = LU I J) as ELU.
  { intros I J HI HJ. unfold LU. apply mprod_ext; intros k Hk.
    - unfold bunitlower. destruct (decide (k / bs < I / bs)); [|reflexivity]. apply Hst; auto. lia.
    - unfold bupper. destruct (decide (k / bs < J / bs)); [|reflexivity]. apply Hst; auto. lia. }
  exists u. split; [exact H1|]. split; [apply (SgsMain.is_prod_ext _ _ _ _ _ ELU), H2|]. split.
  { intros u' Hu' Hpr. apply H3; [exact Hu'|]. apply (SgsMain.is_prod_ext _ _ _ _ _ ELU), Hpr. }
  intros st nthr g z Hlived Hz Hn Happ.
  destruct (lived_sane ssqrt sabs inv p maxthr M0 M st Heq Hlived) as (_ & _ & Hs).
  assert (holds_ilu ssqrt sabs inv (Blocks bs so) i M0 M maxthr st) as Hi by (destruct Hcls as [-> | ->]; apply Hs).
  pose proof Hi as (_ & (y & Ey & Hy) & s1 & gi & gs & gd & nt & inf & Hh & Hnt & Hch & L1 & L2 & L3 & Hlast).
  cbn [ilu_hist ilu_compute_of bsize width] in *.
  assert (st_ilu (p_ilu st) = Some lu /\ IluFactor.st_scale (p_ilu st) = scale) as [E1 E2].
  { assert (i_tfactor i = false \/ nt = 1) as Hseq' by (destruct Hseq as [|]; [auto|right; lia]).
    destruct (C44_block_none_sequential F O ssqrt sabs inv so bs (i_scale i) M0 M HM0 He0 Hinv Hp Hv) as (st1 & Hst1).
    pose proof (nok_out _ _ _ (Hst1 s1 (i_finit i) (Z.to_nat (i_nbuild i)) (Z.to_nat (i_chunk i)) (i_tfactor i) nt (i_info i) gi gs gd Hh L1 L2 L3 ltac:(lia) ltac:(lia) Hseq') Hlast) as Ea.
    cbn beta iota in Ea.
    specialize (Hc (Z.to_nat (i_nbuild i)) (Z.to_nat (i_chunk i)) (i_tfactor i) nt (i_finit i) (i_info i) gi gs gd L1 L2 L3 ltac:(lia) ltac:(lia) Hseq').
    destruct (nok_exists _ _ Hc) as ([st2 i2] & Ho & Hq).
    pose proof (nok_out _ _ _ (Hst1 ilu_new (i_finit i) (Z.to_nat (i_nbuild i)) (Z.to_nat (i_chunk i)) (i_tfactor i) nt (i_info i) gi gs gd (bh_new _ _ _ _ _ _ _) L1 L2 L3 ltac:(lia) ltac:(lia) Hseq') Ho) as Eb.
    cbn beta iota in Eb. rewrite Ea, <- Eb. exact Hq. }
  destruct Hcls as [-> | ->]; cbn [obj_apply].
  - destruct Happ as [|(Hna & Hai & Hta)]; [discriminate|]. unfold ilu_apply. rewrite Ey, E1, E2. cbn [member]. apply chunked_pos; [exact Hch|].
    eapply nok_bind; [apply (H4 y z (Z.to_nat (i_napply i)) (Z.to_nat (i_chunk i)) (i_tapply i) nthr (i_ainit i)); auto; try lia|].
    intros [y' z'] E. injection E as -> ->. apply nok_ret. reflexivity.
  - destruct Hs as [_ Hlev]. unfold level_ilu_apply. rewrite Ey, E1, E2. cbn [member].
    destruct (C37_block_level_apply F O so bs M lu (p_levels st) scale r HM Hlev Hl Hsc Hr) as (out & K1 & K2).
    eapply nok_bind; [apply (K1 y z nthr); auto|]. intros [y' z'] E. apply nok_ret.
    pose proof (H4 y z 1 1 false 1 INIT_A_ZERO Hy Hz ltac:(lia) ltac:(lia) ltac:(discriminate) ltac:(auto)) as G1.
    pose proof (K2 y z 1 1 false 1 INIT_A_ZERO Hy Hz ltac:(lia) ltac:(lia) ltac:(discriminate) ltac:(auto)) as G2.
    pose proof (nok_same _ _ _ G1 G2) as Eo. rewrite <- Eo in E. injection E as -> ->. reflexivity.
Qed.

(** ** C69: relaxation (PCApplyRichardson) through PETSc *)
(** where the iteration starts *)
Definition start_of {F} {O : SOps F} (guesszero : bool) (x : list F) : list F := if guesszero then replicate (length x) s0 else x.
(** the call succeeded: nothing is left locked, the requested number of iterations is reported, and the vector satisfies [Q] *)
Definition relaxed {F} {O : SOps F} (it : Z) (Q : list F -> Prop) (out : @after F * option Z) : Prop :=
  a_status out.1 = Fine /\ a_held out.1 = false /\ out.2 = Some it /\ exists x', a_vec out.1 = Some x' /\ Q x'.
Lemma relax_local_ok {F} {O : SOps F} ssqrt slt dbg nthr g dcpu dwall rt at_ dt it gz (M : srmat F) c st rhs x p (Q : list F -> Prop) :
  c_bprec c = Some p -> length rhs = obj_dim p M ->
  (forall a, maxits a = Z.to_nat it -> ctol a = false -> nok (obj_relax ssqrt slt nthr g p M (set_params a st) rhs (start_of gz x)) Q) ->
  nok (relax_local_blasted ssqrt slt dbg nthr g dcpu dwall rt at_ dt it gz M c st rhs x) (relaxed it Q).
Proof.
  intros Ep Hr H. unfold relax_local_blasted. rewrite Ep. rewrite Hr, Nat.eqb_refl. cbn [negb]. rewrite andb_false_r.
  specialize (H {| Sgs.rtol := rt; atol := at_; Sgs.dtol := dt; ctol := false; maxits := Z.to_nat it |} eq_refl eq_refl).
  change (if gz then replicate (length x) s0 else x) with (start_of gz x).
  eapply (nok_bind _ _ (fun y => exists x', y = inl x' /\ Q x')).
  - destruct (nok_exists _ _ H) as (x' & Ho & Hq). split; [eexists; eexists; split; [exact Ho|reflexivity]|].
    intros o (y & Hy & ->). pose proof (proj2 H y Hy) as Hk. destruct y as [x1| | |]; cbn in Hk |- *; try tauto. exists x1. auto.
  - intros y (x' & -> & Hq). apply nok_ret. split; [reflexivity|]. split; [reflexivity|]. split; [reflexivity|]. exists x'. auto.
Qed.
Lemma start_length {F} {O : SOps F} gz (x : list F) : length (start_of gz x) = length x.
Proof. unfold start_of. destruct gz; [apply replicate_length|reflexivity]. Qed.

Section Relax.
  Context {F : Type} {O : SOps F} {R : Field F}.
  Variables (ssqrt sabs : F -> F) (slt : F -> F -> bool) (inv : list F -> list F).
  Lemma lived_params p maxthr (M0 M : srmat F) st a : lived ssqrt sabs inv p maxthr M0 M st -> lived ssqrt sabs inv p maxthr M0 M (set_params a st).
  Proof. apply lv_params. Qed.
  Lemma relax_equipped p M0 : well_equipped inv p M0 -> relaxationAvailable p = true -> lawful inv (pshape p).
  Proof. intros (_ & _ & H) Hr. destruct p; try discriminate; exact H. Qed.
  Lemma lived_good p maxthr (M0 M : srmat F) E st : well_equipped inv p M0 -> lived ssqrt sabs inv p maxthr M0 M st -> relaxationAvailable p = true ->
    is_inverse (obj_dim p M) (bdiag (width (pshape p)) (matrix_of (pshape p) M)) E ->
    wf_mat M /\ exists d dinv, p_d st = Some d /\ length d = nbrows M * bsize (pshape p) /\
      good (width (pshape p)) (nbrows M) (matrix_of (pshape p) M) dinv (fgs_of (pshape p) M) (bgs_of (pshape p) M) (relax_of (pshape p) M) (lowdep M) (updep M) (offdep M) d /\
      (forall sh, p = PLevelSgs sh -> levels_for (nbrows M) (offdep M) (p_levels st)).
  Proof.
    intros Heq Hl Hav HE. pose proof (relax_equipped p M0 Heq Hav) as Hlaw.
    destruct (lived_sane ssqrt sabs inv p maxthr M0 M st Heq Hl) as (Hp & Hf & Hs).
    pose proof (same_pattern_wf _ _ Hp (proj1 Heq)) as HM. split; [exact HM|].
    destruct (diag_good inv (pshape p) M E HM Hf Hlaw HE) as (d & dinv & Hdl & Hg & Hst). exists d, dinv.
    split; [apply Hst; destruct p; try discriminate; apply Hs|]. split; [exact Hdl|]. split; [exact Hg|].
    intros sh ->. apply (mat_levels M _ HM). apply Hs.
  Qed.
End Relax.
(** Jacobi: exactly the [it]-th iterate [x <- x + D^-1 (b - A x)], any number of threads *)
Theorem C69_jacobi :
  forall (F : Type) (O : SOps F) (R : Field F) ssqrt sabs slt inv sh maxthr (M0 M : srmat F) E c st dbg nthr g dcpu dwall rt at_ dt it gz rhs x,
  let p := PJacobi sh in
  let N := obj_dim p M in
  let A := matrix_of sh M in
  well_equipped inv p M0 -> lived ssqrt sabs inv p maxthr M0 M st -> c_bprec c = Some p ->
  is_inverse N (bdiag (width sh) A) E -> length rhs = N -> length x = N ->
  nok (relax_local_blasted ssqrt slt dbg nthr g dcpu dwall rt at_ dt it gz M c st rhs x)
      (relaxed it (fun x' => x' = iterate N A E rhs (start_of gz x) (Z.to_nat it))).
Proof.
  intros F O R ssqrt sabs slt inv sh maxthr M0 M E c st dbg nthr g dcpu dwall rt at_ dt it gz rhs x p N A Heq Hl Ep HE Hr Hx.
  destruct (lived_good ssqrt sabs inv p maxthr M0 M E st Heq Hl eq_refl HE) as (HM & d & dinv & Ed & Hdl & Hg & _).
  apply (relax_local_ok _ _ _ _ _ _ _ _ _ _ _ _ _ _ _ _ _ p); [exact Ep|exact Hr|]. intros a Hm Hct. cbn [obj_relax p].
  change (p_d (set_params a st)) with (p_d st). rewrite Ed. cbn [member].
  change (p_par (set_params a st)) with a.
  pose proof (jacobi_main (width sh) (nbrows M) 0 A E dinv (fgs_of sh M) (bgs_of sh M) (relax_of sh M) (lowdep M) (updep M) (offdep M)
    (fun _ => nret d) HE ltac:(intros; apply nok_ret; exact Hg) ssqrt slt a (replicate 0 s0) (alloc (fr_v g 0) (nbrows M * width sh)) rhs (start_of gz x)) as H.
  eapply nok_mono.
  - eapply (nok_at (nret d) (fun d => jacobi_relax ssqrt slt (width sh) (nbrows M) (relax_of sh M d) a _ rhs (start_of gz x))); [apply H; auto|apply nok_ret; reflexivity].
    + apply alloc_length.
    + rewrite start_length. exact Hx.
  - cbn beta. intros x' (m & _ & -> & H1 & _). rewrite H1, Hm by exact Hct. reflexivity.
Qed.
(** Gauss-Seidel relaxations with one thread, or with level scheduling and any number of threads: [it] sweeps *)
Theorem C69_symmetric_gauss_seidel :
  forall (F : Type) (O : SOps F) (R : Field F) ssqrt sabs slt inv p sh maxthr (M0 M : srmat F) E c st dbg nthr g dcpu dwall rt at_ dt it gz rhs x,
  (exists na ainit chunk, p = PSgs sh na ainit chunk /\ (1 <= chunk)%Z /\ nthr = 1) \/ (p = PLevelSgs sh /\ 1 <= nthr) ->
  let N := obj_dim p M in
  let A := matrix_of sh M in
  well_equipped inv p M0 -> lived ssqrt sabs inv p maxthr M0 M st -> c_bprec c = Some p ->
  is_inverse N (bdiag (width sh) A) E -> length rhs = N -> length x = N ->
  nok (relax_local_blasted ssqrt slt dbg nthr g dcpu dwall rt at_ dt it gz M c st rhs x)
      (relaxed it (iterated (gs_symmetric (width sh) N A rhs) (Z.to_nat it) (start_of gz x))).
Proof.
  intros F O R ssqrt sabs slt inv p sh maxthr M0 M E c st dbg nthr g dcpu dwall rt at_ dt it gz rhs x Hcls N A Heq Hl Ep HE Hr Hx.
  assert (pshape p = sh) as Esh by (destruct Hcls as [(? & ? & ? & -> & _)|[-> _]]; reflexivity).
  assert (relaxationAvailable p = true) as Hav by (destruct Hcls as [(? & ? & ? & -> & _)|[-> _]]; reflexivity).
  destruct (lived_good ssqrt sabs inv p maxthr M0 M E st Heq Hl Hav) as (HM & d & dinv & Ed & Hdl & Hg & Hlev); [rewrite Esh; exact HE|].
  apply (relax_local_ok _ _ _ _ _ _ _ _ _ _ _ _ _ _ _ _ _ p); [exact Ep|exact Hr|]. intros a Hm Hct.
  unfold N, obj_dim in *. rewrite Esh in *. clear N. fold A in Hg. destruct (mat_deps M HM) as (_ & _ & D3).
  destruct Hcls as [(na & ai & chunk & -> & Hc & ->)|[-> Hn]]; cbn [obj_relax];
    change (p_d (set_params a st)) with (p_d st); change (p_par (set_params a st)) with a; rewrite Ed, Hm; cbn [member].
  - apply chunked_pos; [lia|]. apply (sgs_iterates (width sh) (nbrows M) A (dinv d) (relax_of sh M d) (offdep M)); auto; try apply Hg.
    + rewrite start_length. exact Hx.
    + lia.
  - change (p_levels (set_params a st)) with (p_levels st).
    apply (level_iterates (width sh) (nbrows M) A (dinv d) (relax_of sh M d) (offdep M)); auto; try apply Hg.
    + rewrite start_length. exact Hx.
    + apply (Hlev sh eq_refl).
Qed.
Theorem C69_gauss_seidel :
  forall (F : Type) (O : SOps F) (R : Field F) ssqrt sabs slt inv sh na chunk maxthr (M0 M : srmat F) E c st dbg g dcpu dwall rt at_ dt it gz rhs x,
  let p := PChaotic sh na chunk in
  let N := obj_dim p M in
  let A := matrix_of sh M in
  well_equipped inv p M0 -> lived ssqrt sabs inv p maxthr M0 M st -> c_bprec c = Some p -> (1 <= chunk)%Z ->
  is_inverse N (bdiag (width sh) A) E -> length rhs = N -> length x = N ->
  nok (relax_local_blasted ssqrt slt dbg 1 g dcpu dwall rt at_ dt it gz M c st rhs x)
      (relaxed it (iterated (gs_forward (width sh) N A rhs) (Z.to_nat it) (start_of gz x))).
Proof.
  intros F O R ssqrt sabs slt inv sh na chunk maxthr M0 M E c st dbg g dcpu dwall rt at_ dt it gz rhs x p N A Heq Hl Ep Hc HE Hr Hx.
  destruct (lived_good ssqrt sabs inv p maxthr M0 M E st Heq Hl eq_refl HE) as (HM & d & dinv & Ed & Hdl & Hg & _).
  destruct (mat_deps M HM) as (_ & _ & D3).
  apply (relax_local_ok _ _ _ _ _ _ _ _ _ _ _ _ _ _ _ _ _ p); [exact Ep|exact Hr|]. intros a Hm Hct. cbn [obj_relax p].
  change (p_d (set_params a st)) with (p_d st); change (p_par (set_params a st)) with a; rewrite Ed, Hm; cbn [member].
  apply chunked_pos; [lia|]. apply (chaotic_iterates (width sh) (nbrows M) A (dinv d) (relax_of sh M d) (offdep M)); auto; try apply Hg.
  - rewrite start_length. exact Hx.
  - lia.
Qed.
(** Every class with relaxation, any number of threads, any schedule: a solution is left alone *)
Theorem C69_solutions_stay :
  forall (F : Type) (O : SOps F) (R : Field F) ssqrt sabs slt inv p maxthr (M0 M : srmat F) E c st dbg nthr g dcpu dwall rt at_ dt it gz rhs x,
  let N := obj_dim p M in
  let A := matrix_of (pshape p) M in
  relaxationAvailable p = true -> usable p ->
  well_equipped inv p M0 -> lived ssqrt sabs inv p maxthr M0 M st -> c_bprec c = Some p -> 1 <= nthr ->
  is_inverse N (bdiag (width (pshape p)) A) E -> length rhs = N -> length x = N -> is_prod N A (start_of gz x) rhs ->
  nok (relax_local_blasted ssqrt slt dbg nthr g dcpu dwall rt at_ dt it gz M c st rhs x) (relaxed it (fun x' => x' = start_of gz x)).
Proof.
  intros F O R ssqrt sabs slt inv p maxthr M0 M E c st dbg nthr g dcpu dwall rt at_ dt it gz rhs x N A Hav Hu Heq Hl Ep Hn HE Hr Hx HP.
  destruct (lived_good ssqrt sabs inv p maxthr M0 M E st Heq Hl Hav HE) as (HM & d & dinv & Ed & Hdl & Hg & Hlev).
  apply (relax_local_ok _ _ _ _ _ _ _ _ _ _ _ _ _ _ _ _ _ p); [exact Ep|exact Hr|]. intros a Hm Hct.
  assert (length (start_of gz x) = N) as Hx' by (rewrite start_length; exact Hx).
  assert (forall A0 B0 (k : A0 -> nd B0) a Q, nok (nbind (nret a) k) Q -> nok (k a) Q) as Hret.
  { intros A0 B0 k a0 Q H. eapply nok_at; [exact H|]. apply nok_ret. reflexivity. }
  pose proof (fun chunk Hc => relax_fixed_main (width (pshape p)) (nbrows M) 0 A E dinv (fgs_of (pshape p) M) (bgs_of (pshape p) M) (relax_of (pshape p) M)
    (lowdep M) (updep M) (offdep M) (fun _ => nret d) HE ltac:(intros; apply nok_ret; exact Hg) ssqrt slt (replicate 0 s0) rhs (start_of gz x)
    eq_refl Hr Hx' HP (maxits a) chunk nthr Hc Hn) as H.
  destruct p as [sh|sh na ch|na ch|sh na ai ch|sh|sh i|sh i|i|bs]; try discriminate; cbn [obj_relax pshape usable] in *;
    change (p_d (set_params a st)) with (p_d st); change (p_par (set_params a st)) with a; rewrite Ed; cbn [member].
  - destruct (H 1 ltac:(lia)) as (_ & _ & _ & H4). specialize (H4 a (alloc (fr_v g 0) (nbrows M * width sh)) (alloc_length _ _)). apply Hret in H4. exact H4.
  - apply chunked_pos; [exact Hu|]. destruct (H (Z.to_nat ch) ltac:(lia)) as (_ & H2 & _). apply Hret in H2. exact H2.
  - apply chunked_pos; [exact Hu|]. destruct (H (Z.to_nat ch) ltac:(lia)) as (H1 & _). apply Hret in H1. exact H1.
  - destruct (H 1 ltac:(lia)) as (_ & _ & H3 & _). change (p_levels (set_params a st)) with (p_levels st).
    specialize (H3 _ (Hlev sh eq_refl)). apply Hret in H3. exact H3.
Qed.
(** The class "none" has no relaxation, yet the call succeeds: it does nothing and reports convergence *)
Theorem C69_none_reports_convergence_refuted :
  forall (F : Type) (O : SOps F) ssqrt slt bs (M : srmat F) c st dbg nthr g dcpu dwall rt at_ dt it gz rhs x,
  let p := PNone bs in
  c_bprec c = Some p -> length rhs = obj_dim p M ->
  relaxationAvailable p = false /\
  nok (relax_local_blasted ssqrt slt dbg nthr g dcpu dwall rt at_ dt it gz M c st rhs x) (relaxed it (fun x' => x' = start_of gz x)).
Proof.
  intros F O ssqrt slt bs M c st dbg nthr g dcpu dwall rt at_ dt it gz rhs x p Ep Hr. split; [reflexivity|].
  apply (relax_local_ok _ _ _ _ _ _ _ _ _ _ _ _ _ _ _ _ _ p); [exact Ep|exact Hr|]. intros a _ _. apply nok_ret. reflexivity.
Qed.
(** The other classes without relaxation throw through PETSc, and both vectors stay locked *)
Theorem C69_unavailable :
  forall (F : Type) (O : SOps F) ssqrt slt p (M : srmat F) c st dbg nthr g dcpu dwall rt at_ dt it gz rhs x out,
  (exists sh i, p = PIlu sh i \/ p = PLevelIlu sh i) \/ (exists na chunk, p = PCscBgs na chunk) ->
  c_bprec c = Some p -> length rhs = obj_dim p M ->
  relax_local_blasted ssqrt slt dbg nthr g dcpu dwall rt at_ dt it gz M c st rhs x (Ok out) ->
  relaxationAvailable p = false /\ (exists e, a_status out.1 = Exn e) /\ a_held out.1 = true /\ out.2 = None.
Proof.
  intros F O ssqrt slt p M c st dbg nthr g dcpu dwall rt at_ dt it gz rhs x out Hcls Ep Hr H.
  unfold relax_local_blasted in H. rewrite Ep, Hr, Nat.eqb_refl in H. cbn [negb] in H. rewrite andb_false_r in H.
  destruct H as (y & (z & Hz & ->) & H).
  assert (relaxationAvailable p = false /\ exists e, z = Throw e) as [Hav (e & ->)].
  { destruct Hcls as [(sh & i & [-> | ->])|(na & chunk & ->)]; cbn [obj_relax csc_bgs_apply_relax relaxationAvailable] in *;
      unfold csc_bgs_apply_relax, nlift in Hz; subst z; eauto. }
  cbn [status_of] in H. injection H as ->. eauto.
Qed.

(** ** C70: changes of the matrix after set-up *)
Definition copies (p : prec) : Prop :=
  match p with PNone _ | PJacobi _ | PCscBgs _ _ | PIlu _ _ | PLevelIlu _ _ => True | _ => False end.
(** these classes use what compute() saw: the values in the matrix at the time of the application do not matter *)
Theorem C70_snapshot :
  forall (F : Type) (O : SOps F) p nthr g (M M1 : srmat F) st r z o,
  copies p -> same_pattern M M1 -> obj_apply nthr g p M st r z o <-> obj_apply nthr g p M1 st r z o.
Proof.
  intros F O p nthr g M M1 st r z o Hc Hp. destruct M, M1, Hp as (E1 & E2 & E3 & E4 & E5). cbn in E1, E2, E3, E4, E5. subst.
  destruct p as [sh|sh na ch|na ch|sh na ai ch|sh|sh i|sh i|i|bs]; try destruct Hc; try destruct sh as [|bs so]; reflexivity.
Qed.
