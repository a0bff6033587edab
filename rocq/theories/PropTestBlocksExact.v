(** * PropTestBlocksExact: property C114, exact solution with block factors *)
From Coq Require Import ZArith Ascii String QArith.Qcanon.
From Verif Require Import Base Alg Norms SRMatrix Nd Reduction Matvec MatvecFacts SymSpec SymFacts SolveSpec BicgSpec Coo CooSpec CooFacts CooRead PropCoo PropCooRead MMText PropMMText FileMat.
From Verif Require Import Solvers SolversFacts GcrFacts BicgFacts PropSolvers PropGcr PropBicg.
From Verif Require Import Kernels KernelFacts IluApply IluApplyFacts IluApplyProofs TriSpec TriFacts
  IluApplyMain IluPattern IluFactor IluFactorProofs IluFactorMain Sgs SgsFacts SgsProofs SgsForms SgsMain Memory Levels PropLevels PropIluInit
  PropIluFactor PropIluApply PropIluSolve Factory Petsc Objects ObjFacts ObjHistory ObjAlg ObjTotal ObjShape ScaledLu PropSgs PropObjects Inst PropObjectsEx PropScaleIlu PropLinear PropLinearEx PropKrylov PoissonSetup PropPoissonSetup TestSolve.
From Verif Require Import PropBlockOrder PropTestSolve PropSessionMoreEx PropTestBlocks.
Open Scope nat_scope.

#[local] Instance ascii_eq : EqDecision ascii := ascii_dec.
#[local] Instance string_eq : EqDecision string := string_dec.

(** ** Specification *)
(** elimination by blocks creates no other blocks *)
Definition fills_no_block {F} (bs N : nat) (body : list (Z * Z * F)) : Prop :=
  forall i j k, i < N -> j < N -> k < i -> k < j -> block_place bs body i k -> block_place bs body k j -> block_place bs body i j.
(** [lu] holds the block factors of [A] (the identity blocks of the first are left out); each pivot block has an inverse *)
Definition block_factored {F} {O : SOps F} (bs N : nat) (body : list (Z * Z * F)) (A lu : nat -> nat -> F) : Prop :=
  (forall I J, I < N * bs -> J < N * bs -> ~ block_place bs body (I / bs) (J / bs) -> lu I J = s0) /\
  (forall k, k < N -> exists Y, is_inverse bs (fun p q => lu (k * bs + p) (k * bs + q)) Y) /\
  forall I J, I < N * bs -> J < N * bs -> bsum (N * bs) (fun K => bunitlower bs lu I K * bupper bs lu lu K J)%s = A I J.

Section Facts.
  Context {F : Type} {O : SOps F} {R : Field F}.
  Definition unlay (so : storage) (bs m : nat) : nat * nat := match so with RowMajor => (m / bs, m mod bs) | ColMajor => (m mod bs, m / bs) end.
  Lemma unlay_lay so bs p q : p < bs -> q < bs -> unlay so bs (lay so bs p q) = (p, q) /\ lay so bs p q < bs * bs.
  Proof.
    intros Hp Hq. destruct so; cbn [unlay lay]; (split; [|nia]); rewrite Nat.div_add_l by lia; rewrite (Nat.div_small _ bs) by lia;
      rewrite (Nat.add_comm (_ * bs)), Nat.mod_add by lia; rewrite Nat.mod_small by lia; f_equal; lia.
  Qed.
  Lemma file_block_factors so bs N body (M : srmat F) A lu : 0 < bs -> nbrows M = N -> wf_mat M -> (forall i j, i < N * bs -> j < N * bs -> bdense so bs M i j = A i j) ->
    (forall i j, i < N -> j < N -> pos M i j <> None <-> block_place bs body i j) -> block_factored bs N body A lu -> exists L U, incomplete_factors (Blocks bs so) M L U.
  Proof.
    intros Hbs Hn (Hw & _ & _) HA Hpos (Hz & Hd & Hlu).
    pose (x := (fun m => let '(p, q) := unlay so bs (m mod (bs * bs)) in lu (rowof M (m / (bs * bs)) * bs + p) (col M (m / (bs * bs)) * bs + q)) <$> seq 0 (nnz M * (bs * bs))).
    assert (forall I, I < N * bs -> I / bs < N /\ I mod bs < bs /\ I / bs * bs + I mod bs = I) as Hdm.
    { intros I HI. split; [apply Nat.div_lt_upper_bound; lia|]. split; [apply Nat.mod_upper_bound; lia|]. pose proof (Nat.div_mod I bs ltac:(lia)). lia. }
    assert (forall I J, I < N * bs -> J < N * bs -> bentry so bs M x I J = lu I J) as Hx.
    { intros I J HI HJ. destruct (Hdm I HI) as (I1 & I2 & I3), (Hdm J HJ) as (J1 & J2 & J3). unfold bentry. destruct (pos M (I / bs) (J / bs)) as [k|] eqn:Ek.
      - apply pos_Some in Ek as [Hk Hc]; [|lia]. assert (k < nnz M) as Hkn by (eapply inrow_lt; [exact Hw|exact Hk]).
        destruct (unlay_lay so bs (I mod bs) (J mod bs) I2 J2) as [E1 E2].
        change (vat x (k * (bs * bs) + lay so bs (I mod bs) (J mod bs)) = lu I J). unfold x. rewrite vat_fmap_seq by nia.
        rewrite Nat.div_add_l by nia. rewrite (Nat.div_small _ (bs * bs)) by lia. rewrite (Nat.add_comm (k * (bs * bs))), Nat.mod_add by nia. rewrite Nat.mod_small by lia.
        rewrite E1, Nat.add_0_r, (rowof_inrow M _ k Hw Hk), Hc, I3, J3. reflexivity.
      - symmetry. apply Hz; [assumption..|]. intros Hp. apply Hpos in Hp; [|assumption..]. congruence. }
    eexists _, _. exists x. split; [unfold x; rewrite fmap_length, seq_length; reflexivity|].
    split; [reflexivity|]. split; [reflexivity|]. split.
    - intros I J HI HJ _. rewrite HA by lia. rewrite <- Hlu by lia. unfold mprod. rewrite Hn. apply bsum_ext. intros K HK.
      unfold bunitlower, bupper. rewrite !Hx by lia. reflexivity.
    - intros k Hk. destruct (Hd k ltac:(lia)) as (Y & HY). exists Y.
      assert (forall p q, p < bs -> q < bs -> dblock bs (bupper bs (bentry so bs M x) (bentry so bs M x)) k p q = lu (k * bs + p) (k * bs + q)) as E.
      { intros p q Hp Hq. unfold dblock, bupper. rewrite !(Nat.div_add_l k bs) by lia. rewrite !(Nat.div_small _ bs) by lia.
        rewrite decide_False, decide_True by lia. apply Hx; nia. }
      intros a b Ha Hb. destruct (HY a b Ha Hb) as [H1 H2]. split; [rewrite <- H1|rewrite <- H2]; unfold mprod; apply bsum_ext; intros m Hm; rewrite E by lia; reflexivity.
  Qed.
End Facts.

(** ** C114 *)
(** The block form of C111_solves. *)
Theorem C114_solves : forall (F : Type) (O : SOps F) (FF : Field F) (pos : F -> Prop) ssqrt sabs slt sle inv hundred real_text scan_real nthr
    gp gi gv gd gmem gpar ginfo bs (P : tparams F) N body A lu b mat_text b_text x_file,
  ordered pos -> understands real_text scan_real -> 1 <= nthr -> 0 < N -> supported bs P -> inverse_oracle (layout P) bs inv ->
  matrix_file real_text (N * bs) body mat_text -> proper (N * bs) body -> lists (N * bs) body A -> left_entries_first bs body ->
  fills_no_block bs N body -> block_factored bs N body A lu ->
  vector_file real_text b b_text -> length b = N * bs -> nonzero (N * bs) b -> ordered_ilu nthr P -> one_step ssqrt slt P (N * bs) b ->
  (x_file = None \/ exists v text, x_file = Some (Some text) /\ vector_file real_text v text /\ length v = N * bs /\ is_prod (N * bs) A v b /\ slt (ssqrt s0) (tp_testtol P) = true) ->
  nok (test_solve ssqrt sabs slt sle inv hundred scan_real nthr gp gi gv gd gmem gpar ginfo bs P (Some mat_text) (Some b_text) x_file)
    (fun '(x, info) => length x = N * bs /\ iters info = 1 /\ is_prod (N * bs) A x b).
Proof.
  intros F O FF pos ssqrt sabs slt sle inv hundred real_text scan_real nthr gp gi gv gd gmem gpar ginfo bs P N body A lu b mat_text b_text x_file
    Hpos Hs Hthr HN Hsup Hinv Hmf Hprop HA Hleft Hfill Hlu Hbf Lb Hnz (Hp & Hfi & Hai & Hnb & Hna & Hch) Hone Hx.
  assert (1 < bs) as Hbs by (destruct Hsup as [[-> _]|[-> _]]; lia).
  unfold test_solve. eapply nok_bind; [apply (read_matrix real_text scan_real (N * bs) body mat_text Hs Hmf ltac:(nia) Hprop)|].
  intros c (Hc & Hr & Hcn & Hsrt & Hnd & Hel).
  rewrite (read_vector real_text scan_real b b_text Hs Hbf). eapply nok_bind; [apply nok_lift, ok_ret, eq_refl|]. intros ? <-.
  destruct (converted_blocks bs N body c A P (gp true) (gi true) (gv true) (gd true) Hsup HN Hc Hr Hcn Hsrt Hel Hprop HA Hleft) as (M & d & E & Hnr & (Hw & _) & Hndp & Hv & _ & HM & _).
  destruct (converted_blocks bs N body c A P (gp false) (gi false) (gv false) (gd false) Hsup HN Hc Hr Hcn Hsrt Hel Hprop HA Hleft) as (Mc & d' & E' & Hnr' & Hmat & _ & Hv' & Hend & HMc & Hpc).
  rewrite E. eapply nok_bind; [apply nok_lift, ok_ret, eq_refl|]. intros ? <-. rewrite E'. eapply nok_bind; [apply nok_lift, ok_ret, eq_refl|]. intros ? <-.
  cbv zeta. rewrite (proj2 (Nat.eqb_neq bs 1)) by lia. fold (layout P). rewrite Hnr.
  assert (exists i, ((let! opts := test_settings ginfo bs P in create_preconditioner opts) = Ok (Some (PIlu (Blocks bs (layout P)) i))) /\
    i_nbuild i = tp_nbuild P /\ i_napply i = tp_napply P /\ i_scale i = false /\ i_chunk i = tp_chunk P /\ i_ainit i <> INIT_A_NONE /\
    (i_tfactor i = false \/ nthr = 1) /\ (i_tapply i = false \/ nthr = 1)) as (i & Emade & Hi1 & Hi2 & Hi3 & Hi4 & Hi5 & Hi6 & Hi7).
  { unfold test_settings.
    assert (exists ai, getApplyInitFromString (tp_ainit P) = Ok ai /\ ai <> INIT_A_NONE) as (ai & Eai & Hane).
    { rewrite !elem_of_cons, elem_of_nil in Hai. destruct Hai as [-> |[-> |[]]]; eexists; (split; [reflexivity|discriminate]). }
    assert (exists fi, getFactInitFromString (tp_finit P) = Ok fi) as (fi & Efi).
    { rewrite !elem_of_cons, elem_of_nil in Hfi. destruct Hfi as [-> |[-> |[-> |[-> |[]]]]]; eexists; reflexivity. }
    rewrite Eai, Efi. fold (layout P).
    assert (forall opts, st_bs opts = Z.of_nat bs -> st_blockstorage opts = Layout (layout P) -> create_preconditioner opts = create_srpreconditioner_of_type bs (layout P) opts) as Hcr.
    { intros opts E1 E2. unfold create_preconditioner. rewrite E1, E2. unfold layout.
      destruct Hsup as [[-> Ho]|[-> Ho]]; [rewrite !elem_of_cons, elem_of_nil in Ho; destruct Ho as [Ho|[Ho|[]]]|]; rewrite Ho; reflexivity. }
    destruct Hp as [-> |(-> & Hp)]; [|rewrite !elem_of_cons, elem_of_nil in Hp; destruct Hp as [-> |[-> |[-> |[]]]]];
      (eexists; split; [cbn [bind]; match goal with |- context [solverTypeFromString ?s] => let v := eval vm_compute in (solverTypeFromString s) in change (solverTypeFromString s) with v end;
        cbn [bind]; rewrite Hcr by reflexivity; reflexivity|cbn; auto 10]). }
  destruct (test_settings ginfo bs P) as [opts| | |]; try discriminate. cbn [bind] in Emade.
  eapply nok_bind; [apply nok_lift, ok_ret, eq_refl|]. intros ? <-. rewrite Emade. eapply nok_bind; [apply nok_lift, ok_ret, eq_refl|]. intros ? <-. cbn iota beta.
  set (p := PIlu (Blocks bs (layout P)) i) in *.
  assert (well_equipped inv p Mc) as Heq by (split; [exact Hmat|]; split; [discriminate|]; split; [split; [lia|exact Hinv]|exact Hend]).
  assert (usable p) as Hu by (split; [lia|]; split; [exact Hi5|]; discriminate).
  assert (same_pattern Mc Mc) as Hsame by (repeat split).
  assert (fits (pshape p) Mc) as Hf by (unfold wf_vals in Hv'; unfold ObjFacts.fits; cbn [pshape bsize p]; lia).
  eapply nok_bind; [apply (C68_calls_return F O ssqrt sabs inv p nthr Mc Heq Hu); [lia|exact Hsame|exact Hf]|]. intros [st info0] Hst.
  assert (obj_dim p Mc = N * bs) as Hdim by (unfold obj_dim; cbn [p pshape width]; lia).
  assert (no_fill Mc) as Hnf.
  { intros i0 j k Hi0 Hj Hk1 Hk2 P1 P2. apply Hpc; [lia|lia|]. apply Hpc in P1; [|lia..]. apply Hpc in P2; [|lia..]. apply (Hfill i0 j k); auto; lia. }
  destruct (C109_no_fill F O FF ssqrt sabs inv nthr nthr (Blocks bs (layout P)) i p Mc Mc (or_introl eq_refl) Hnf Heq Hsame Hf Hthr) as (K & HK & HL).
  { cbn. split; [split; [lia|]; split; [tauto|]; discriminate|]. split; [lia|]. split; [exact Hi5|exact Hi7]. }
  { split; [apply (file_block_factors (layout P) bs N body Mc A lu ltac:(lia) Hnr' Hmat HMc Hpc Hlu)|]. rewrite Hi3. discriminate. }
  { eauto. }
  rewrite Hdim in HK, HL. cbn [matrix_of] in HK.
  assert (is_inverse (N * bs) (bdense (layout P) bs M) K) as HKM.
  { intros a b' Ha Hb'. destruct (HK a b' Ha Hb') as [K1 K2]. split; [rewrite <- K1|rewrite <- K2]; unfold mprod; apply bsum_ext; intros k Hk; rewrite HM, HMc by lia; reflexivity. }
  eapply nok_bind.
  { apply (run_exact ssqrt slt sle hundred pos P (N * bs) (bdense (layout P) bs M) K); [exact Hpos| | |exact HKM|exact Lb|exact Hnz|exact Hone].
    - rewrite <- Hnr. apply (proj2 (C99_matrix_views F O field_ring M Hw Hndp) (layout P) bs Hv).
    - apply (used_prec ssqrt sabs inv nthr p Mc st (N * bs) K); auto; [discriminate|eauto]. }
  intros [x info] (Lx & Hit & Hsol).
  assert (is_prod (N * bs) A x b) as HxA by (intros k Hk; rewrite <- (Hsol k Hk); apply bsum_ext; intros j Hj; rewrite HM by lia; reflexivity).
  assert (check_solution ssqrt slt scan_real (N * bs) (tp_testtol P) x x_file = Ok Datatypes.tt) as ->.
  { destruct Hx as [-> |(v & text & -> & Hvf & Lv & Hvs & Ht)]; [reflexivity|]. eapply (check_exact ssqrt slt real_text); eauto.
    assert (is_inverse (N * bs) A K) as HKA by (intros a b' Ha Hb'; destruct (HKM a b' Ha Hb') as [K1 K2]; split; [rewrite <- K1|rewrite <- K2]; unfold mprod; apply bsum_ext; intros k Hk; rewrite HM by lia; reflexivity).
    intros k Hk. rewrite (inverse_apply (N * bs) A K (vat b) (vat x) HKA (fun i Hi => eq_sym (HxA i Hi)) k Hk).
    symmetry. apply (inverse_apply (N * bs) A K (vat b) (vat v) HKA (fun i Hi => eq_sym (Hvs i Hi)) k Hk). }
  eapply nok_bind; [apply nok_lift, ok_ret, eq_refl|]. intros ? <-. apply nok_ret. auto.
Qed.
(** ** A case: the matrix and the right-hand side of C114_case *)
Definition exBLu (i j : nat) : Qc := if decide (i = j) then q 2 else if decide (i = 4 /\ j = 0) then (q 1 / q 2)%Qc else q 0.
Example C114_solves_case : forall solver prec, solver ∈ ["bcgs"; "gcr"; "richardson"]%string -> prec ∈ ["seqilu0"; "ilu0"; "sfilu0"; "sapilu0"]%string ->
  fills_no_block 4 2 exBBody /\ block_factored (O := Qc_ops) 4 2 exBBody exBA exBLu /\ nonzero (O := Qc_ops) (2 * 4) (replicate 8 (q 1)) /\
  ordered_ilu 1 (exBParams solver prec) /\ one_step (O := Qc_ops) qsqrt qlt (exBParams solver prec) (2 * 4) (replicate 8 (q 1)).
Proof.
  intros solver prec Hs Hp. split; [|split; [|split; [|split]]].
  - intros i j k Hi Hj Hk1 Hk2 _ _. assert (i = 1 /\ j = 1) as [-> ->] by lia. exists 4, 4. split; [apply exB_place; left; lia|]. split; reflexivity.
  - split; [|split].
    + intros I J HI HJ H. unfold exBLu. rewrite decide_False, decide_False; [reflexivity| |].
      * intros [-> ->]. apply H. exists 4, 0. split; [apply exB_place; auto|auto].
      * intros ->. apply H. exists J, J. split; [apply exB_place; left; cbn in HJ; auto|auto].
    + intros k Hk. exists (fun p r => if decide (p = r) then (q 1 / q 2)%Qc else q 0). intros a b Ha Hb.
      destruct k as [|[|]]; [| |lia]; (destruct a as [|[|[|[|]]]]; [| | | |lia]); (destruct b as [|[|[|[|]]]]; [| | | |lia]); split; apply Qc_is_canon; vm_compute; reflexivity.
    + intros I J HI HJ. cbn in HI, HJ. do 8 (destruct I as [|I]; [do 8 (destruct J as [|J]; [apply Qc_is_canon; vm_compute; reflexivity|]); lia|]). lia.
  - exists 0. split; [cbn; lia|discriminate].
  - split; [rewrite elem_of_cons in Hp; cbn; tauto|]. split; [in_list|]. split; [in_list|cbn; lia].
  - split; [vm_compute; reflexivity|]. cbn [tp_solver tp_maxiter tp_restart tp_tol exBParams].
    rewrite !elem_of_cons, elem_of_nil in Hs. destruct Hs as [-> |[-> |[-> |[]]]]; [left|right; left|right; right]; (split; [reflexivity|]); try lia.
    split; [lia|vm_compute; reflexivity].
Qed.

Print Assumptions C114_solves.
