(** * PropTestBlocks: property C114 (the solver driver with matrices of dense blocks) *)
From Coq Require Import ZArith Ascii String QArith.Qcanon.
From Verif Require Import Base Alg Norms SRMatrix Nd Reduction Matvec MatvecFacts SymSpec SymFacts SolveSpec BicgSpec Coo CooSpec CooFacts CooRead PropCoo PropCooRead MMText PropMMText FileMat.
From Verif Require Import Solvers SolversFacts GcrFacts BicgFacts PropSolvers PropGcr PropBicg.
From Verif Require Import Kernels KernelFacts IluApply IluApplyFacts IluApplyProofs TriSpec TriFacts
  IluApplyMain IluPattern IluFactor IluFactorProofs IluFactorMain Sgs SgsFacts SgsProofs SgsForms SgsMain Memory Levels PropLevels PropIluInit
  PropIluFactor PropIluApply PropIluSolve Factory Petsc Objects ObjFacts ObjHistory ObjAlg ObjTotal ObjShape ScaledLu PropSgs PropObjects Inst PropObjectsEx PropScaleIlu PropLinear PropLinearEx PropKrylov PoissonSetup PropPoissonSetup TestSolve.
From Verif Require Import PropBlockOrder PropTestSolve PropSessionMoreEx.
Open Scope nat_scope.

#[local] Instance ascii_eq : EqDecision ascii := ascii_dec.
#[local] Instance string_eq : EqDecision string := string_dec.

(** ** Specification *)
(** the block in block row [i] and block column [j] has an entry *)
Definition block_place {F} (bs : nat) (body : list (Z * Z * F)) (i j : nat) : Prop := exists I J, place body I J /\ I / bs = i /\ J / bs = j.
(** wherever a block has an entry, each block to its left in the same block row has one in the same row or above *)
Definition left_entries_first {F} (bs : nat) (body : list (Z * Z * F)) : Prop :=
  forall I J j, place body I J -> j < J / bs -> block_place bs body (I / bs) j -> exists I' J', place body I' J' /\ I' / bs = I / bs /\ J' / bs = j /\ I' <= I.
(** the layouts of blocks for which the library offers preconditioners *)
Definition supported (bs : nat) {F} (P : tparams F) : Prop :=
  bs = 4 /\ tp_order P ∈ ["rowmajor"; "colmajor"]%string \/ bs = 5 /\ tp_order P = "colmajor"%string.
Definition layout {F} (P : tparams F) : storage := if String.eqb (tp_order P) "rowmajor" then RowMajor else ColMajor.
Definition block_names : list string := ["jacobi"; "gs"; "sgs"; "none"; "ilu0"; "seqilu0"; "sfilu0"; "sapilu0"; "level_sgs"; "async_level_ilu0"]%string.
(** a block preconditioner that the library offers, with settings that it implements *)
Definition offered_blocks (bs : nat) {F} (P : tparams F) (N : nat) (body : list (Z * Z * F)) : Prop :=
  tp_prec P ∈ block_names /\ (1 <= tp_chunk P)%Z /\ tp_finit P ∈ ["init_zero"; "init_original"; "init_sgs"; "init_none"]%string /\
  tp_ainit P ∈ ["init_zero"; "init_jacobi"; "init_none"]%string /\ (tp_prec P ∈ ilu_names -> tp_ainit P <> "init_none"%string) /\
  (tp_prec P ∈ level_names -> forall i j, i < N -> j < N -> block_place bs body i j -> block_place bs body j i).

(** ** Facts *)
Section Facts.
  Context {F : Type} {O : SOps F}.
  Lemma converted_blocks bs N body (c : coo F) A (P : tparams F) gp gi gv gd : supported bs P -> 0 < N -> coo_ok c -> nrows c = N * bs -> ncols c = N * bs -> coo_sorted c ->
    (forall i j v, Entry i j v ∈ entries c <-> (Z.of_nat i + 1, Z.of_nat j + 1, v)%Z ∈ body) -> proper (N * bs) body -> lists (N * bs) body A -> left_entries_first bs body ->
    exists M d, getSRMatrixFromCOO bs (tp_order P) gp gi gv gd c = Ok (M, d) /\ nbrows M = N /\ wf_mat M /\ wf_nodup M /\ wf_vals bs M /\ wf_end M /\
      (forall i j, i < N * bs -> j < N * bs -> bdense (layout P) bs M i j = A i j) /\ (forall i j, i < N -> j < N -> pos M i j <> None <-> block_place bs body i j).
  Proof.
    intros Hsup HN Hc Hr Hcn Hsrt Hel (Hin & Hdup & Hdiag) HA Hleft.
    assert (0 < bs /\ bs <> 1) as [Hbs Hb1] by (destruct Hsup as [[-> _]|[-> _]]; lia).
    assert (getSRMatrixFromCOO bs (tp_order P) gp gi gv gd c = convertToBSR (layout P) bs gp gi gv gd c) as ->.
    { destruct (C05_by_name F O c bs (tp_order P) gp gi gv gd Hb1) as (E1 & E2 & _). unfold layout.
      destruct Hsup as [[_ Ho]|[_ Ho]]; [rewrite !elem_of_cons, elem_of_nil in Ho; destruct Ho as [Ho|[Ho|[]]]|]; [rewrite (E1 Ho)|rewrite (E2 Ho)..]; rewrite Ho; reflexivity. }
    assert (forall i j, place body i j <-> exists e, e ∈ entries c /\ rowind e = i /\ colind e = j) as Hpl.
    { intros i j. split.
      - intros (v & Hv). apply Hel in Hv. exists (Entry i j v). auto.
      - intros ([i' j' v] & He & Ei & Ej). cbn in Ei, Ej. subst. exists v. apply Hel, He. }
    assert (entries c = [] \/ exists e, e ∈ entries c /\ rowind e < bs) as Hfirst.
    { right. destruct (proj1 (Hpl 0 0) (Hdiag 0 ltac:(nia))) as (e & He & E & _). exists e. split; [exact He|lia]. }
    destruct (C05_block_rows F O c (layout P) bs N gp gi gv gd Hc Hbs Hr Hcn Hfirst) as (M & d & E & Hn & Hw & Hend & Hnd & Hv & _ & _ & Hent & Hpos & _ & Hdg).
    destruct (C112_sorted F O c (layout P) bs N gp gi gv gd Hc Hbs Hr Hcn Hfirst Hsrt) as (M' & d' & E' & Hiff). rewrite E in E'. injection E' as <- <-.
    assert (forall i j, i < N -> j < N -> pos M i j <> None <-> block_place bs body i j) as Hbp.
    { intros i j Hi Hj. rewrite (Hpos i j Hi Hj). split.
      - intros (e & He & Ei & Ej). exists (rowind e), (colind e). split; [apply Hpl; eauto|auto].
      - intros (I & J & HIJ & Ei & Ej). apply Hpl in HIJ as (e & He & <- & <-). eauto. }
    exists M, d. split; [exact E|]. split; [exact Hn|]. split.
    { split; [exact Hw|]. split.
      - apply Hdg. intros i Hi. apply Hbp; [exact Hi..|]. exists (i * bs), (i * bs). split; [apply Hdiag; nia|]. rewrite Nat.div_mul by lia. auto.
      - apply Hiff. intros e2 j1 He2 Hj1 (e & He & R1 & C1).
        destruct (Hleft (rowind e2) (colind e2) j1) as (I' & J' & HIJ & Ei & Ej & Hle); [apply Hpl; eauto|exact Hj1| |].
        + exists (rowind e), (colind e). split; [apply Hpl; eauto|auto].
        + apply Hpl in HIJ as (e1 & He1 & <- & <-). exists e1. split; [exact He1|]. split; [split; assumption|exact Hle]. }
    split; [exact Hnd|]. split; [exact Hv|]. split; [exact Hend|]. split; [|exact Hbp].
    intros i j Hi Hj. destruct (Hent i j Hi Hj) as [Hx|[Hx Hno]].
    - symmetry. apply (HA i j Hi Hj), Hel, Hx.
    - rewrite Hx. symmetry. apply (HA i j Hi Hj). intros (v & Hv'). apply (Hno v), Hel, Hv'.
  Qed.
  Variable inv : list F -> list F.
  Lemma made_block_prec ginfo bs (P : tparams F) N body (M : srmat F) : supported bs P -> inverse_oracle (layout P) bs inv ->
    nbrows M = N -> wf_mat M -> wf_vals bs M -> wf_end M ->
    (forall i j, i < N -> j < N -> pos M i j <> None <-> block_place bs body i j) -> offered_blocks bs P N body ->
    exists opts p, test_settings ginfo bs P = Ok opts /\ create_preconditioner opts = Ok (Some p) /\ well_equipped inv p M /\ usable p /\
      fits (pshape p) M /\ obj_dim p M = N * bs /\ (forall na c, p <> PCscBgs na c).
  Proof.
    intros Hsup Hinv Hn Hmat Hv Hend Hpos (Hp & Hch & Hfi & Hai & Hilu & Hlev). unfold test_settings.
    assert (exists ai, getApplyInitFromString (tp_ainit P) = Ok ai /\ (tp_ainit P <> "init_none"%string -> ai <> INIT_A_NONE)) as (ai & Eai & Hane).
    { rewrite !elem_of_cons, elem_of_nil in Hai. destruct Hai as [-> |[-> |[-> |[]]]]; eexists; (split; [reflexivity|]); first [discriminate|congruence]. }
    assert (exists fi, getFactInitFromString (tp_finit P) = Ok fi) as (fi & Efi).
    { rewrite !elem_of_cons, elem_of_nil in Hfi. destruct Hfi as [-> |[-> |[-> |[-> |[]]]]]; eexists; reflexivity. }
    rewrite Eai, Efi. fold (layout P).
    assert (sym_pattern M \/ tp_prec P ∉ level_names) as Hsym.
    { destruct (decide (tp_prec P ∈ level_names)) as [H|H]; [left|right; exact H]. intros i j Hi Hj Hpi. apply Hpos; [lia..|]. apply Hlev; [exact H|lia|lia|]. apply Hpos; [lia..|exact Hpi]. }
    assert (fits (Blocks bs (layout P)) M) as Hf by (unfold wf_vals in Hv; unfold ObjFacts.fits; cbn [bsize]; lia).
    assert (1 <= bs) as Hbs by (destruct Hsup as [[-> _]|[-> _]]; lia).
    assert (forall opts, st_bs opts = Z.of_nat bs -> st_blockstorage opts = Layout (layout P) -> create_preconditioner opts = create_srpreconditioner_of_type bs (layout P) opts) as Hcr.
    { intros opts E1 E2. unfold create_preconditioner. rewrite E1, E2. unfold layout.
      destruct Hsup as [[-> Ho]|[-> Ho]]; [rewrite !elem_of_cons, elem_of_nil in Ho; destruct Ho as [Ho|[Ho|[]]]|]; rewrite Ho; reflexivity. }
    unfold block_names, ilu_names, level_names in *. rewrite !elem_of_cons, elem_of_nil in Hp.
    destruct Hp as [E|[E|[E|[E|[E|[E|[E|[E|[E|[E|[]]]]]]]]]]]; rewrite E in *; cbn [bind]; eexists _, _; (split; [reflexivity|]);
      (split; [rewrite Hcr by reflexivity; reflexivity|]);
      (split; [split; [exact Hmat|]; (split; [cbn; first [discriminate|intros _; destruct Hsym as [Hsym|Hsym]; [exact Hsym|exfalso; apply Hsym; in_list]]|]); cbn; auto|]);
      (split; [cbn; repeat (first [split|exact Logic.I|lia|(apply Hane, Hilu; in_list)|discriminate])|]); (split; [exact Hf|]);
      (split; [unfold obj_dim; cbn; lia|]); intros na c Hq; discriminate.
  Qed.
End Facts.

(** ** C114 *)
(** The block form of C111_reports: with any preconditioner that the library offers for the blocks and any number of threads, the driver ends normally;
    the norm that BiCGSTAB or GCR reports is that of the residual of the returned vector for the matrix and the right-hand side in the files. *)
Theorem C114_reports : forall (F : Type) (O : SOps F) (RR : CRing F) ssqrt sabs slt sle inv hundred real_text scan_real nthr
    gp gi gv gd gmem gpar ginfo bs (P : tparams F) N body A b mat_text b_text,
  understands real_text scan_real -> 1 <= nthr -> 0 < N -> supported bs P -> inverse_oracle (layout P) bs inv ->
  matrix_file real_text (N * bs) body mat_text -> proper (N * bs) body -> lists (N * bs) body A -> left_entries_first bs body ->
  vector_file real_text b b_text -> length b = N * bs ->
  offered_blocks bs P N body -> 0 < tp_maxiter P -> (tp_solver P = "bcgs"%string \/ tp_solver P = "gcr"%string /\ 0 < tp_restart P) ->
  nok (test_solve ssqrt sabs slt sle inv hundred scan_real nthr gp gi gv gd gmem gpar ginfo bs P (Some mat_text) (Some b_text) None)
    (fun '(x, info) => reported ssqrt slt sle P (N * bs) A b x info).
Proof.
  intros F O RR ssqrt sabs slt sle inv hundred real_text scan_real nthr gp gi gv gd gmem gpar ginfo bs P N body A b mat_text b_text
    Hs Hthr HN Hsup Hinv Hmf Hprop HA Hleft Hbf Lb Hoff Hm Hsol.
  assert (1 < bs) as Hbs by (destruct Hsup as [[-> _]|[-> _]]; lia).
  unfold test_solve. eapply nok_bind; [apply (read_matrix real_text scan_real (N * bs) body mat_text Hs Hmf ltac:(nia) Hprop)|].
  intros c (Hc & Hr & Hcn & Hsrt & _ & Hel).
  rewrite (read_vector real_text scan_real b b_text Hs Hbf). eapply nok_bind; [apply nok_lift, ok_ret, eq_refl|]. intros ? <-.
  destruct (converted_blocks bs N body c A P (gp true) (gi true) (gv true) (gd true) Hsup HN Hc Hr Hcn Hsrt Hel Hprop HA Hleft) as (M & d & E & Hnr & (Hw & _) & Hnd & Hv & _ & HM & _).
  destruct (converted_blocks bs N body c A P (gp false) (gi false) (gv false) (gd false) Hsup HN Hc Hr Hcn Hsrt Hel Hprop HA Hleft) as (Mc & d' & E' & Hnr' & Hmat & _ & Hv' & Hend & _ & Hpc).
  rewrite E. eapply nok_bind; [apply nok_lift, ok_ret, eq_refl|]. intros ? <-. rewrite E'. eapply nok_bind; [apply nok_lift, ok_ret, eq_refl|]. intros ? <-.
  cbv zeta. rewrite (proj2 (Nat.eqb_neq bs 1)) by lia. fold (layout P). rewrite Hnr.
  destruct (made_block_prec inv ginfo bs P N body Mc Hsup Hinv Hnr' Hmat Hv' Hend Hpc Hoff) as (opts & p & Eo & Ep & Heq & Hu & Hf & Hdim & Hcsc).
  rewrite Eo. eapply nok_bind; [apply nok_lift, ok_ret, eq_refl|]. intros ? <-. rewrite Ep. eapply nok_bind; [apply nok_lift, ok_ret, eq_refl|]. intros ? <-. cbn iota beta.
  assert (same_pattern Mc Mc) as Hsame by (repeat split).
  eapply nok_bind; [apply (C68_calls_return F O ssqrt sabs inv p nthr Mc Heq Hu); [lia|exact Hsame|exact Hf]|]. intros [st info0] Hst.
  eapply nok_bind.
  { apply (run_reported ssqrt slt sle hundred P (N * bs) (bdense (layout P) bs M)); [| |exact Lb|exact Hm|exact Hsol].
    - rewrite <- Hnr. apply (proj2 (C99_matrix_views F O RR M Hw Hnd) (layout P) bs Hv).
    - rewrite <- Hdim. apply (used_object ssqrt sabs inv); auto; [|eauto]. intros na c0 Hq. destruct (Hcsc _ _ Hq). }
  intros [x info] (Lx & H1 & H2 & H3). cbn [check_solution]. eapply nok_bind; [apply nok_lift, ok_ret, eq_refl|]. intros ? <-. apply nok_ret.
  split; [exact Lx|]. split; [exact H1|]. split; [|exact H3]. rewrite H2. do 2 f_equal. unfold resid. apply list_fmap_ext. intros i k Hk.
  apply lookup_seq in Hk as [-> Hk]. f_equal. apply bsum_ext. intros j Hj. cbn. rewrite HM by lia. reflexivity.
Qed.

(** Every other choice is refused: with a block size above one that the library does not support for the layout, an unknown name of a layout, or a
    preconditioner without a block form, the driver never ends normally, whatever the files contain. *)
Theorem C114_refused : forall (F : Type) (O : SOps F) ssqrt sabs slt sle inv hundred scan_real nthr gp gi gv gd gmem gpar ginfo bs (P : tparams F) mat_file b_file x_file out,
  bs <> 1 -> ~ (supported bs P /\ tp_prec P ∈ block_names) ->
  ~ test_solve ssqrt sabs slt sle inv hundred scan_real nthr gp gi gv gd gmem gpar ginfo bs P mat_file b_file x_file (Ok out).
Proof.
  intros F O ssqrt sabs slt sle inv hundred scan_real nthr gp gi gv gd gmem gpar ginfo bs P mat_file b_file x_file out Hb1 Hno H. unfold test_solve in H.
  apply nbind_Ok in H as (c & _ & H). apply nbind_Ok in H as (b & _ & H). apply nbind_Ok in H as ([M d] & EM & H). apply nbind_Ok in H as ([Mc d'] & _ & H). cbv zeta in H.
  apply nbind_Ok in H as (opts & Eo & H). apply nbind_Ok in H as (made & Ep & _).
  unfold nlift in EM, Eo, Ep. symmetry in EM, Eo, Ep.
  assert (tp_order P = "rowmajor"%string \/ tp_order P = "colmajor"%string) as Hord.
  { destruct (C05_by_name F O c bs (tp_order P) (gp true) (gi true) (gv true) (gd true) Hb1) as (_ & _ & Hth).
    destruct (decide (tp_order P = "rowmajor"%string)); [auto|]. destruct (decide (tp_order P = "colmajor"%string)); [auto|].
    destruct (Hth ltac:(assumption) ltac:(assumption)) as (msg & Et). congruence. }
  unfold test_settings in Eo. destruct (solverTypeFromString (tp_prec P)) as [ty| | |] eqn:Ety; try discriminate Eo. cbn [bind] in Eo.
  destruct (getFactInitFromString (tp_finit P)) as [fi| | |]; try discriminate Eo. cbn [bind] in Eo.
  destruct (getApplyInitFromString (tp_ainit P)) as [ai| | |]; try discriminate Eo. cbn [bind] in Eo. injection Eo as <-.
  unfold create_preconditioner in Ep. cbn [st_bs st_blockstorage] in Ep. rewrite (proj2 (Z.eqb_neq (Z.of_nat bs) 1)) in Ep by lia.
  assert (supported bs P /\ exists so, create_srpreconditioner_of_type bs so (Settings ty (Z.of_nat bs) (Layout (layout P)) (tp_chunk P) false (tp_nbuild P) (tp_napply P) fi ai ginfo) = Ok made) as [Hsup (so & Ek)].
  { destruct Hord as [Ho|Ho]; rewrite Ho in Ep; unfold supported, layout; rewrite Ho; cbn [String.eqb Ascii.eqb Bool.eqb] in Ep |- *;
      destruct (Z.eqb_spec (Z.of_nat bs) 4) as [E4|]; [| |  |destruct (Z.eqb_spec (Z.of_nat bs) 5) as [E5|]]; try discriminate Ep.
    - assert (bs = 4) as -> by lia. split; [left; split; [reflexivity|in_list]|eauto].
    - assert (bs = 4) as -> by lia. split; [left; split; [reflexivity|in_list]|eauto].
    - assert (bs = 5) as -> by lia. split; [right; auto|eauto]. }
  apply Hno. split; [exact Hsup|]. unfold solverTypeFromString in Ety.
  repeat match type of Ety with context [String.eqb (tp_prec P) ?s] => destruct (String.eqb_spec (tp_prec P) s) as [Et|_]; [rewrite Et; injection Ety as <-; first [discriminate Ek|unfold block_names; in_list]|] end.
  discriminate Ety.
Qed.
(** The block form of C111_checked: if the driver ends normally with a reference file, the returned vector is as close to the vector in that file as
    the limit says, in all places. *)
Theorem C114_checked : forall (F : Type) (O : SOps F) ssqrt sabs slt sle inv hundred real_text scan_real nthr
    gp gi gv gd gmem gpar ginfo bs (P : tparams F) N body A mat_text b_file v x_text x info,
  understands real_text scan_real -> 0 < N -> supported bs P -> matrix_file real_text (N * bs) body mat_text -> proper (N * bs) body -> lists (N * bs) body A ->
  left_entries_first bs body -> vector_file real_text v x_text ->
  test_solve ssqrt sabs slt sle inv hundred scan_real nthr gp gi gv gd gmem gpar ginfo bs P (Some mat_text) b_file (Some (Some x_text)) (Ok (x, info)) ->
  N * bs <= length x /\ N * bs <= length v /\ slt (ssqrt (bsum (N * bs) (fun i => (vat x i - vat v i) * (vat x i - vat v i)))%s) (tp_testtol P) = true.
Proof.
  intros F O ssqrt sabs slt sle inv hundred real_text scan_real nthr gp gi gv gd gmem gpar ginfo bs P N body A mat_text b_file v x_text x info Hs HN Hsup Hmf Hprop HA Hleft Hvf H.
  assert (1 < bs) as Hbs by (destruct Hsup as [[-> _]|[-> _]]; lia).
  unfold test_solve in H. apply nbind_Ok in H as (c & Hc & H). apply (nok_out _ _ _ (read_matrix real_text scan_real (N * bs) body mat_text Hs Hmf ltac:(nia) Hprop)) in Hc as (Hc & Hr & Hcn & Hsrt & Hnd & Hel).
  apply nbind_Ok in H as (b & _ & H). apply nbind_Ok in H as ([M d] & EM & H). apply nbind_Ok in H as ([Mc d'] & _ & H). cbv zeta in H.
  apply nbind_Ok in H as (opts & _ & H). apply nbind_Ok in H as ([p|] & _ & H); [|discriminate].
  apply nbind_Ok in H as ([st i0] & _ & H). apply nbind_Ok in H as ([x' info'] & _ & H). apply nbind_Ok in H as ([] & H & Hret).
  apply nret_Ok in Hret. injection Hret as -> ->.
  destruct (converted_blocks bs N body c A P (gp true) (gi true) (gv true) (gd true) Hsup HN Hc Hr Hcn Hsrt Hel Hprop HA Hleft) as (M' & d2 & E & Hnr & _).
  unfold nlift in EM. rewrite E in EM. injection EM as -> _.
  unfold nlift, check_solution in H. rewrite Hnr, (read_vector real_text scan_real v x_text Hs Hvf) in H. cbn [bind] in H.
  destruct (sum_squares (N * bs) x' v) as [[(H1 & H2) E1]|E1]; rewrite E1 in H; cbn [bind] in H; [|discriminate].
  split; [exact H1|]. split; [exact H2|]. destruct (slt _ _) eqn:Es in H; [exact Es|discriminate].
Qed.

(** ** A case: two block rows of four rows, a full diagonal and one entry in the block left of the second diagonal block *)
Definition exBMatText : string := lines ["%%MatrixMarket matrix coordinate real general"; "8 8 9"; "1 1 2"; "8 8 2"; "2 2 2"; "7 7 2"; "3 3 2"; "6 6 2"; "4 4 2"; "5 5 2"; "5 1 1"]%string.
Definition exBBText : string := lines ["%%MatrixMarket matrix array real general"; "8 1"; "1"; "1"; "1"; "1"; "1"; "1"; "1"; "1"]%string.
Definition exBBody : list (Z * Z * Qc) := [(1, 1, q 2); (8, 8, q 2); (2, 2, q 2); (7, 7, q 2); (3, 3, q 2); (6, 6, q 2); (4, 4, q 2); (5, 5, q 2); (5, 1, q 1)]%Z.
Definition exBA (i j : nat) : Qc := if decide (i = j) then q 2 else if decide (i = 4 /\ j = 0) then q 1 else q 0.
Definition exBParams (solver prec : string) : tparams Qc := TParams solver prec "init_original" "init_jacobi" "colmajor" 1 1 64 10 5 (q 1 / q 10)%Qc (q 1 / q 10)%Qc.
Lemma exB_place i j : place exBBody i j <-> i < 8 /\ i = j \/ i = 4 /\ j = 0.
Proof.
  unfold place, exBBody. split.
  - intros (v & Hv). rewrite !elem_of_cons, elem_of_nil in Hv. repeat (destruct Hv as [Hv|Hv]; [injection Hv as H1 H2 _; lia|]). contradiction.
  - intros [[Hi <-]|[-> ->]]; [|eexists; in_list].
    do 8 (destruct i as [|i]; [eexists; in_list|]). lia.
Qed.
Example C114_case : forall solver prec, prec ∈ ["jacobi"; "gs"; "sgs"; "none"; "ilu0"; "seqilu0"; "sfilu0"; "sapilu0"]%string ->
  matrix_file whole_text (2 * 4) exBBody exBMatText /\ proper (2 * 4) exBBody /\ lists (O := Qc_ops) (2 * 4) exBBody exBA /\ left_entries_first 4 exBBody /\
  vector_file whole_text (replicate 8 (q 1)) exBBText /\ supported 4 (exBParams solver prec) /\ offered_blocks 4 (exBParams solver prec) 2 exBBody /\
  inverse_oracle (O := Qc_ops) (layout (exBParams solver prec)) 4 inv4.
Proof.
  intros solver prec Hp. split; [|split; [|split; [|split; [|split; [|split; [|split]]]]]].
  - eexists "%%MatrixMarket matrix coordinate real general"%string, [], "8 8 9"%string, [], _. split; [reflexivity|].
    split; [split; [apply no_newline_dec; reflexivity|]; eexists; split; [reflexivity|]; split; [reflexivity|]; split; [discriminate|reflexivity]|].
    split; [constructor|]. split.
    { apply (sizes_dec _ ["8"; "8"; "9"]%string); [reflexivity|discriminate| |apply C07_words; reflexivity|].
      - intros n Hn. rewrite !elem_of_cons, elem_of_nil in Hn. cbn in Hn. destruct Hn as [-> |[-> |[-> |[]]]]; split; lia.
      - constructor; [exact (digit_int 8 _ eq_refl)|]. constructor; [exact (digit_int 8 _ eq_refl)|]. constructor; [exact (digit_int 9 _ eq_refl)|]. constructor. }
    split; [intros k Hk; apply elem_of_nil in Hk as []|].
    refine (bt_entry _ "" "1" " " "1" " " "2" _ _ _ _ _ _ _ _ _ _ (digit_int 1 _ eq_refl) (digit_int 1 _ eq_refl) (ex_intro _ (Z.of_nat 2) (conj (digit_int 2 _ eq_refl) eq_refl)) _ _ _ _);
    [apply blank_empty|apply blank1, in_blanks; reflexivity|apply blank1, in_blanks; reflexivity|discriminate|discriminate|unfold is_int; lia|unfold is_int; lia|apply end_blank, in_blanks; reflexivity|].
    ex_entry "8"%string "8"%string "2"%string 8 8 2. ex_entry "2"%string "2"%string "2"%string 2 2 2. ex_entry "7"%string "7"%string "2"%string 7 7 2.
    ex_entry "3"%string "3"%string "2"%string 3 3 2. ex_entry "6"%string "6"%string "2"%string 6 6 2. ex_entry "4"%string "4"%string "2"%string 4 4 2.
    ex_entry "5"%string "5"%string "2"%string 5 5 2. ex_entry "5"%string "1"%string "1"%string 5 1 1.
    apply bt_end.
  - split; [|split].
    + intros ri ci v H. unfold exBBody in H. rewrite !elem_of_cons, elem_of_nil in H. repeat (destruct H as [H|H]; [injection H as -> -> _; cbn; lia|]). contradiction.
    + intros k1 k2 t1 t2 H1 H2 E. do 9 (destruct k1 as [|k1]; [injection H1 as <-; do 9 (destruct k2 as [|k2]; [injection H2 as <-; try reflexivity; discriminate E|]); discriminate H2|]). discriminate H1.
    + intros i Hi. apply exB_place. left. cbn in Hi. auto.
  - intros i j Hi Hj. split.
    + intros v H. unfold exBBody in H. rewrite !elem_of_cons, elem_of_nil in H. unfold exBA.
      repeat (destruct H as [H|H]; [injection H as H1 H2 ->; first [rewrite decide_True by lia; reflexivity|rewrite decide_False, decide_True by lia; reflexivity]|]). contradiction.
    + intros H. rewrite exB_place in H. unfold exBA. rewrite decide_False, decide_False; [reflexivity|tauto|]. intros ->. apply H. cbn in Hj. auto.
  - intros I J j HIJ Hj (I1 & J1 & H1 & E1 & E2). apply exB_place in HIJ, H1. destruct HIJ as [[HI <-]|[-> ->]]; [|cbn in Hj; lia].
    destruct H1 as [[H1 <-]|[-> ->]]; [lia|]. exists 4, 0. split; [apply exB_place; auto|]. split; [exact E1|]. split; [exact E2|].
    do 4 (destruct I as [|I]; [discriminate E1|]). lia.
  - eexists "%%MatrixMarket matrix array real general"%string, [], "8 1"%string, [], _. split; [reflexivity|].
    split; [split; [apply no_newline_dec; reflexivity|]; eexists; split; [reflexivity|]; split; reflexivity|]. split; [constructor|].
    split.
    { apply (sizes_dec _ ["8"; "1"]%string); [reflexivity|discriminate| |apply C07_words; reflexivity|].
      - intros n Hn. rewrite !elem_of_cons, elem_of_nil in Hn. cbn in Hn. destruct Hn as [-> |[-> |[]]]; split; lia.
      - constructor; [exact (digit_int 8 _ eq_refl)|]. constructor; [exact (digit_int 1 _ eq_refl)|]. constructor. }
    split; [|unfold is_int; cbn; lia]. cbn [replicate].
    refine (vt_value _ "" "1" _ _ _ blank_empty (ex_intro _ _ (conj (digit_int 1 _ eq_refl) eq_refl)) _ _); [apply end_blank, in_blanks; reflexivity|].
    do 7 (refine (vt_value _ (String "010" "") "1" _ _ _ (blank1 "010" (in_blanks "010" eq_refl)) (ex_intro _ _ (conj (digit_int 1 _ eq_refl) eq_refl)) _ _); [apply end_blank, in_blanks; reflexivity|]).
    apply vt_end.
  - left. split; [reflexivity|]. in_list.
  - assert (prec ∈ block_names /\ prec ∉ level_names) as [H1 H2].
    { unfold block_names, level_names. rewrite !elem_of_cons, elem_of_nil in *. split; [tauto|]. intros [-> |[-> |[]]]; intuition discriminate. }
    split; [exact H1|]. split; [cbn; lia|]. split; [in_list|]. split; [in_list|]. split; [discriminate|]. intros H. destruct (H2 H).
  - exact inv4_oracle.
Qed.

Print Assumptions C114_reports.
Print Assumptions C114_refused.
Print Assumptions C114_checked.
