(** * PropObjectsEx: cases and counterexamples for PropObjects *)
From Coq Require Import ZArith QArith.Qcanon.
From Verif Require Import Base Alg Coo CooFacts ColMat PropColMat SRMatrix Async AsyncTheory AsyncSystem AsyncSweeps Nd Kernels KernelFacts IluApply IluApplyFacts IluApplyProofs TriSpec TriFacts
  IluApplyMain IluPattern IluFactor IluFactorMain Sgs SgsFacts SgsProofs SgsForms SgsMain Memory Levels PropLevels PropIluInit
  PropIluFactor PropIluApply PropIluSolve Factory Petsc Objects ObjFacts ObjHistory ObjAlg ObjTotal GsSweep PropSgs PropObjects Inst.
Open Scope nat_scope.

(** ** C70, the other classes *)
(** The Gauss-Seidel classes read the matrix again when they are applied. The matrix [[1 0] [a 1]], set up with a = 0 *)
Definition exT (a : Z) : srmat Qc := SR [0; 2; 4] [0; 1; 0; 1] (q <$> [1; 0; a; 1]%Z) [0; 3] [2; 4] 2 4 4.
Lemma exT_wf a : wf_mat (exT a).
Proof. split; [apply wfb_pat_ok|split; [apply wfb_diag_ok|apply wfb_sorted_ok]]; reflexivity. Qed.
Lemma exT_pattern a b : same_pattern (exT a) (exT b). Proof. repeat split. Qed.
Lemma exT_diag a i : i < 2 -> dense (exT a) i i = q 1.
Proof. destruct i as [|[|i]]; [..|lia]; intros _; reflexivity. Qed.
Lemma exT_inverse a : is_inverse (2 * 1) (bdiag 1 (dense (exT a))) (bdiag 1 ident).
Proof.
  intros i j Hi Hj. assert (i = 0 \/ i = 1) as Ei by lia. assert (j = 0 \/ j = 1) as Ej by lia.
  destruct Ei as [-> | ->], Ej as [-> | ->]; split; apply Qc_is_canon; vm_compute; reflexivity.
Qed.
Lemma exT_setup a d : length d = 2 -> nok (jacobi_setup (exT a) d) (fun d' => d' = [(q 1 / q 1)%Qc; (q 1 / q 1)%Qc]).
Proof.
  intros Hd. destruct (exT_wf a) as (Hw & Hdg & _). eapply nok_mono; [apply jacobi_setup_spec; auto|]. intros d' ->. reflexivity.
Qed.
Definition exT_state (p : prec) (pg : SolveParams Qc) (g : fresh) : @pstate Qc :=
  let one := (q 1 / q 1)%Qc in
  match p with
  | PSgs _ _ _ _ => PState (Some [one; one]) (Some [q 0; q 0]) ilu_new [] None pg
  | PLevelSgs _ => PState (Some [one; one]) (Some (alloc (fr_v g 1) 2)) ilu_new [0; 1; 2] None pg
  | _ => PState (Some [one; one]) None ilu_new [] None pg
  end.
Definition gs_classes : list prec := [PSgs Scalar 1 INIT_A_ZERO 1; PLevelSgs Scalar; PChaotic Scalar 1 1].
Lemma exT_lived ssqrt sabs inv p pg g a : p ∈ gs_classes -> well_equipped inv p (exT 0) /\ lived ssqrt sabs inv p 1 (exT 0) (exT a) (exT_state p pg g).
Proof.
  intros Hp. split.
  - split; [apply exT_wf|]. split; [|repeat (apply elem_of_cons in Hp as [-> |Hp]; [exact Logic.I|]); apply elem_of_nil in Hp as []].
    intros _ i j Hi Hj. cbn in Hi, Hj. assert (i = 0 \/ i = 1) as Ei by lia. assert (j = 0 \/ j = 1) as Ej by lia.
    destruct Ei as [-> | ->], Ej as [-> | ->]; vm_compute; discriminate.
  - assert (forall m : nd (@pstate Qc * option (Qc * Qc)), nok m (fun x => x = (exT_state p pg g, None)) -> m (Ok (exT_state p pg g, None))) as Hn.
    { intros m Hm. destruct (nok_exists _ _ Hm) as (x & Hx & ->). exact Hx. }
    refine (lv_first _ _ _ p 1 (exT 0) 1 g pg (exT a) _ None _ (exT_pattern 0 a) _ (Hn _ _)); [lia| |];
      repeat (apply elem_of_cons in Hp as [-> |Hp]; [try reflexivity|]); try (apply elem_of_nil in Hp as []).
    + cbn [obj_compute]. unfold sgs_compute, jacobi_compute. cbn [p_d p_y p_new setup_of].
      apply (nok_bind _ _ (fun st => st = exT_state (PSgs Scalar 1 INIT_A_ZERO 1) pg g)); [|intros st ->; apply nok_ret; reflexivity].
      apply (nok_bind _ _ (fun st => st = exT_state (PChaotic Scalar 1 1) pg g)).
      * eapply nok_bind; [apply exT_setup; reflexivity|]. intros d ->. apply nok_ret. reflexivity.
      * intros st ->. cbn [p_y exT_state]. eapply nok_bind; [apply fill_spec; reflexivity|]. intros y ->. apply nok_ret. reflexivity.
    + cbn [obj_compute]. unfold level_sgs_compute, jacobi_compute. cbn [p_d p_y p_new setup_of].
      apply (nok_bind _ _ (fun st => st = exT_state (PLevelSgs Scalar) pg g)); [|intros st ->; apply nok_ret; reflexivity].
      apply (nok_bind _ _ (fun st => st = PState None (Some (alloc (fr_v g 1) 2)) ilu_new [0; 1; 2] None pg)).
      * apply (nok_bind _ _ (fun l => l = [0; 1; 2])); [apply nok_lift; reflexivity|]. intros l ->. apply nok_ret. reflexivity.
      * intros st ->. cbn [p_d]. eapply nok_bind; [apply exT_setup; reflexivity|]. intros d ->. apply nok_ret. reflexivity.
    + cbn [obj_compute]. unfold jacobi_compute. cbn [p_d p_y p_new setup_of].
      apply (nok_bind _ _ (fun st => st = exT_state (PChaotic Scalar 1 1) pg g)); [|intros st ->; apply nok_ret; reflexivity].
      eapply nok_bind; [apply exT_setup; reflexivity|]. intros d ->. apply nok_ret. reflexivity.
Qed.
Lemma exT_apply p pg g g' z a : p ∈ gs_classes -> a = 0%Z \/ a = 1%Z -> length z = 2 ->
  nok (obj_apply 1 g' p (exT a) (exT_state p pg g) [q 1; q 1] z) (fun '(_, z') => z' = [q 1; q (1 - a)]).
Proof.
  intros Hp Ha Hz. set (id := fun b : list Qc => b).
  destruct (exT_lived (fun x => x) (fun x => x) id p pg g a Hp) as [Heq Hl].
  assert (forall p', p' = PSgs Scalar 1 INIT_A_ZERO 1 \/ p' = PLevelSgs Scalar -> well_equipped id p' (exT 0) ->
    lived (fun x => x) (fun x => x) id p' 1 (exT 0) (exT a) (exT_state p' pg g) ->
    nok (obj_apply 1 g' p' (exT a) (exT_state p' pg g) [q 1; q 1] z) (fun '(_, z') => z' = [q 1; q (1 - a)])) as Hsgs.
  { clear p Hp Heq Hl. intros p Hp Heq Hl.
    destruct (C68_sgs Qc _ _ (fun x => x) (fun x => x) id p Scalar (exT 0) (exT a) (bdiag 1 ident) [q 1; q 1])
      as (x & Hx & _ & Hu & Hrun); try assumption.
    - destruct Hp as [-> | ->]; [left; do 3 eexists; split; [reflexivity|lia]|right; reflexivity].
    - apply exT_pattern.
    - reflexivity.
    - destruct Hp as [-> | ->]; apply exT_inverse.
    - destruct Hp as [-> | ->]; reflexivity.
    - rewrite (Hu [q 1; q (1 - a)]); [apply (Hrun 1); auto; destruct Hp as [-> | ->]; exact Hz|destruct Hp as [-> | ->]; reflexivity|].
      intros i Hi. assert (i = 0 \/ i = 1) as Ei by (destruct Hp as [-> | ->]; cbn in Hi; lia).
      destruct Hp as [-> | ->]; destruct Ha as [-> | ->]; destruct Ei as [-> | ->]; apply Qc_is_canon; vm_compute; reflexivity. }
  apply elem_of_cons in Hp as [-> |Hp]; [apply Hsgs; auto|].
  apply elem_of_cons in Hp as [-> |Hp]; [apply Hsgs; auto|].
  apply elem_of_cons in Hp as [-> |Hp]; [|apply elem_of_nil in Hp as []].
  eapply nok_mono; [apply (C68_gs Qc _ _ (fun x => x) (fun x => x) id Scalar 1 1 1 (exT 0) (exT a) (bdiag 1 ident)); auto; try lia; try reflexivity; apply exT_inverse|].
  intros [_ z'] (z1 & (Hl1 & H1) & ->). cbn in Hl1. destruct z1 as [|u [|v [|]]]; try discriminate.
  pose proof (H1 0 ltac:(cbn; lia)) as E0. pose proof (H1 1 ltac:(cbn; lia)) as E1. clear -E0 E1 Ha Hz.
  destruct z as [|z0 [|z1 [|]]]; try discriminate.
  assert ((0 + q 1 * u + 0 * v) + (0 + 0 * z0 + q 0 * z1) = q 1)%Qc as K0 by (destruct Ha as [-> | ->]; exact E0).
  assert ((0 + q a * u + q 1 * v) + (0 + 0 * z0 + 0 * z1) = q 1)%Qc as K1 by (destruct Ha as [-> | ->]; exact E1).
  change (q 1) with 1%Qc in *. change (q 0) with 0%Qc in *.
  assert (u = 1)%Qc as -> by (rewrite <- K0; ring).
  f_equal. f_equal. transitivity (1 - q a)%Qc; [rewrite <- K1 at 1; ring|]. destruct Ha as [-> | ->]; apply Qc_is_canon; vm_compute; reflexivity.
Qed.
(** set-up with a = 0, then a := 1: without another set-up the three classes use the new off-diagonal values *)
Theorem C70_live_matrix_refuted :
  forall p, p ∈ gs_classes -> exists (inv : list Qc -> list Qc) (M M1 : srmat Qc) st r z z0 z1,
  well_equipped inv p M /\ same_pattern M M1 /\ lived (fun x => x) (fun x => x) inv p 1 M M st /\ length r = obj_dim p M /\ length z = obj_dim p M /\
  (forall g, nok (obj_apply 1 g p M st r z) (fun '(_, z') => z' = z0)) /\ (forall g, nok (obj_apply 1 g p M1 st r z) (fun '(_, z') => z' = z1)) /\ z0 <> z1.
Proof.
  intros p Hp.
  pose (g0 := Fresh (fun _ _ => q 0) (fun _ _ => 0) (fun _ => 0%Z)).
  pose (pg := {| Sgs.rtol := q 0; atol := q 0; Sgs.dtol := q 0; ctol := false; maxits := 1 |}).
  destruct (exT_lived (fun x => x) (fun x => x) (fun b => b) p pg g0 0 Hp) as [Heq Hl].
  exists (fun b => b), (exT 0), (exT 1), (exT_state p pg g0), [q 1; q 1], [q 0; q 0], [q 1; q 1], [q 1; q 0].
  assert (obj_dim p (exT 0) = 2) as Ed by (repeat (apply elem_of_cons in Hp as [-> |Hp]; [reflexivity|]); apply elem_of_nil in Hp as []).
  split; [exact Heq|]. split; [apply exT_pattern|]. split; [exact Hl|]. rewrite Ed. split; [reflexivity|]. split; [reflexivity|].
  split; [|split].
  - intros g. apply (exT_apply p pg g0 g [q 0; q 0] 0); auto.
  - intros g. apply (exT_apply p pg g0 g [q 0; q 0] 1); auto.
  - intros H. discriminate.
Qed.

(** ** Cases *)
(** objects of every class can be made for these matrices, so lives of any length exist (C68_calls_return) *)
Lemma exM_wf : wf_mat exM. Proof. split; [apply exM_pat|split; [apply exM_diag|apply exM_sorted]]. Qed.
Lemma exB_wf : wf_mat exB. Proof. split; [apply exB_pat|split; [apply exB_diag|apply exB_sorted]]. Qed.
Lemma sym3 {A} (M : srmat A) : nbrows M = 3 ->
  forallb (fun i => forallb (fun j => bool_decide (is_Some (pos M i j)) || bool_decide (pos M j i = None)) (seq 0 3)) (seq 0 3) = true -> sym_pattern M.
Proof.
  intros En H i j Hi Hj Hp. rewrite En in Hi, Hj. pose proof (forallb_seq _ _ H j Hj) as H1. pose proof (forallb_seq _ _ H1 i Hi) as H2. cbn beta in H2.
  apply orb_true_iff in H2 as [H2|H2]; apply bool_decide_eq_true in H2; [destruct H2 as [k ->]; discriminate|contradiction].
Qed.
Definition exSet : ilu := {| i_nbuild := 1; i_napply := 1; i_chunk := 1; i_tfactor := false; i_tapply := false; i_finit := INIT_F_ORIGINAL; i_ainit := INIT_A_JACOBI; i_scale := true; i_info := false |}.
Definition classes (sh : shape) : list prec :=
  [PJacobi sh; PChaotic sh 2 3; PSgs sh 2 INIT_A_JACOBI 3; PLevelSgs sh; PIlu sh exSet; PLevelIlu sh exSet; PNone (width sh)].
Example C68_case : forall p, p ∈ PCscBgs 2 3 :: classes Scalar -> well_equipped inv2 p exM /\ usable p /\ fits (pshape p) exM /\
  exists st, lived (fun x => x) (fun x => x) inv2 p 4 exM exM st.
Proof.
  intros p Hp.
  assert (well_equipped inv2 p exM /\ usable p /\ fits (pshape p) exM) as (H1 & H2 & H3).
  { assert (sym_pattern exM) as Hsym by (apply sym3; reflexivity).
    assert (wf_end exM) as He by (split; [reflexivity|]; intros i Hi; cbn in Hi; destruct i as [|[|[|i]]]; [reflexivity..|lia]).
    unfold classes in Hp. repeat (apply elem_of_cons in Hp as [-> |Hp]; [|]); try (apply elem_of_nil in Hp as []);
      (split; [split; [exact exM_wf|split; [intros _; exact Hsym|]]|split; [|reflexivity]]); cbn; try exact Logic.I; try lia; auto.
    all: try (split; [exact Logic.I|exact He]).
    all: repeat split; try lia; try discriminate. all: left; discriminate. }
  split; [exact H1|]. split; [exact H2|]. split; [exact H3|].
  pose (g0 := Fresh (fun _ _ => q 0) (fun _ _ => 0) (fun _ => 0%Z)).
  pose (pg := {| Sgs.rtol := q 0; atol := q 0; Sgs.dtol := q 0; ctol := false; maxits := 1 |}).
  destruct (C68_calls_return Qc _ (fun x => x) (fun x => x) inv2 p 4 exM H1 H2) as (H & _ & _).
  destruct (nok_exists _ _ (H pg 2 g0 exM ltac:(lia) ltac:(repeat split) H3)) as ([st i] & _ & Hl). eauto.
Qed.
Example C68_block_case : forall p, p ∈ classes (Blocks 2 RowMajor) -> well_equipped inv2 p exB /\ usable p /\ fits (pshape p) exB /\
  exists st, lived (fun x => x) (fun x => x) inv2 p 4 exB exB st.
Proof.
  intros p Hp.
  assert (well_equipped inv2 p exB /\ usable p /\ fits (pshape p) exB) as (H1 & H2 & H3).
  { assert (sym_pattern exB) as Hsym by (apply sym3; reflexivity).
    assert (wf_end exB) as He by (split; [reflexivity|]; intros i Hi; cbn in Hi; destruct i as [|[|[|i]]]; [reflexivity..|lia]).
    assert (lawful inv2 (Blocks 2 RowMajor)) as Hlaw by (split; [lia|apply inv2_oracle]).
    unfold classes in Hp. repeat (apply elem_of_cons in Hp as [-> |Hp]; [|]); try (apply elem_of_nil in Hp as []);
      (split; [split; [exact exB_wf|split; [intros _; exact Hsym|]]|split; [|reflexivity]]); try exact Logic.I; try exact Hlaw; try (split; [exact Hlaw|exact He]); cbn; try exact Logic.I; try lia.
    all: repeat split; try lia; try discriminate. }
  split; [exact H1|]. split; [exact H2|]. split; [exact H3|].
  pose (g0 := Fresh (fun _ _ => q 0) (fun _ _ => 0) (fun _ => 0%Z)).
  pose (pg := {| Sgs.rtol := q 0; atol := q 0; Sgs.dtol := q 0; ctol := false; maxits := 1 |}).
  destruct (C68_calls_return Qc _ (fun x => x) (fun x => x) inv2 p 4 exB H1 H2) as (H & _ & _).
  destruct (nok_exists _ _ (H pg 2 g0 exB ltac:(lia) ltac:(repeat split) H3)) as ([st i] & _ & Hl). eauto.
Qed.
(** the diagonals are invertible *)
Lemma exM_nonzero i : i < nbrows exM -> dense exM i i <> s0.
Proof. intros Hi. cbn in Hi. destruct i as [|[|[|i]]]; [discriminate..|lia]. Qed.
Example C68_diagonal_case : (exists E, is_inverse (nbrows exM * 1) (bdiag 1 (dense exM)) E) /\
  (exists E, is_inverse (nbrows exB * 2) (bdiag 2 (bdense RowMajor 2 exB)) E).
Proof.
  split; eexists; [rewrite Nat.mul_1_r; apply (scalar_bdiag_inverse (dense exM) 3), exM_nonzero|apply exB_bdiag_inverse].
Qed.
Example C69_case : forall p, p ∈ classes Scalar -> length [q 5; q 8; q 4] = obj_dim p exM /\
  is_prod 3 (dense exM) (start_of false [q 1; q 1; q 1]) [q 5; q 8; q 4] /\ start_of true [q 1; q 1; q 1] = [q 0; q 0; q 0].
Proof.
  intros p Hp. split; [unfold classes in Hp; repeat (apply elem_of_cons in Hp as [-> |Hp]; [reflexivity|]); apply elem_of_nil in Hp as []|].
  split; [|reflexivity]. intros i Hi. destruct i as [|[|[|i]]]; [apply Qc_is_canon; vm_compute; reflexivity..|lia].
Qed.

(** ** C68: the result of "gs" depends on the old contents of the output vector *)
Theorem C68_gs_output_is_input_refuted :
  let p := PChaotic Scalar 1 1 in
  exists st r z1 z2, lived (fun x => x) (fun x => x) inv2 p 4 exM exM st /\ length r = 3 /\ length z1 = 3 /\ length z2 = 3 /\
  forall g, nok (obj_apply 1 g p exM st r z1) (fun '(_, z') => ~ obj_apply 1 g p exM st r z2 (Ok (st, z'))).
Proof.
  intros p.
  assert (well_equipped inv2 p exM) as Heq by (split; [exact exM_wf|]; split; [discriminate|exact Logic.I]).
  assert (usable p) as Hu by (cbn; lia).
  pose (g0 := Fresh (fun _ _ => q 0) (fun _ _ => 0) (fun _ => 0%Z)).
  pose (pg := {| Sgs.rtol := q 0; atol := q 0; Sgs.dtol := q 0; ctol := false; maxits := 1 |}).
  destruct (C68_calls_return Qc _ (fun x => x) (fun x => x) inv2 p 4 exM Heq Hu) as (H & _ & _).
  destruct (nok_exists _ _ (H pg 2 g0 exM ltac:(lia) ltac:(repeat split) eq_refl)) as ([st i] & _ & Hl).
  exists st, [q 0; q 0; q 0], [q 0; q 0; q 0], [q 0; q 1; q 0]. split; [exact Hl|]. split; [reflexivity|]. split; [reflexivity|]. split; [reflexivity|].
  intros g.
  pose proof (fun z Hz => C68_gs Qc _ _ (fun x => x) (fun x => x) inv2 Scalar 1 1 4 exM exM _ st g [q 0; q 0; q 0] z Heq Hl
     (scalar_bdiag_inverse (dense exM) 3 exM_nonzero) ltac:(lia) eq_refl Hz) as Hgs.
  eapply nok_mono; [apply (Hgs [q 0; q 0; q 0] eq_refl)|]. intros [st1 z'] (y & [_ Hy] & ->) Hbad.
  destruct (nok_out _ _ _ (Hgs [q 0; q 1; q 0] eq_refl) Hbad) as (y' & [_ Hy'] & Ey). subst y'.
  pose proof (Hy 0 ltac:(cbn; lia)) as E. pose proof (Hy' 0 ltac:(cbn; lia)) as E'. rewrite <- E' in E.
  set (X := bsum _ _) in E at 1. change (bsum _ _) with X in E at 2.
  assert (X + q 0 = X + q 1)%Qc as EE by exact E.
  assert (q 0 = q 1) as Eq by (transitivity (X + q 0 - X)%Qc; [change (q 0) with 0%Qc; ring|rewrite EE; ring]). discriminate.
Qed.

Print Assumptions C68_calls_return.
Print Assumptions C68_none.
Print Assumptions C68_jacobi.
Print Assumptions C68_sgs.
Print Assumptions C68_csc_bgs.
Print Assumptions C68_gs.
Print Assumptions C68_ilu.
Print Assumptions C68_block_ilu.
Print Assumptions C68_gs_output_is_input_refuted.
Print Assumptions C69_jacobi.
Print Assumptions C69_symmetric_gauss_seidel.
Print Assumptions C69_gauss_seidel.
Print Assumptions C69_solutions_stay.
Print Assumptions C69_none_reports_convergence_refuted.
Print Assumptions C69_unavailable.
Print Assumptions C70_snapshot.
Print Assumptions C70_live_matrix_refuted.
