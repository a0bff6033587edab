(** * PropSessionEx: cases for PropSession *)
From Coq Require Import ZArith QArith.Qcanon.
From Verif Require Import Base Alg Coo CooFacts ColMat PropColMat SRMatrix Async AsyncTheory AsyncSystem AsyncSweeps Nd Kernels KernelFacts IluApply IluApplyFacts IluApplyProofs TriSpec TriFacts
  IluApplyMain IluPattern IluFactor IluFactorMain Sgs SgsFacts SgsProofs SgsForms SgsMain Memory Levels PropLevels PropIluInit
  PropIluFactor PropIluApply PropIluSolve Factory PropFactory Petsc PropPetscSetup Objects ObjFacts ObjHistory ObjAlg ObjTotal GsSweep PropObjects PropObjectsEx PropSession Inst.
Open Scope nat_scope.

(** A session for exM: set up, apply, set up again *)
Definition sx_options (s : string) : options :=
  Options (Some s) (Some [1%Z; 2%Z]) (Some false) (Some "init_original"%string) (Some "init_zero"%string) (Some 4%Z) (Some false).
Definition sx_mem : @mem Qc (option (Qc * Qc)) := Mem [] [] [Some Default].
Definition sx_ctx : @ctx Qc := Ctx None (Some 0) 1 "" JACOBI false 0 0 0 "" "" false None false (q 0) (q 0) (q 0) (q 0) None.
Definition sx_prec (s : string) : prec :=
  if String.eqb s "jacobi" then PJacobi Scalar else if String.eqb s "sgs" then PSgs Scalar 2 INIT_A_ZERO 4 else
  PIlu Scalar (Ilu 1 2 false 4 INIT_F_NONE INIT_A_ZERO false false false).
Definition sx_types : list string := ["jacobi"; "sgs"; "seqilu0"]%string.
Example C71_case : forall s, s ∈ sx_types ->
  exists m c st, session (fun x => x) (fun x => x) (fun _ _ => false) (fun b => b) 4 1 exM (sx_options s) m c st exM /\ c_bprec c = Some (sx_prec s).
Proof.
  intros s Hs.
  assert (well_equipped (fun b : list Qc => b) (sx_prec s) exM /\ usable (sx_prec s) /\ pshape (sx_prec s) = Scalar) as (Heq & Hu & Hsh).
  { assert (sym_pattern exM) as Hsym by (apply sym3; reflexivity).
    assert (wf_end exM) as He by (split; [reflexivity|]; intros i Hi; cbn in Hi; destruct i as [|[|[|i]]]; [reflexivity..|lia]).
    unfold sx_types in Hs. repeat (apply elem_of_cons in Hs as [-> |Hs]; [|]); try (apply elem_of_nil in Hs as []);
      (split; [split; [exact exM_wf|split; [intros _; exact Hsym|]]|split; [|reflexivity]]); cbn; try exact Logic.I; try lia; auto.
    all: repeat split; try lia; try discriminate; try exact He; auto. }
  assert (holds 1 exM exM) as Hh by (repeat split).
  pose (g0 := Fresh (fun _ _ => q 0) (fun _ _ => 0) (fun _ => 0%Z)).
  pose (pg := {| Sgs.rtol := q 0; atol := q 0; Sgs.dtol := q 0; ctol := false; maxits := 1 |}).
  destruct (C68_calls_return Qc _ (fun x => x) (fun x => x) (fun b => b) (sx_prec s) 4 exM Heq Hu) as (H & _ & _).
  destruct (nok_exists _ _ (H pg 2 g0 exM ltac:(lia) ltac:(repeat split) ltac:(rewrite Hsh; reflexivity))) as ([st i] & Hst & _).
  assert (exists m' c', shell_setup (fun x => x) (fun x => x) (fun b => b) 2 g0 pg INIT_F_NONE INIT_A_NONE false (sx_options s) (q 0) (q 0) exM sx_mem sx_ctx (p_new pg) (Ok (m', c', st, Fine)) /\ c_bprec c' = Some (sx_prec s)) as (m' & c' & Hsu & Ep).
  { unfold sx_types in Hs. unfold shell_setup.
    repeat (apply elem_of_cons in Hs as [-> |Hs]; [|]); try (apply elem_of_nil in Hs as []). 
    all: eexists _, _; split; [cbn -[obj_compute]; exists (Ok (inl (st, i))); split; [exists (Ok (st, i)); split; [exact Hst|reflexivity]|reflexivity]|reflexivity]. }
  exists m', c', st. split; [|exact Ep].
  refine (ss_first _ _ _ _ 4 1 exM _ 2 g0 pg INIT_F_NONE INIT_A_NONE false (q 0) (q 0) exM sx_mem sx_ctx _ m' c' st _ _ _ _ Hh Hsu); try reflexivity; try lia.
  exists 0. split; reflexivity.
Qed.

(** The other hypotheses, for exM: the diagonal is invertible, and its ILU(0) factorisation has nonzero pivots *)
Example C71_data_case : holds 1 exM exM /\ length exM_lu = nnz exM /\ (forall k, k < nbrows exM -> entry exM exM_lu k k <> s0) /\
  exact_on_pattern exM (unitlower (entry exM exM_lu)) (upper (entry exM exM_lu)) (dense exM) /\
  (exists E, is_inverse (nbrows exM * 1) (bdiag 1 (pmatrix 1 exM)) E) /\ inverses_work (fun b : list Qc => b) 1.
Proof.
  destruct C30_case as (_ & _ & H1 & H2 & H3). split; [repeat split|]. split; [exact H1|]. split; [exact H3|]. split; [exact H2|].
  split; [|left; reflexivity]. eexists. rewrite Nat.mul_1_r. exact (scalar_bdiag_inverse (dense exM) 3 exM_nonzero).
Qed.

Print Assumptions C71_session.
Print Assumptions C71_jacobi.
Print Assumptions C71_sgs.
Print Assumptions C71_seqilu0.
