(** * PropFactory: names, factory dispatch and constructor options (C45, C46, C54) *)
From Coq Require Import ZArith.
From Verif Require Import Base SRMatrix IluApply IluFactor Factory.
Local Open Scope string_scope.

(** ** Specification: the documented names, and what each of them means *)
(** include/solverfactory.hpp:18-43 *)
Definition advertised : list (string * ptype) :=
  [("none", NO_PREC); ("jacobi", JACOBI); ("gs", GS); ("sgs", SGS); ("ilu0", ILU0); ("seqilu0", SEQILU0); ("sfilu0", SFILU0);
   ("sapilu0", SAPILU0); ("cscbgs", CSC_BGS); ("level_sgs", LEVEL_SGS); ("async_level_ilu0", ASYNC_LEVEL_ILU0)].
Definition advertised_finit : list (string * FactInit) :=
  [("init_zero", INIT_F_ZERO); ("init_original", INIT_F_ORIGINAL); ("init_sgs", INIT_F_SGS); ("init_none", INIT_F_NONE)].
Definition advertised_ainit : list (string * ApplyInit) := [("init_zero", INIT_A_ZERO); ("init_jacobi", INIT_A_JACOBI); ("init_none", INIT_A_NONE)].

(** The method a preconditioner object carries out *)
Inductive method := Diagonal | GaussSeidel | SymmetricGaussSeidel | ColumnGaussSeidel | LevelSymmetricGaussSeidel | Ilu0 | LevelIlu0 | Identity.
Definition method_of (p : prec) : method :=
  match p with
  | PJacobi _ => Diagonal | PChaotic _ _ _ => GaussSeidel | PCscBgs _ _ => ColumnGaussSeidel | PSgs _ _ _ _ => SymmetricGaussSeidel
  | PLevelSgs _ => LevelSymmetricGaussSeidel | PIlu _ _ | PReorderedIlu _ => Ilu0 | PLevelIlu _ _ => LevelIlu0 | PNone _ => Identity
  end.
Definition meaning (t : ptype) (m : method) : Prop :=
  match t with
  | JACOBI => m = Diagonal | GS => m = GaussSeidel | SGS => m = SymmetricGaussSeidel | CSC_BGS => m = ColumnGaussSeidel
  | LEVEL_SGS => m = LevelSymmetricGaussSeidel | ILU0 | SEQILU0 | SFILU0 | SAPILU0 => m = Ilu0
  | ASYNC_LEVEL_ILU0 => m = LevelIlu0 | NO_PREC => m = Identity | EXTERNAL => False
  end.
(** the blocks an object works on: their number of rows, and their layout if it matters *)
Definition block_size (p : prec) : nat :=
  match p with
  | PJacobi sh | PChaotic sh _ _ | PSgs sh _ _ _ | PLevelSgs sh | PIlu sh _ | PLevelIlu sh _ => match sh with Scalar => 1 | Blocks bs _ => bs end
  | PCscBgs _ _ | PReorderedIlu _ => 1
  | PNone bs => bs
  end.
Definition layout (p : prec) : option storage :=
  match p with
  | PJacobi (Blocks _ so) | PChaotic (Blocks _ so) _ _ | PSgs (Blocks _ so) _ _ _ | PLevelSgs (Blocks _ so) | PIlu (Blocks _ so) _ | PLevelIlu (Blocks _ so) _ => Some so
  | _ => None
  end.
(** is the factorisation, the application carried out by several threads? *)
Definition threaded (p : prec) : option (bool * bool) :=
  match p with PIlu _ i | PLevelIlu _ i | PReorderedIlu i => Some (i_tfactor i, i_tapply i) | _ => None end.
(** "Sequential ILU(0)", "Sequentially factored ILU(0)", "Sequentially applied ILU(0)": include/solverfactory.hpp:31-36 *)
Definition sequential_factor (t : ptype) : bool := match t with SEQILU0 | SFILU0 => true | _ => false end.
Definition sequential_apply (t : ptype) : bool := match t with SEQILU0 | SAPILU0 => true | _ => false end.
(** the numbers of sweeps and the other options an object uses, where the method has such an option *)
Definition build_sweeps (p : prec) : option Z := match p with PIlu _ i | PLevelIlu _ i | PReorderedIlu i => Some (i_nbuild i) | _ => None end.
Definition apply_sweeps (p : prec) : option Z :=
  match p with PChaotic _ n _ | PCscBgs n _ | PSgs _ n _ _ => Some n | PIlu _ i | PReorderedIlu i => Some (i_napply i) | _ => None end.
Definition chunk (p : prec) : option Z :=
  match p with PChaotic _ _ c | PCscBgs _ c | PSgs _ _ _ c => Some c | PIlu _ i | PLevelIlu _ i | PReorderedIlu i => Some (i_chunk i) | _ => None end.
Definition start_of_factor (p : prec) : option FactInit := match p with PIlu _ i | PLevelIlu _ i | PReorderedIlu i => Some (i_finit i) | _ => None end.
Definition start_of_apply (p : prec) : option ApplyInit := match p with PSgs _ _ a _ => Some a | PIlu _ i | PReorderedIlu i => Some (i_ainit i) | _ => None end.
Definition scaled (p : prec) : option bool := match p with PIlu _ i | PLevelIlu _ i | PReorderedIlu i => Some (i_scale i) | _ => None end.
Definition diagnostics (p : prec) : option bool := match p with PIlu _ i | PLevelIlu _ i | PReorderedIlu i => Some (i_info i) | _ => None end.
(** an option is what was asked for, if the method has it *)
Definition honours {A} (o : option A) (a : A) : Prop := forall x, o = Some x -> x = a.

Local Ltac here := repeat (first [apply elem_of_list_here | apply elem_of_list_further]).
(** ** C45 *)
Theorem C45_names s t : solverTypeFromString s = Ok t <-> (s, t) ∈ advertised.
Proof.
  unfold solverTypeFromString, advertised. split.
  - repeat (case String.eqb_spec; [intros -> [= <-]; here|intros _]). discriminate.
  - rewrite !elem_of_cons, elem_of_nil. intros H. repeat (destruct H as [[= -> ->]|H]; [reflexivity|]). destruct H.
Qed.
Theorem C45_rejected s : (forall t, (s, t) ∉ advertised) -> exists e, solverTypeFromString s = Throw e.
Proof.
  intros H. destruct (solverTypeFromString s) as [t| |e|] eqn:E; [|exfalso|eauto|exfalso].
  - exfalso. apply (H t), C45_names, E.
  - revert E. unfold solverTypeFromString. repeat (case String.eqb_spec; intros _; [discriminate|]); discriminate.
  - revert E. unfold solverTypeFromString. repeat (case String.eqb_spec; intros _; [discriminate|]); discriminate.
Qed.
Theorem C45_injective s s' t : solverTypeFromString s = Ok t -> solverTypeFromString s' = Ok t -> s = s'.
Proof.
  assert (forall s, solverTypeFromString s = Ok t -> s = match t with
    | JACOBI => jacobistr | GS => gsstr | SGS => sgsstr | ILU0 => ilu0str | SEQILU0 => seqilu0str | SFILU0 => sfilu0str | SAPILU0 => sapilu0str
    | CSC_BGS => cscbgsstr | LEVEL_SGS => levelsgsstr | ASYNC_LEVEL_ILU0 => asynclevelilustr | NO_PREC => noprecstr | EXTERNAL => s end) as Hn.
  { clear s s'. intros s. unfold solverTypeFromString. repeat (case String.eqb_spec; [intros -> [= <-]; reflexivity|intros _]). discriminate. }
  intros H H'. pose proof (Hn _ H) as E. pose proof (Hn _ H') as E'. destruct t; try congruence.
  exfalso. revert H. unfold solverTypeFromString. repeat (case String.eqb_spec; intros _; [discriminate|]). discriminate.
Qed.
(** the names of the initial guesses *)
Theorem C45_initial_guesses s :
  (forall i, getFactInitFromString s = Ok i <-> (s, i) ∈ advertised_finit) /\
  (forall i, getApplyInitFromString s = Ok i <-> (s, i) ∈ advertised_ainit) /\
  ((forall i, (s, i) ∉ advertised_finit) -> exists e, getFactInitFromString s = Throw e) /\
  ((forall i, (s, i) ∉ advertised_ainit) -> exists e, getApplyInitFromString s = Throw e).
Proof.
  unfold getFactInitFromString, getApplyInitFromString, advertised_finit, advertised_ainit.
  split; [|split; [|split]].
  - intros i. split.
    + repeat (case String.eqb_spec; [intros -> [= <-]; here|intros _]). discriminate.
    + rewrite !elem_of_cons, elem_of_nil. intros H. repeat (destruct H as [[= -> ->]|H]; [reflexivity|]). destruct H.
  - intros i. split.
    + repeat (case String.eqb_spec; [intros -> [= <-]; here|intros _]). discriminate.
    + rewrite !elem_of_cons, elem_of_nil. intros H. repeat (destruct H as [[= -> ->]|H]; [reflexivity|]). destruct H.
  - intros H. repeat (case String.eqb_spec; [intros ->; exfalso; eapply H; here|intros _]). eauto.
  - intros H. repeat (case String.eqb_spec; [intros ->; exfalso; eapply H; here|intros _]). eauto.
Qed.
Example C45_case : (exists e, solverTypeFromString "ILU0" = Throw e) /\ solverTypeFromString "ilu0" = Ok ILU0.
Proof. split; [eexists|]; reflexivity. Qed.

(** ** C46 *)
(** what can be asked for: the block sizes 1, 4 and, stored by columns, 5; column-oriented Gauss-Seidel only for scalars *)
Definition supported (o : settings) : Prop :=
  st_prectype o <> EXTERNAL /\
  (st_bs o = 1%Z \/
   st_prectype o <> CSC_BGS /\ exists so, st_blockstorage o = Layout so /\ (st_bs o = 4%Z \/ st_bs o = 5%Z /\ so = ColMajor)).

Ltac crush_factory o :=
  unfold create_preconditioner, create_srpreconditioner_of_type;
  destruct (Z.eqb_spec (st_bs o) 1), (st_prectype o) eqn:?, (st_blockstorage o) as [[]|] eqn:?;
  try destruct (Z.eqb_spec (st_bs o) 4); try destruct (Z.eqb_spec (st_bs o) 5).

(** The factory returns an object, and not the null pointer, or throws *)
Theorem C46_total o : (exists p, create_preconditioner o = Ok (Some p)) \/ (exists e, create_preconditioner o = Throw e).
Proof. crush_factory o; eauto. Qed.
Theorem C46_supported o : (exists p, create_preconditioner o = Ok (Some p)) <-> supported o.
Proof.
  unfold supported. crush_factory o; split;
    solve [intros [p H]; discriminate H
          |intros (H1 & H2); destruct H2 as [H2|(H2 & so & H3 & [H4|[H4 H5]])]; congruence
          |intros _; split; [discriminate|first [left; assumption|right; split; [discriminate|eexists; split; [reflexivity|auto]]]]
          |intros _; eexists; reflexivity].
Qed.
(** The object is of the kind and the shape asked for, its threads are as the name says, and its options are those asked for.
    (The diagnostics option is the subject of C54.) *)
Theorem C46_created o p : create_preconditioner o = Ok (Some p) ->
  meaning (st_prectype o) (method_of p) /\
  Z.of_nat (block_size p) = st_bs o /\
  (forall so, layout p = Some so -> st_blockstorage o = Layout so) /\
  honours (threaded p) (negb (sequential_factor (st_prectype o)), negb (sequential_apply (st_prectype o))) /\
  honours (build_sweeps p) (st_nbuild o) /\ honours (apply_sweeps p) (st_napply o) /\ honours (chunk p) (st_chunk o) /\
  honours (start_of_factor p) (st_finit o) /\ honours (start_of_apply p) (st_ainit o) /\ honours (scaled p) (st_scale o).
Proof.
  unfold honours. crush_factory o; intros [= <-]; simpl; repeat split; try congruence; try lia; intros ? [= <-]; reflexivity.
Qed.
(** The options are there for the methods which have them, so [C46_created] does speak of them *)
Theorem C46_options_present o p : create_preconditioner o = Ok (Some p) ->
  (st_prectype o ∈ [ILU0; SEQILU0; SFILU0; SAPILU0; ASYNC_LEVEL_ILU0] ->
     is_Some (threaded p) /\ is_Some (build_sweeps p) /\ is_Some (start_of_factor p) /\ is_Some (scaled p) /\ is_Some (diagnostics p)) /\
  (st_prectype o ∈ [ILU0; SEQILU0; SFILU0; SAPILU0; SGS; GS; CSC_BGS] -> is_Some (apply_sweeps p) /\ is_Some (chunk p)) /\
  (st_prectype o ∈ [ILU0; SEQILU0; SFILU0; SAPILU0; SGS] -> is_Some (start_of_apply p)).
Proof.
  intros H. rewrite !elem_of_cons, elem_of_nil. revert H.
  crush_factory o; intros [= <-]; simpl; (split; [|split]);
  solve [intros; repeat split; eexists; reflexivity|intros Hx; exfalso; repeat (destruct Hx as [Hx|Hx]; [discriminate Hx|]); exact Hx].
Qed.
Definition C46_settings t bs so := Settings t bs (Layout so) 16 true 3 2 INIT_F_ORIGINAL INIT_A_ZERO false.
Example C46_case : supported (C46_settings SAPILU0 5 ColMajor) /\
  create_preconditioner (C46_settings SAPILU0 5 ColMajor) = Ok (Some (PIlu (Blocks 5 ColMajor) (Ilu 3 2 true 16 INIT_F_ORIGINAL INIT_A_ZERO true false false))) /\
  ~ supported (C46_settings SAPILU0 5 RowMajor).
Proof.
  split; [|split; [reflexivity|]].
  - split; [discriminate|]. right. split; [discriminate|]. exists ColMajor. auto.
  - intros [_ [H|[_ (so & H & [H'|[_ H']])]]]; simpl in *; congruence.
Qed.

(** ** C54 *)
(** The objects which the factory makes compute diagnostics as asked for, with one exception: see below *)
Theorem C54_factory o p : create_preconditioner o = Ok (Some p) ->
  ~ (st_bs o = 1%Z /\ st_prectype o = ASYNC_LEVEL_ILU0) -> honours (diagnostics p) (st_info o).
Proof.
  unfold honours. crush_factory o; intros [= <-] Hx; simpl; try congruence; try (exfalso; apply Hx; auto; fail); intros ? [= <-]; reflexivity.
Qed.
(** The constructors of the plain and the level-scheduled block classes, and of the plain scalar class, store what they are passed *)
Theorem C54_constructors nb na sc c fi ai tf ta info :
  (let i := AsyncBlockILU0 nb na sc c fi ai tf ta info in
   i_nbuild i = nb /\ i_napply i = na /\ i_scale i = sc /\ i_chunk i = c /\ i_finit i = fi /\ i_ainit i = ai /\ i_tfactor i = tf /\ i_tapply i = ta /\ i_info i = info) /\
  (let i := AsyncILU0 nb na sc c fi ai info tf ta in
   i_nbuild i = nb /\ i_napply i = na /\ i_scale i = sc /\ i_chunk i = c /\ i_finit i = fi /\ i_ainit i = ai /\ i_tfactor i = tf /\ i_tapply i = ta /\ i_info i = info) /\
  (let i := Async_Level_BlockILU0 nb sc c fi tf info in
   i_nbuild i = nb /\ i_napply i = 1%Z /\ i_scale i = sc /\ i_chunk i = c /\ i_finit i = fi /\ i_ainit i = INIT_A_NONE /\ i_tfactor i = tf /\ i_tapply i = true /\ i_info i = info).
Proof. repeat split. Qed.
(** The scalar level-scheduled class: the number of threads of the factorisation does not depend on what was asked for, and the
    diagnostics are computed if a threaded factorisation was asked for, whether or not they were *)
Theorem C54_scalar_level_refuted nb sc c fi tf info :
  let i := Async_Level_ILU0 nb sc c fi tf info in
  i_nbuild i = nb /\ i_napply i = 1%Z /\ i_scale i = sc /\ i_chunk i = c /\ i_finit i = fi /\ i_ainit i = INIT_A_NONE /\
  i_tfactor i = true /\ i_tapply i = true /\ i_info i = tf.
Proof. repeat split. Qed.
(** ... so through the factory the diagnostics are always computed *)
Theorem C54_factory_refuted o : st_bs o = 1%Z -> st_prectype o = ASYNC_LEVEL_ILU0 ->
  exists p, create_preconditioner o = Ok (Some p) /\ diagnostics p = Some true.
Proof. intros H1 H2. unfold create_preconditioner. rewrite H1, H2. simpl. eexists. split; reflexivity. Qed.
(** The reordered class: the factorisation is threaded if a threaded application was asked for, the application is always threaded,
    and the diagnostics are computed if a threaded factorisation was asked for *)
Theorem C54_reordered_refuted nb na c fi ai tf ta :
  let i := ReorderedAsyncILU0 nb na c fi ai tf ta in
  i_nbuild i = nb /\ i_napply i = na /\ i_scale i = true /\ i_chunk i = c /\ i_finit i = fi /\ i_ainit i = ai /\
  i_tfactor i = ta /\ i_tapply i = true /\ i_info i = tf.
Proof. repeat split. Qed.
(** A user who asks for a sequential factorisation and application gets neither *)
Theorem C54_sequential_refuted nb na c fi ai sc info :
  i_tapply (ReorderedAsyncILU0 nb na c fi ai false false) = true /\ i_tfactor (Async_Level_ILU0 nb sc c fi false info) = true /\
  i_tfactor (ReorderedAsyncILU0 nb na c fi ai false true) = true.
Proof. repeat split. Qed.
Example C54_case : exists o p, create_preconditioner o = Ok (Some p) /\ st_info o = false /\ diagnostics p = Some true.
Proof. exists (C46_settings ASYNC_LEVEL_ILU0 1 RowMajor). eexists. split; [reflexivity|split; reflexivity]. Qed.

Print Assumptions C45_names.
Print Assumptions C45_rejected.
Print Assumptions C45_injective.
Print Assumptions C45_initial_guesses.
Print Assumptions C46_total.
Print Assumptions C46_supported.
Print Assumptions C46_created.
Print Assumptions C46_options_present.
Print Assumptions C54_factory.
Print Assumptions C54_constructors.
Print Assumptions C54_scalar_level_refuted.
Print Assumptions C54_factory_refuted.
Print Assumptions C54_reordered_refuted.
Print Assumptions C54_sequential_refuted.
