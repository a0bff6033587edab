(** * PropTestSolve: property C111 (from the text of the files to the solution) *)
From Coq Require Import ZArith Ascii String QArith.Qcanon.
From Verif Require Import Base Alg Norms SRMatrix Nd Reduction Matvec MatvecFacts SymSpec SymFacts SolveSpec BicgSpec Coo CooSpec CooFacts CooRead PropCoo PropCooRead MMText PropMMText FileMat.
From Verif Require Import Solvers SolversFacts GcrFacts BicgFacts PropSolvers PropGcr PropBicg.
From Verif Require Import Kernels KernelFacts IluApply IluApplyFacts IluApplyProofs TriSpec TriFacts
  IluApplyMain IluPattern IluFactor IluFactorProofs IluFactorMain Sgs SgsFacts SgsProofs SgsForms SgsMain Memory Levels PropLevels PropIluInit
  PropIluFactor PropIluApply PropIluSolve Factory Petsc Objects ObjFacts ObjHistory ObjAlg ObjTotal ObjShape ScaledLu PropSgs PropObjects Inst PropObjectsEx PropScaleIlu PropLinear PropLinearEx PropKrylov PoissonSetup PropPoissonSetup TestSolve.
Open Scope nat_scope.

#[local] Instance ascii_eq : EqDecision ascii := ascii_dec.
#[local] Instance string_eq : EqDecision string := string_dec.

(** ** Specification *)
Section Spec.
  Context {F : Type} {O : SOps F}.
  Variable real_text : string -> F -> Prop.
  (** the text lists these entries of a square matrix with [n] rows, in any order, after any comments *)
  Definition matrix_file (n : nat) (body : list (Z * Z * F)) (text : string) : Prop :=
    exists header cs size extra rest, text = file_text header cs size rest /\ coordinate_header header /\ Forall comment cs /\
      sizes_line size (Z.of_nat n :: Z.of_nat n :: Z.of_nat (length body) :: extra) /\ (forall k, k ∈ extra -> (0 <= k)%Z) /\ body_text real_text body rest.
  (** the text lists these numbers *)
  Definition vector_file (v : list F) (text : string) : Prop :=
    exists header cs size extra rest, text = file_text header cs size rest /\ dense_header header /\ Forall comment cs /\
      sizes_line size (Z.of_nat (length v) :: 1%Z :: extra) /\ values_text real_text v rest /\ is_int (Z.of_nat (length v)).
  (** there is an entry in row [i] and column [j], counted from zero *)
  Definition place (body : list (Z * Z * F)) (i j : nat) : Prop := exists v, (Z.of_nat i + 1, Z.of_nat j + 1, v)%Z ∈ body.
  (** all entries are in the matrix, none is listed twice, the diagonal is listed *)
  Definition proper (n : nat) (body : list (Z * Z * F)) : Prop :=
    (forall ri ci v, (ri, ci, v) ∈ body -> (1 <= ri <= Z.of_nat n /\ 1 <= ci <= Z.of_nat n)%Z) /\
    (forall k1 k2 t1 t2, body !! k1 = Some t1 -> body !! k2 = Some t2 -> t1.1 = t2.1 -> k1 = k2) /\
    (forall i, i < n -> place body i i).
  (** [A] is the matrix with these entries *)
  Definition lists (n : nat) (body : list (Z * Z * F)) (A : nat -> nat -> F) : Prop :=
    forall i j, i < n -> j < n -> (forall v, (Z.of_nat i + 1, Z.of_nat j + 1, v)%Z ∈ body -> A i j = v) /\ (~ place body i j -> A i j = s0).
  (** elimination creates no entries at other places *)
  Definition fills_nothing (n : nat) (body : list (Z * Z * F)) : Prop :=
    forall i j k, i < n -> j < n -> k < i -> k < j -> place body i k -> place body k j -> place body i j.
  (** [lu] holds the factors of [A] (the ones on the diagonal of the first are left out); no pivot is zero *)
  Definition factored (n : nat) (body : list (Z * Z * F)) (A lu : nat -> nat -> F) : Prop :=
    (forall i j, i < n -> j < n -> ~ place body i j -> lu i j = s0) /\ (forall k, k < n -> lu k k <> s0) /\
    forall i j, i < n -> j < n -> bsum n (fun k => unitlower lu i k * upper lu k j)%s = A i j.
End Spec.

(** ** Facts *)
Section Facts.
  Context {F : Type} {O : SOps F}.
  Lemma read_matrix real_text scan_real n body text : understands real_text scan_real -> matrix_file real_text n body text -> 0 < n -> proper n body ->
    nok (readMatrixMarket_text scan_real coo_new (Some text)) (fun c => coo_ok c /\ nrows c = n /\ ncols c = n /\ coo_sorted c /\ coo_nodup c /\
      forall i j v, Entry i j v ∈ entries c <-> (Z.of_nat i + 1, Z.of_nat j + 1, v)%Z ∈ body).
  Proof.
    intros Hs (header & cs & size & extra & rest & -> & Hh & Hcs & Hsz & Hex & Hb) Hn (Hin & Hdup & Hdiag).
    eapply nok_mono; [apply (C72_matrix F O real_text scan_real coo_new header cs size n n extra body rest); auto|].
    - intros i Hi. destruct (Hdiag (i - 1) ltac:(lia)) as (v & Hv). eexists _, v. replace (Z.of_nat i) with (Z.of_nat (i - 1) + 1)%Z by lia. exact Hv.
    - intros c (Hc & Hr & Hcn & Hp & Hsrt). split; [exact Hc|]. split; [exact Hr|]. split; [exact Hcn|].
      assert (coo_nodup c) as Hndp.
      { assert (NoDup ((fun e => (rowind e, colind e)) <$> entries c)) as Hndc.
        { rewrite Hp. rewrite <- list_fmap_compose. apply NoDup_alt. intros k1 k2 x K1 K2.
          apply list_lookup_fmap_inv in K1 as ([[a1 b1] v1] & -> & K1), K2 as ([[a2 b2] v2] & E2 & K2).
          pose proof (Hin _ _ _ (elem_of_list_lookup_2 _ _ _ K1)). pose proof (Hin _ _ _ (elem_of_list_lookup_2 _ _ _ K2)).
          apply (Hdup _ _ _ _ K1 K2). unfold compose in E2. cbn in E2. injection E2 as E2 E3. cbn. f_equal; lia. }
        intros k1 k2 e1 e2 K1 K2 R1 R2. apply (proj1 (NoDup_alt _) Hndc k1 k2 (rowind e1, colind e1)); rewrite list_lookup_fmap, ?K1, ?K2; simpl; congruence. }
      split.
      { intros k1 k2 e1 e2 H12 K1 K2 R. destruct (Hsrt k1 k2 e1 e2 H12 K1 K2) as [|[_ Hle]]; [lia|].
        destruct (decide (colind e1 = colind e2)) as [Eq|]; [|lia]. pose proof (Hndp _ _ _ _ K1 K2 R Eq). lia. }
      split; [exact Hndp|]. intros i j v. rewrite Hp, elem_of_list_fmap. split.
      + intros ([[a b] w] & Et & Ht). pose proof (Hin _ _ _ Ht). cbn in Et. injection Et as -> -> ->.
        replace (Z.of_nat (Z.to_nat (a - 1)) + 1)%Z with a by lia. replace (Z.of_nat (Z.to_nat (b - 1)) + 1)%Z with b by lia. exact Ht.
      + intros Ht. exists (Z.of_nat i + 1, Z.of_nat j + 1, v)%Z. split; [|exact Ht]. cbn. f_equal; lia.
  Qed.

  Lemma read_vector real_text scan_real (v : list F) text : understands real_text scan_real -> vector_file real_text v text -> dense_file scan_real (Some text) = Ok v.
  Proof.
    intros Hs (header & cs & size & extra & rest & -> & Hh & Hcs & Hsz & Hv & Hi). unfold dense_file. cbn [default from_option id].
    apply (C72_dense F O real_text scan_real header cs size (Z.of_nat (length v)) 1 extra v rest); auto; [lia|rewrite Z.mul_1_r; exact Hi|apply enough_fuel].
  Qed.
  (** the error loop *)
  Lemma sum_squares n (x v : list F) :
    (n <= length x /\ n <= length v) /\
      for_ 0 n (fun i l2 => let! a := get x i in let! b := get v i in Ok (l2 + (a - b) * (a - b))%s) s0 = Ok (bsum n (fun i => (vat x i - vat v i) * (vat x i - vat v i)))%s \/
    for_ 0 n (fun i l2 => let! a := get x i in let! b := get v i in Ok (l2 + (a - b) * (a - b))%s) s0 = UB.
  Proof.
    induction n as [|n IH]; [left; split; [lia|reflexivity]|]. rewrite <- !(Nat.add_1_r n), !for_snoc by lia. rewrite Nat.add_1_r.
    destruct IH as [[(H1 & H2) E]|E]; rewrite E; cbn [bind]; [|right; reflexivity].
    unfold get. destruct (x !! n) as [a|] eqn:Ea; [|right; reflexivity]. destruct (v !! n) as [b|] eqn:Eb; [|right; reflexivity].
    left. split; [split; eapply lookup_lt_Some; eassumption|]. cbn [bsum bind]. rewrite (vat_eq _ _ _ Ea), (vat_eq _ _ _ Eb). reflexivity.
  Qed.

  Lemma converted n body (c : coo F) A order gp gi gv gd : coo_ok c -> nrows c = n -> ncols c = n -> coo_sorted c -> coo_nodup c ->
    (forall i j v, Entry i j v ∈ entries c <-> (Z.of_nat i + 1, Z.of_nat j + 1, v)%Z ∈ body) -> proper n body -> lists n body A ->
    exists M d, getSRMatrixFromCOO 1 order gp gi gv gd c = Ok (M, d) /\ nbrows M = n /\ wf_mat M /\ wf_vals 1 M /\ wf_end M /\
      (forall i j, i < n -> j < n -> dense M i j = A i j) /\ (forall i j, i < n -> j < n -> pos M i j <> None <-> place body i j).
  Proof.
    intros Hc Hr Hcn Hsrt Hndp Hel (Hin & Hdup & Hdiag) HA. unfold getSRMatrixFromCOO. cbn [Nat.eqb].
    destruct (C04_csr F c gp gi gv (fun i => Z.to_nat (gd i)) Hc) as (M & E & Hn & _ & _ & _ & _ & _ & _ & Hend & _ & _ & Hh & Ld & Hd & Hwf & Hws).
    rewrite E. cbn [bind]. destruct (Hwf ltac:(lia)) as [Hw Hv]. exists M, (Z.of_nat <$> diagind M). split; [reflexivity|]. split; [lia|].
    assert (wf_sorted M) as Hms by (apply Hws, Hsrt).
    split.
    { split; [exact Hw|]. split; [|exact Hms]. split; [lia|]. intros i Hi. destruct (Hdiag i ltac:(lia)) as (v & Hvi). apply Hel in Hvi.
      destruct (Hd i v Hvi) as [[_ H1] H2]. split; [exact H1|exact H2]. }
    split; [exact Hv|]. split; [exact Hend|]. split.
    - intros i j Hi Hj. pose proof (C04_same_matrix F O c _ _ _ _ M Hc Hndp E i j ltac:(lia)) as [Hx|[Hx Hno]].
      + symmetry. apply (HA i j Hi Hj), Hel, Hx.
      + rewrite Hx. symmetry. apply (HA i j Hi Hj). intros (v & Hv'). apply (Hno v), Hel, Hv'.
    - intros i j Hi Hj. split.
      + intros Hp. destruct (pos M i j) as [k|] eqn:Ek; [|congruence]. apply pos_Some in Ek as [Hk Hck]; [|lia].
        assert (k < nnz M) as Hkn by (eapply inrow_lt; [exact Hw|exact Hk]).
        destruct (lookup_lt_is_Some_2 (bcolind M) k) as [cj Hcj]; [rewrite (wf_clen M Hw); exact Hkn|].
        destruct (lookup_lt_is_Some_2 (vals M) k) as [v Hvk]; [unfold wf_vals in Hv; lia|].
        exists v. apply Hel, Hh. exists k. split; [exact Hk|]. split; [|exact Hvk]. unfold col in Hck. rewrite (list_lookup_total_correct _ _ _ Hcj) in Hck. congruence.
      + intros (v & Hv') Hp. apply Hel, Hh in Hv' as (k & Hk & H1 & H2). apply (proj1 (pos_None M i j ltac:(lia)) Hp k Hk).
        unfold col. apply list_lookup_total_correct, H1.
  Qed.
End Facts.

Section Main.
  Context {F : Type} {O : SOps F} {R : Field F}.
  Add Ring FrT : (@cring F O field_ring).

  (** the file's factors are the incomplete factors of the converted matrix *)
  Lemma file_factors n body (M : srmat F) A lu : nbrows M = n -> wf_mat M -> (forall i j, i < n -> j < n -> dense M i j = A i j) ->
    (forall i j, i < n -> j < n -> pos M i j <> None <-> place body i j) -> factored n body A lu -> exists L U, incomplete_factors Scalar M L U.
  Proof.
    intros Hn (Hw & _ & _) HA Hpos (Hz & Hd & Hlu). pose (v := (fun k => lu (rowof M k) (col M k)) <$> seq 0 (nnz M)).
    assert (forall i j, i < n -> j < n -> entry M v i j = lu i j) as Hv.
    { intros i j Hi Hj. unfold entry. destruct (pos M i j) as [k|] eqn:Ek.
      - apply pos_Some in Ek as [Hk Hc]; [|lia]. assert (k < nnz M) as Hkn by (eapply inrow_lt; [exact Hw|exact Hk]).
        unfold v. rewrite vat_fmap_seq by exact Hkn. rewrite (rowof_inrow M i k Hw Hk), Hc. reflexivity.
      - symmetry. apply Hz; [assumption..|]. intros Hp. apply Hpos in Hp; [|assumption..]. congruence. }
    exists (unitlower (entry M v)), (upper (entry M v)). exists v. split; [unfold v; rewrite fmap_length, seq_length; reflexivity|].
    split; [reflexivity|]. split; [reflexivity|]. split.
    - intros i c Hi Hc _. rewrite HA by lia. rewrite <- Hlu by lia. unfold mprod. rewrite Hn. apply bsum_ext. intros k Hk.
      unfold unitlower, upper. rewrite !Hv by lia. reflexivity.
    - intros k Hk. unfold upper. rewrite decide_True by lia. rewrite Hv by lia. apply Hd. lia.
  Qed.

  Variables (ssqrt sabs : F -> F) (slt sle : F -> F -> bool) (inv : list F -> list F) (hundred : F).
  Lemma used_lived nthr p (M : srmat F) st0 st : 1 <= nthr -> same_pattern M M -> fits (pshape p) M -> lived ssqrt sabs inv p nthr M M st0 ->
    used nthr p M st0 st -> lived ssqrt sabs inv p nthr M M st.
  Proof. intros Hn Hs Hf H0. induction 1 as [|st g r z st' z' _ IH Lr Lz H]; [exact H0|]. eapply lv_apply; [exact IH|split; [exact Hn|apply le_n]|exact Hs|exact Hf|exact Lr|exact Lz|exact H]. Qed.
  Lemma used_prec nthr p (M : srmat F) st0 N K : 1 <= nthr -> same_pattern M M -> fits (pshape p) M -> well_equipped inv p M -> usable p ->
    (forall na c, p = PCscBgs na c -> nthr = 1) -> N = obj_dim p M -> (exists g : @fresh F, True) ->
    lived ssqrt sabs inv p nthr M M st0 -> linear_prec N K (object_prec ssqrt sabs inv nthr nthr p M M) -> linear_prec N K (apply_used nthr p M st0).
  Proof.
    intros Hn Hs Hf Heq Hu Hcsc -> [g _] H0 HL x y Lx Ly. destruct (HL x y Lx Ly) as [_ HQ]. split.
    - destruct (C68_calls_return F O ssqrt sabs inv p nthr M Heq Hu) as (_ & _ & Ha).
      destruct (ObjFacts.nok_exists _ _ (Ha M st0 nthr g M x y H0 ltac:(lia) Hs Hf Lx Ly Hcsc)) as ([st' z'] & Hz & _).
      exists (Ok z'), st0, g. split; [constructor|]. exists (Ok (st', z')). split; [exact Hz|reflexivity].
    - intros o (st & g' & Hst & Ho). apply HQ. exists st, g'. split; [|exact Ho]. eapply used_lived; eauto.
  Qed.

  (** the error of an exact solution *)
  Lemma check_exact real_text scan_real N testtol x v text : understands real_text scan_real -> vector_file real_text v text -> length x = N -> length v = N ->
    (forall i, i < N -> vat x i = vat v i) -> slt (ssqrt s0) testtol = true -> check_solution ssqrt slt scan_real N testtol x (Some (Some text)) = Ok Datatypes.tt.
  Proof.
    intros Hs (header & cs & size & extra & rest & -> & Hh & Hcs & Hsz & Hv & Hi) Lx Lv E Ht. unfold check_solution, dense_file. cbn [default from_option id].
    rewrite (C72_dense F O real_text scan_real header cs size (Z.of_nat (length v)) 1 extra v rest) ; auto; [|lia|rewrite Z.mul_1_r; exact Hi|apply enough_fuel].
    cbn [bind]. assert (ok (for_ 0 N (fun i l2 => let! a := get x i in let! b := get v i in Ok (l2 + (a - b) * (a - b))%s) s0) (fun l => l = s0)) as Hok.
    { apply (ok_for 0 N _ _ (fun _ l => l = s0)); [lia|reflexivity|]. intros j l Hj ->.
      destruct (lookup_lt_is_Some_2 x j) as [a Ha]; [lia|]. destruct (lookup_lt_is_Some_2 v j) as [b Hb]; [lia|].
      unfold get. rewrite Ha, Hb. cbn. specialize (E j ltac:(lia)). unfold vat in E. rewrite Ha, Hb in E. cbn in E. subst b. ring. }
    apply ok_inv in Hok as (l & -> & ->). cbn [bind]. rewrite Ht. reflexivity.
  Qed.

  (** from the zero vector, with an exact preconditioner *)
  Lemma sqnorm_resid0 n A (b : list F) : length b = n -> sqnorm n (resid n A b (replicate n s0)) = sqnorm n b.
  Proof.
    intros L. unfold sqnorm, dot. apply bsum_ext. intros i Hi. unfold resid. rewrite vat_fmap_seq by exact Hi.
    rewrite (bsum_ext n _ (fun _ => s0)); [rewrite bsum_zero by reflexivity; ring|]. intros j Hj.
    rewrite (vat_eq _ _ s0) by (apply lookup_replicate_2; exact Hj). ring.
  Qed.
  Lemma nonzero_resid0 n A (b : list F) : nonzero n b -> nonzero n (resid n A b (replicate n s0)).
  Proof.
    intros (i & Hi & Hne). exists i. split; [exact Hi|]. unfold resid. rewrite vat_fmap_seq by exact Hi.
    rewrite (bsum_ext n _ (fun _ => s0)); [rewrite bsum_zero by reflexivity|].
    - intros E. apply Hne. rewrite <- E. ring.
    - intros j Hj. rewrite (vat_eq _ _ s0) by (apply lookup_replicate_2; exact Hj). ring.
  Qed.
  (** the solvers and limits for which one step is enough *)
  Definition one_step (P : tparams F) (n : nat) (b : list F) : Prop :=
    slt (ssqrt s0 / ssqrt (sqnorm n b))%s (tp_tol P) = true /\
    (tp_solver P = "bcgs"%string /\ 0 < tp_maxiter P \/ tp_solver P = "gcr"%string /\ 0 < tp_maxiter P /\ 0 < tp_restart P \/
     tp_solver P = "richardson"%string /\ 2 <= tp_maxiter P /\ slt (ssqrt (sqnorm n b) / ssqrt (sqnorm n b))%s (tp_tol P) = false).
  Lemma run_exact (pos : F -> Prop) P N A K Aapply Agemv3 prec b : ordered pos -> matrix_object N A Aapply Agemv3 -> linear_prec N K prec -> is_inverse N A K ->
    length b = N -> nonzero N b -> one_step P N b ->
    nok (run_solver ssqrt slt sle hundred P N Aapply Agemv3 prec b (replicate N s0)) (fun '(x, info) => length x = N /\ iters info = 1 /\ is_prod N A x b).
  Proof.
    intros Hpos HM HP HK Lb Hnz (Htol & Hsol). pose proof (C109_inverse_exact F O R N A K prec HK HP) as Hex.
    assert (prec_object N prec) as Hpo by (intros x y Lx Ly; eapply nok_mono; [apply (HP x y Lx Ly)|]; intros z [L _]; exact L).
    pose proof (replicate_length N (s0 : F)) as L0. pose proof (nonzero_resid0 N A b Hnz) as Hr.
    unfold run_solver. destruct Hsol as [(-> & Hm)|[(-> & Hm & Hrs)|(-> & Hm & Hno)]]; cbn [String.eqb Ascii.eqb Bool.eqb].
    - eapply nok_mono; [apply nok_and; [apply (C109_bicgstab_exact F O R pos ssqrt slt N A K Aapply Agemv3 prec (tp_maxiter P) (tp_tol P) hundred b); eassumption|
        apply (C99_bicgstab F O field_ring ssqrt slt N A); eassumption]|]. intros [x info] ((H1 & H2 & _) & (_ & L & _)). auto.
    - eapply nok_mono; [apply nok_and; [apply (C109_gcr_exact F O R pos ssqrt slt sle N A Aapply Agemv3 prec (tp_maxiter P) (tp_tol P) (tp_restart P) b); eassumption|
        apply (C99_gcr F O field_ring ssqrt slt sle N A); eassumption]|]. intros [x info] ((H1 & H2 & _) & (_ & L & _)). auto.
    - eapply nok_mono; [apply nok_and; [apply (C109_richardson_exact F O R ssqrt slt N A Aapply Agemv3 prec (tp_maxiter P) (tp_tol P) b); eassumption|
        apply (C99_richardson F O field_ring ssqrt slt N A Aapply); eassumption]|]. intros [x info] ([(_ & _ & H)|(H1 & H2 & _)] & (_ & _ & Hit & _)).
      + rewrite sqnorm_resid0 in H by exact Lb. congruence.
      + split; [|auto]. rewrite H1 in Hit. inversion Hit; subst. unfold SolveSpec.vadd. rewrite fmap_length, seq_length. reflexivity.
  Qed.
End Main.

(** ** C111 *)
(** the ILU preconditioners, with threads that cannot interfere *)
Definition ordered_ilu (nthr : nat) {F} (P : tparams F) : Prop :=
  (tp_prec P = "seqilu0"%string \/ nthr = 1 /\ tp_prec P ∈ ["ilu0"; "sfilu0"; "sapilu0"]%string) /\
  tp_finit P ∈ ["init_zero"; "init_original"; "init_sgs"; "init_none"]%string /\ tp_ainit P ∈ ["init_zero"; "init_jacobi"]%string /\
  (1 <= tp_nbuild P /\ 1 <= tp_napply P /\ 1 <= tp_chunk P)%Z.
(** The files list a square matrix with its diagonal and no entry twice, in any order, and a right-hand side; elimination without pivoting works and
    creates no new places. Then the driver computes the exact solution of the listed system in one step, and accepts a reference file with the solution. *)
Theorem C111_solves : forall (F : Type) (O : SOps F) (FF : Field F) (pos : F -> Prop) ssqrt sabs slt sle inv hundred real_text scan_real nthr
    gp gi gv gd gmem gpar ginfo (P : tparams F) n body A lu b mat_text b_text x_file,
  ordered pos -> understands real_text scan_real -> 1 <= nthr -> 0 < n ->
  matrix_file real_text n body mat_text -> proper n body -> lists n body A -> fills_nothing n body -> factored n body A lu ->
  vector_file real_text b b_text -> length b = n -> nonzero n b -> ordered_ilu nthr P -> one_step ssqrt slt P n b ->
  (x_file = None \/ exists v text, x_file = Some (Some text) /\ vector_file real_text v text /\ length v = n /\ is_prod n A v b /\ slt (ssqrt s0) (tp_testtol P) = true) ->
  nok (test_solve ssqrt sabs slt sle inv hundred scan_real nthr gp gi gv gd gmem gpar ginfo 1 P (Some mat_text) (Some b_text) x_file)
    (fun '(x, info) => length x = n /\ iters info = 1 /\ is_prod n A x b).
Proof.
  intros F O FF pos ssqrt sabs slt sle inv hundred real_text scan_real nthr gp gi gv gd gmem gpar ginfo P n body A lu b mat_text b_text x_file
    Hpos Hs Hthr Hn Hmf Hprop HA Hfill Hlu Hbf Lb Hnz (Hp & Hfi & Hai & Hnb & Hna & Hch) Hone Hx.
  unfold test_solve. eapply nok_bind; [apply (read_matrix real_text scan_real n body mat_text Hs Hmf Hn Hprop)|].
  intros c (Hc & Hr & Hcn & Hsrt & Hnd & Hel).
  assert (dense_file scan_real (Some b_text) = Ok b) as Eb.
  { destruct Hbf as (header & cs & size & extra & rest & -> & Hh & Hcs & Hsz & Hv & Hi). unfold dense_file. cbn [default from_option id].
    apply (C72_dense F O real_text scan_real header cs size (Z.of_nat (length b)) 1 extra b rest); auto; [lia|rewrite Z.mul_1_r; exact Hi|apply enough_fuel]. }
  rewrite Eb. eapply nok_bind; [apply nok_lift, ok_ret, eq_refl|]. intros ? <-.
  destruct (converted n body c A (tp_order P) (gp true) (gi true) (gv true) (gd true) Hc Hr Hcn Hsrt Hnd Hel Hprop HA) as (M & d & E & Hnr & (Hw & _ & Hws) & Hv & _ & HM & _).
  destruct (converted n body c A (tp_order P) (gp false) (gi false) (gv false) (gd false) Hc Hr Hcn Hsrt Hnd Hel Hprop HA) as (Mc & d' & E' & Hnr' & Hmat & Hv' & Hend & HMc & Hpc).
  rewrite E. eapply nok_bind; [apply nok_lift, ok_ret, eq_refl|]. intros ? <-. rewrite E'. eapply nok_bind; [apply nok_lift, ok_ret, eq_refl|]. intros ? <-.
  cbv zeta. cbn [Nat.eqb]. rewrite Nat.mul_1_r, Hnr.
  assert (exists i, ((let! opts := test_settings ginfo 1 P in create_preconditioner opts) = Ok (Some (PIlu Scalar i))) /\
    i_nbuild i = tp_nbuild P /\ i_napply i = tp_napply P /\ i_scale i = false /\ i_chunk i = tp_chunk P /\ i_ainit i <> INIT_A_NONE /\
    (i_tfactor i = false \/ nthr = 1) /\ (i_tapply i = false \/ nthr = 1)) as (i & Emade & Hi1 & Hi2 & Hi3 & Hi4 & Hi5 & Hi6 & Hi7).
  { unfold test_settings.
    assert (exists ai, getApplyInitFromString (tp_ainit P) = Ok ai /\ ai <> INIT_A_NONE) as (ai & Eai & Hane).
    { rewrite !elem_of_cons, elem_of_nil in Hai. destruct Hai as [-> |[-> |[]]]; eexists; (split; [reflexivity|discriminate]). }
    assert (exists fi, getFactInitFromString (tp_finit P) = Ok fi) as (fi & Efi).
    { rewrite !elem_of_cons, elem_of_nil in Hfi. destruct Hfi as [-> |[-> |[-> |[-> |[]]]]]; eexists; reflexivity. }
    rewrite Eai, Efi. destruct Hp as [-> |(-> & Hp)]; [|rewrite !elem_of_cons, elem_of_nil in Hp; destruct Hp as [-> |[-> |[-> |[]]]]];
      (eexists; split; [cbn; reflexivity|cbn; auto 10]). }
  destruct (test_settings ginfo 1 P) as [opts| | |]; try discriminate. cbn [bind] in Emade.
  eapply nok_bind; [apply nok_lift, ok_ret, eq_refl|]. intros ? <-. rewrite Emade. eapply nok_bind; [apply nok_lift, ok_ret, eq_refl|]. intros ? <-. cbn iota beta.
  set (p := PIlu Scalar i) in *.
  assert (well_equipped inv p Mc) as Heq by (split; [exact Hmat|]; split; [discriminate|]; split; [exact Logic.I|exact Hend]).
  assert (usable p) as Hu by (split; [lia|]; split; [exact Hi5|]; intros _; right; exact Hi3).
  assert (same_pattern Mc Mc) as Hsame by (repeat split).
  assert (fits (pshape p) Mc) as Hf by (unfold wf_vals in Hv'; unfold ObjFacts.fits; cbn [pshape bsize p]; lia).
  eapply nok_bind; [apply (C68_calls_return F O ssqrt sabs inv p nthr Mc Heq Hu); [lia|exact Hsame|exact Hf]|]. intros [st info0] Hst.
  assert (obj_dim p Mc = n) as Hdim by (unfold obj_dim; cbn [p pshape width]; lia).
  assert (no_fill Mc) as Hnf.
  { intros i0 j k Hi0 Hj Hk1 Hk2 P1 P2. apply Hpc; [lia|lia|]. apply Hpc in P1; [|lia..]. apply Hpc in P2; [|lia..]. apply (Hfill i0 j k); auto; lia. }
  destruct (C109_no_fill F O FF ssqrt sabs inv nthr nthr Scalar i p Mc Mc (or_introl eq_refl) Hnf Heq Hsame Hf Hthr) as (K & HK & HL).
  { cbn. split; [split; [lia|]; split; [tauto|]; intros _; right; exact Hi3|]. split; [lia|]. split; [exact Hi5|exact Hi7]. }
  { split; [apply (file_factors n body Mc A lu Hnr' Hmat HMc Hpc Hlu)|]. rewrite Hi3. discriminate. }
  { eauto. }
  rewrite Hdim in HK, HL. cbn [matrix_of] in HK.
  assert (is_inverse n (dense M) K) as HKM.
  { intros a b' Ha Hb'. destruct (HK a b' Ha Hb') as [K1 K2]. split; [rewrite <- K1|rewrite <- K2]; unfold mprod; apply bsum_ext; intros k Hk; rewrite HM, HMc by lia; reflexivity. }
  eapply nok_bind.
  { apply (run_exact ssqrt slt sle hundred pos P n (dense M) K); [exact Hpos| | |exact HKM|exact Lb|exact Hnz|exact Hone].
    - rewrite <- Hnr. apply (proj1 (C99_matrix_views F O field_ring M Hw (sorted_nodup M Hws)) Hv).
    - apply (used_prec ssqrt sabs inv nthr p Mc st n K); auto; [discriminate|eauto]. }
  intros [x info] (Lx & Hit & Hsol).
  assert (is_prod n A x b) as HxA by (intros k Hk; rewrite <- (Hsol k Hk); apply bsum_ext; intros j Hj; rewrite HM by lia; reflexivity).
  assert (check_solution ssqrt slt scan_real n (tp_testtol P) x x_file = Ok Datatypes.tt) as ->.
  { destruct Hx as [-> |(v & text & -> & Hvf & Lv & Hvs & Ht)]; [reflexivity|]. eapply (check_exact ssqrt slt real_text); eauto.
    assert (is_inverse n A K) as HKA by (intros a b' Ha Hb'; destruct (HKM a b' Ha Hb') as [K1 K2]; split; [rewrite <- K1|rewrite <- K2]; unfold mprod; apply bsum_ext; intros k Hk; rewrite HM by lia; reflexivity).
    intros k Hk. rewrite (inverse_apply n A K (vat b) (vat x) HKA (fun i Hi => eq_sym (HxA i Hi)) k Hk).
    symmetry. apply (inverse_apply n A K (vat b) (vat v) HKA (fun i Hi => eq_sym (Hvs i Hi)) k Hk). }
  eapply nok_bind; [apply nok_lift, ok_ret, eq_refl|]. intros ? <-. apply nok_ret. auto.
Qed.

(** ** Any preconditioner *)
Ltac in_list := repeat (first [apply elem_of_list_here|apply elem_of_list_further]).
Definition ilu_names : list string := ["ilu0"; "seqilu0"; "sfilu0"; "sapilu0"]%string.
Definition level_names : list string := ["level_sgs"; "async_level_ilu0"]%string.
Definition prec_names : list string := ["jacobi"; "gs"; "sgs"; "cscbgs"; "none"; "ilu0"; "seqilu0"; "sfilu0"; "sapilu0"; "level_sgs"; "async_level_ilu0"]%string.
(** a preconditioner that the library offers, with settings that it implements *)
Definition offered (nthr : nat) {F} (P : tparams F) (n : nat) (body : list (Z * Z * F)) : Prop :=
  tp_prec P ∈ prec_names /\ (1 <= tp_chunk P)%Z /\ tp_finit P ∈ ["init_zero"; "init_original"; "init_sgs"; "init_none"]%string /\
  tp_ainit P ∈ ["init_zero"; "init_jacobi"; "init_none"]%string /\ (tp_prec P ∈ ilu_names -> tp_ainit P <> "init_none"%string) /\
  (tp_prec P ∈ level_names -> forall i j, i < n -> j < n -> place body i j -> place body j i) /\ (tp_prec P = "cscbgs"%string -> nthr = 1).

Section Any.
  Context {F : Type} {O : SOps F} {R : CRing F}.
  Variables (ssqrt sabs : F -> F) (slt sle : F -> F -> bool) (inv : list F -> list F) (hundred : F).
  Lemma used_object nthr p (M : srmat F) st0 : 1 <= nthr -> same_pattern M M -> fits (pshape p) M -> well_equipped inv p M -> usable p ->
    (forall na c, p = PCscBgs na c -> nthr = 1) -> (exists g : @fresh F, True) ->
    lived ssqrt sabs inv p nthr M M st0 -> prec_object (obj_dim p M) (apply_used nthr p M st0).
  Proof.
    intros Hn Hs Hf Heq Hu Hcsc [g _] H0 x y Lx Ly.
    assert (forall st g', used nthr p M st0 st -> nok (obj_apply nthr g' p M st x y) (fun '(_, z') => length z' = obj_dim p M)) as Ha.
    { intros st g' Hst. apply (apply_shape ssqrt sabs inv p nthr M M nthr g' M st x y); auto. apply lived_sane; [assumption..|].
      eapply used_lived; eauto. }
    split.
    - destruct (ObjFacts.nok_exists _ _ (Ha st0 g (used_new _ _ _ _))) as ([st' z'] & Hz & _).
      exists (Ok z'), st0, g. split; [constructor|]. exists (Ok (st', z')). split; [exact Hz|reflexivity].
    - intros o (st & g' & Hst & Ho). refine (proj2 (nok_bind _ _ _ _ (Ha st g' Hst) _) o Ho). intros [st' z'] L. apply nok_ret. exact L.
  Qed.
  Lemma made_prec ginfo nthr (P : tparams F) n body (M : srmat F) : nbrows M = n -> wf_mat M -> wf_vals 1 M -> wf_end M ->
    (forall i j, i < n -> j < n -> pos M i j <> None <-> place body i j) -> offered nthr P n body ->
    exists opts p, test_settings ginfo 1 P = Ok opts /\ create_preconditioner opts = Ok (Some p) /\ well_equipped inv p M /\ usable p /\
      fits (pshape p) M /\ obj_dim p M = n /\ (forall na c, p = PCscBgs na c -> nthr = 1).
  Proof.
    intros Hn Hmat Hv Hend Hpos (Hp & Hch & Hfi & Hai & Hilu & Hlev & Hcsc). unfold test_settings.
    assert (exists ai, getApplyInitFromString (tp_ainit P) = Ok ai /\ (tp_ainit P <> "init_none"%string -> ai <> INIT_A_NONE)) as (ai & Eai & Hane).
    { rewrite !elem_of_cons, elem_of_nil in Hai. destruct Hai as [-> |[-> |[-> |[]]]]; eexists; (split; [reflexivity|]); first [discriminate|congruence]. }
    assert (exists fi, getFactInitFromString (tp_finit P) = Ok fi) as (fi & Efi).
    { rewrite !elem_of_cons, elem_of_nil in Hfi. destruct Hfi as [-> |[-> |[-> |[-> |[]]]]]; eexists; reflexivity. }
    rewrite Eai, Efi.
    assert (sym_pattern M \/ tp_prec P ∉ level_names) as Hsym.
    { destruct (decide (tp_prec P ∈ level_names)) as [H|H]; [left|right; exact H]. intros i j Hi Hj Hpi. apply Hpos; [lia..|]. apply Hlev; [exact H|lia|lia|]. apply Hpos; [lia..|exact Hpi]. }
    assert (fits Scalar M) as Hf by (unfold wf_vals in Hv; unfold ObjFacts.fits; cbn [bsize]; lia).
    unfold prec_names, ilu_names, level_names in *. rewrite !elem_of_cons, elem_of_nil in Hp.
    destruct Hp as [E|[E|[E|[E|[E|[E|[E|[E|[E|[E|[E|[]]]]]]]]]]]]; rewrite E in *; cbn; eexists _, _; (split; [reflexivity|]); (split; [reflexivity|]);
      (split; [split; [exact Hmat|]; (split; [cbn; first [discriminate|intros _; destruct Hsym as [Hsym|Hsym]; [exact Hsym|exfalso; apply Hsym; in_list]]|]); cbn; auto|]);
      (split; [cbn; repeat (first [split|exact Logic.I|lia|(apply Hane, Hilu; in_list)|(intros _; right; reflexivity)])|]); (split; [exact Hf|]);
      (split; [unfold obj_dim; cbn; lia|]); intros na c Hq; first [discriminate|auto].
  Qed.
  (** what the solver reports is true of the system in the files *)
  Definition reported (P : tparams F) (n : nat) (A : nat -> nat -> F) (b x : list F) (info : SolveInfo F) : Prop :=
    length x = n /\ bnorm info = ssqrt (sqnorm n b) /\ resnorm info = ssqrt (sqnorm n (resid n A b x)) /\
    (tp_solver P = "bcgs"%string -> iters info <= tp_maxiter P <-> slt (resnorm info / bnorm info)%s (tp_tol P) = true) /\
    (tp_solver P = "gcr"%string -> converged info = sle (resnorm info / bnorm info)%s (tp_tol P) /\
      (iters info < tp_maxiter P -> slt (resnorm info / bnorm info)%s (tp_tol P) = true)).
  Lemma run_reported P N A Aapply Agemv3 prec b : matrix_object N A Aapply Agemv3 -> prec_object N prec -> length b = N ->
    0 < tp_maxiter P -> (tp_solver P = "bcgs"%string \/ tp_solver P = "gcr"%string /\ 0 < tp_restart P) ->
    nok (run_solver ssqrt slt sle hundred P N Aapply Agemv3 prec b (replicate N s0)) (fun '(x, info) => reported P N A b x info).
  Proof.
    intros HM HP Lb Hm Hsol. pose proof (replicate_length N (s0 : F)) as L0. unfold run_solver, reported.
    destruct Hsol as [-> |(-> & Hrs)]; cbn [String.eqb Ascii.eqb Bool.eqb].
    - eapply nok_mono; [apply (C99_bicgstab F O R ssqrt slt N A); eassumption|]. intros [x info] (H1 & L & _ & _ & H & _). destruct (H Hm) as [H2 H3].
      split; [exact L|]. split; [exact H1|]. split; [exact H2|]. split; [intros _; exact H3|discriminate].
    - eapply nok_mono; [apply (C99_gcr F O R ssqrt slt sle N A); eassumption|]. intros [x info] (H1 & L & _ & H3 & H & H4 & _). destruct (H Hm) as [_ H2].
      split; [exact L|]. split; [exact H1|]. split; [exact H2|]. split; [discriminate|]. intros _. split; [exact H3|exact H4].
  Qed.
End Any.

(** With any preconditioner of the library and any number of threads, the driver ends normally; the norm that BiCGSTAB or GCR reports is that of the
    residual of the returned vector for the matrix and the right-hand side in the files. *)
Theorem C111_reports : forall (F : Type) (O : SOps F) (RR : CRing F) ssqrt sabs slt sle inv hundred real_text scan_real nthr
    gp gi gv gd gmem gpar ginfo (P : tparams F) n body A b mat_text b_text,
  understands real_text scan_real -> 1 <= nthr -> 0 < n ->
  matrix_file real_text n body mat_text -> proper n body -> lists n body A -> vector_file real_text b b_text -> length b = n ->
  offered nthr P n body -> 0 < tp_maxiter P -> (tp_solver P = "bcgs"%string \/ tp_solver P = "gcr"%string /\ 0 < tp_restart P) ->
  nok (test_solve ssqrt sabs slt sle inv hundred scan_real nthr gp gi gv gd gmem gpar ginfo 1 P (Some mat_text) (Some b_text) None)
    (fun '(x, info) => reported ssqrt slt sle P n A b x info).
Proof.
  intros F O RR ssqrt sabs slt sle inv hundred real_text scan_real nthr gp gi gv gd gmem gpar ginfo P n body A b mat_text b_text
    Hs Hthr Hn Hmf Hprop HA Hbf Lb Hoff Hm Hsol.
  unfold test_solve. eapply nok_bind; [apply (read_matrix real_text scan_real n body mat_text Hs Hmf Hn Hprop)|].
  intros c (Hc & Hr & Hcn & Hsrt & Hnd & Hel).
  rewrite (read_vector real_text scan_real b b_text Hs Hbf). eapply nok_bind; [apply nok_lift, ok_ret, eq_refl|]. intros ? <-.
  destruct (converted n body c A (tp_order P) (gp true) (gi true) (gv true) (gd true) Hc Hr Hcn Hsrt Hnd Hel Hprop HA) as (M & d & E & Hnr & (Hw & _ & Hws) & Hv & _ & HM & _).
  destruct (converted n body c A (tp_order P) (gp false) (gi false) (gv false) (gd false) Hc Hr Hcn Hsrt Hnd Hel Hprop HA) as (Mc & d' & E' & Hnr' & Hmat & Hv' & Hend & HMc & Hpc).
  rewrite E. eapply nok_bind; [apply nok_lift, ok_ret, eq_refl|]. intros ? <-. rewrite E'. eapply nok_bind; [apply nok_lift, ok_ret, eq_refl|]. intros ? <-.
  cbv zeta. cbn [Nat.eqb]. rewrite Nat.mul_1_r, Hnr.
  destruct (made_prec inv ginfo nthr P n body Mc Hnr' Hmat Hv' Hend Hpc Hoff) as (opts & p & Eo & Ep & Heq & Hu & Hf & Hdim & Hcsc).
  rewrite Eo. eapply nok_bind; [apply nok_lift, ok_ret, eq_refl|]. intros ? <-. rewrite Ep. eapply nok_bind; [apply nok_lift, ok_ret, eq_refl|]. intros ? <-. cbn iota beta.
  assert (same_pattern Mc Mc) as Hsame by (repeat split).
  eapply nok_bind; [apply (C68_calls_return F O ssqrt sabs inv p nthr Mc Heq Hu); [lia|exact Hsame|exact Hf]|]. intros [st info0] Hst.
  eapply nok_bind.
  { apply (run_reported ssqrt slt sle hundred P n (dense M)); [| |exact Lb|exact Hm|exact Hsol].
    - rewrite <- Hnr. apply (proj1 (C99_matrix_views F O RR M Hw (sorted_nodup M Hws)) Hv).
    - rewrite <- Hdim. apply (used_object ssqrt sabs inv); auto. eauto. }
  intros [x info] (Lx & H1 & H2 & H3). cbn [check_solution]. eapply nok_bind; [apply nok_lift, ok_ret, eq_refl|]. intros ? <-. apply nok_ret.
  split; [exact Lx|]. split; [exact H1|]. split; [|exact H3]. rewrite H2. do 2 f_equal. unfold resid. apply list_fmap_ext. intros i k Hk.
  apply lookup_seq in Hk as [-> Hk]. f_equal. apply bsum_ext. intros j Hj. cbn. rewrite HM by lia. reflexivity.
Qed.
(** Whatever the preconditioner, the solver, the right-hand side file and the threads are: if the driver ends normally with a reference file, the
    returned vector is as close to the vector in that file as the limit says. *)
Theorem C111_checked : forall (F : Type) (O : SOps F) ssqrt sabs slt sle inv hundred real_text scan_real nthr
    gp gi gv gd gmem gpar ginfo (P : tparams F) n body mat_text b_file v x_text x info,
  understands real_text scan_real -> 0 < n -> matrix_file real_text n body mat_text -> proper n body -> vector_file real_text v x_text ->
  test_solve ssqrt sabs slt sle inv hundred scan_real nthr gp gi gv gd gmem gpar ginfo 1 P (Some mat_text) b_file (Some (Some x_text)) (Ok (x, info)) ->
  n <= length x /\ n <= length v /\ slt (ssqrt (bsum n (fun i => (vat x i - vat v i) * (vat x i - vat v i)))%s) (tp_testtol P) = true.
Proof.
  intros F O ssqrt sabs slt sle inv hundred real_text scan_real nthr gp gi gv gd gmem gpar ginfo P n body mat_text b_file v x_text x info Hs Hn Hmf Hprop Hvf H.
  unfold test_solve in H. apply nbind_Ok in H as (c & Hc & H). apply (nok_out _ _ _ (read_matrix real_text scan_real n body mat_text Hs Hmf Hn Hprop)) in Hc as (Hc & Hr & Hcn & Hsrt & Hnd & Hel).
  apply nbind_Ok in H as (b & _ & H). apply nbind_Ok in H as ([M d] & EM & H). apply nbind_Ok in H as ([Mc d'] & _ & H). cbv zeta in H.
  apply nbind_Ok in H as (opts & _ & H). apply nbind_Ok in H as ([p|] & _ & H); [|discriminate].
  apply nbind_Ok in H as ([st i0] & _ & H). apply nbind_Ok in H as ([x' info'] & _ & H). apply nbind_Ok in H as ([] & H & Hret).
  apply nret_Ok in Hret. injection Hret as -> ->.
  assert (nbrows M = n) as Hnr.
  { unfold nlift, getSRMatrixFromCOO in EM. cbn [Nat.eqb] in EM.
    destruct (C04_csr F c (gp true) (gi true) (gv true) (fun i => Z.to_nat (gd true i)) Hc) as (M' & E & Hn' & _). rewrite E in EM. cbn [bind] in EM. injection EM as -> _. lia. }
  unfold nlift, check_solution in H. rewrite Nat.mul_1_r, Hnr, (read_vector real_text scan_real v x_text Hs Hvf) in H. cbn [bind] in H.
  destruct (sum_squares n x' v) as [[(H1 & H2) E]|E]; rewrite E in H; cbn [bind] in H; [|discriminate].
  split; [exact H1|]. split; [exact H2|]. destruct (slt _ _) eqn:Es in H; [exact Es|discriminate].
Qed.

(** A solver with another name is never run: the driver does not end normally. *)
Theorem C111_unknown_solver : forall (F : Type) (O : SOps F) ssqrt sabs slt sle inv hundred scan_real nthr gp gi gv gd gmem gpar ginfo bs (P : tparams F) mat_file b_file x_file out,
  tp_solver P ∉ ["richardson"; "bcgs"; "gcr"]%string ->
  ~ test_solve ssqrt sabs slt sle inv hundred scan_real nthr gp gi gv gd gmem gpar ginfo bs P mat_file b_file x_file (Ok out).
Proof.
  intros F O ssqrt sabs slt sle inv hundred scan_real nthr gp gi gv gd gmem gpar ginfo bs P mat_file b_file x_file out Hsol H. unfold test_solve in H.
  apply nbind_Ok in H as (c & _ & H). apply nbind_Ok in H as (b & _ & H). apply nbind_Ok in H as ([M d] & _ & H). apply nbind_Ok in H as ([Mc d'] & _ & H). cbv zeta in H.
  apply nbind_Ok in H as (opts & _ & H). apply nbind_Ok in H as ([p|] & _ & H); [|discriminate]. apply nbind_Ok in H as ([st i0] & _ & H). apply nbind_Ok in H as ([x info] & H & _).
  unfold run_solver in H. rewrite !not_elem_of_cons in Hsol. destruct Hsol as (H1 & H2 & H3 & _).
  apply String.eqb_neq in H1, H2, H3. rewrite H1, H2, H3 in H. discriminate.
Qed.

(** ** A case: seven entries of a three by three matrix in some order, a right-hand side and its solution *)
Definition exMatText : string := lines ["%%MatrixMarket matrix coordinate real general"; "% a comment"; "3 3 7"; "3 2 2"; "1 1 2"; "2 2 2"; "1 2 1"; "2 1 2"; "2 3 1"; "3 3 5"]%string.
Definition exBText : string := lines ["%%MatrixMarket matrix array real general"; "3 1"; "3"; "5"; "7"]%string.
Definition exXText : string := lines ["%%MatrixMarket matrix array real general"; "3 1"; "1"; "1"; "1"]%string.
Definition exBody : list (Z * Z * Qc) := [(3, 2, q 2); (1, 1, q 2); (2, 2, q 2); (1, 2, q 1); (2, 1, q 2); (2, 3, q 1); (3, 3, q 5)]%Z.
Definition table (rows : list (list Qc)) (i j : nat) : Qc := vat (nth i rows []) j.
Definition exA := table [[q 2; q 1; q 0]; [q 2; q 2; q 1]; [q 0; q 2; q 5]].
Definition exLu := table [[q 2; q 1; q 0]; [q 1; q 1; q 1]; [q 0; q 2; q 3]].
Definition exParams (solver prec : string) : tparams Qc := TParams solver prec "init_original" "init_jacobi" "rowmajor" 1 1 64 10 5 (q 1 / q 10)%Qc (q 1 / q 10)%Qc.

Lemma sizes_dec line ws sizes : bool_decide ("010"%char ∉ list_ascii_of_string line) = true -> String.get 0 line <> Some "%"%char ->
  (forall n, n ∈ sizes -> is_int n) -> splits line ws -> Forall2 int_text ws sizes -> sizes_line line sizes.
Proof. intros H1 H2 H3 H4 H5. apply bool_decide_eq_true in H1. split; [exact H1|]. split; [exact H2|]. split; [exact H3|]. eauto. Qed.
Lemma no_newline_dec s : bool_decide ("010"%char ∉ list_ascii_of_string s) = true -> no_newline s.
Proof. intros H. apply bool_decide_eq_true in H. exact H. Qed.
Ltac ex_entry w1 w2 w3 r c v := refine (bt_entry _ nl w1 " " w2 " " w3 _ _ _ _ _ _ _ _ _ _ (digit_int r _ eq_refl) (digit_int c _ eq_refl) (ex_intro _ (Z.of_nat v) (conj (digit_int v _ eq_refl) eq_refl)) _ _ _ _);
  [first [apply blank1, in_blanks; reflexivity]|apply blank1, in_blanks; reflexivity|apply blank1, in_blanks; reflexivity|discriminate|discriminate|unfold is_int; lia|unfold is_int; lia|apply end_blank, in_blanks; reflexivity|].
Lemma ex_vector s1 s2 s3 (a b c : nat) : String.get a "0123456789" = Some s1 -> String.get b "0123456789" = Some s2 -> String.get c "0123456789" = Some s3 ->
  vector_file whole_text [q (Z.of_nat a); q (Z.of_nat b); q (Z.of_nat c)]
    (lines ["%%MatrixMarket matrix array real general"; "3 1"; String s1 ""; String s2 ""; String s3 ""]%string).
Proof.
  intros Ha Hb Hc. eexists "%%MatrixMarket matrix array real general"%string, [], "3 1"%string, [], _. split; [reflexivity|].
  split; [split; [apply no_newline_dec; reflexivity|]; eexists; split; [reflexivity|]; split; reflexivity|]. split; [constructor|].
  split.
  { apply (sizes_dec _ ["3"; "1"]%string); [reflexivity|discriminate| |apply C07_words; reflexivity|].
    - intros n Hn. rewrite !elem_of_cons, elem_of_nil in Hn. cbn in Hn. destruct Hn as [-> |[-> |[]]]; split; lia.
    - constructor; [exact (digit_int 3 _ eq_refl)|]. constructor; [exact (digit_int 1 _ eq_refl)|]. constructor. }
  split; [|unfold is_int; cbn; lia].
  refine (vt_value _ "" (String s1 "") _ _ _ blank_empty (ex_intro _ _ (conj (digit_int a _ Ha) eq_refl)) _ _); [apply end_blank, in_blanks; reflexivity|].
  refine (vt_value _ (String "010" "") (String s2 "") _ _ _ (blank1 "010" (in_blanks "010" eq_refl)) (ex_intro _ _ (conj (digit_int b _ Hb) eq_refl)) _ _); [apply end_blank, in_blanks; reflexivity|].
  refine (vt_value _ (String "010" "") (String s3 "") _ _ _ (blank1 "010" (in_blanks "010" eq_refl)) (ex_intro _ _ (conj (digit_int c _ Hc) eq_refl)) _ _); [apply end_blank, in_blanks; reflexivity|].
  apply vt_end.
Qed.
Lemma ex_place i j : i < 3 -> j < 3 -> place exBody i j <-> bool_decide ((i, j) ∈ [(2, 1); (0, 0); (1, 1); (0, 1); (1, 0); (1, 2); (2, 2)]) = true.
Proof.
  intros Hi Hj. rewrite bool_decide_eq_true. unfold place, exBody. split.
  - intros (v & Hv). rewrite !elem_of_cons, elem_of_nil in Hv. destruct Hv as [H|[H|[H|[H|[H|[H|[H|[]]]]]]]]; injection H as H1 H2 _;
      assert (i = Z.to_nat (Z.of_nat i + 1 - 1)) as -> by lia; assert (j = Z.to_nat (Z.of_nat j + 1 - 1)) as -> by lia; rewrite H1, H2; cbn;
      repeat (try (left; fail); try (apply elem_of_list_here); apply elem_of_list_further).
  - intros H. rewrite !elem_of_cons, elem_of_nil in H. destruct H as [H|[H|[H|[H|[H|[H|[H|[]]]]]]]]; injection H as -> ->; cbn;
      eexists; repeat (try (apply elem_of_list_here); apply elem_of_list_further).
Qed.
Example C111_matrix_case : matrix_file whole_text 3 exBody exMatText /\ proper 3 exBody /\ lists (O := Qc_ops) 3 exBody exA /\ fills_nothing 3 exBody /\
  factored (O := Qc_ops) 3 exBody exA exLu.
Proof.
  split; [|split; [|split; [|split]]].
  - eexists "%%MatrixMarket matrix coordinate real general"%string, ["% a comment"%string], "3 3 7"%string, [], _. split; [reflexivity|].
    split; [split; [apply no_newline_dec; reflexivity|]; eexists; split; [reflexivity|]; split; [reflexivity|]; split; [discriminate|reflexivity]|].
    split; [constructor; [split; [apply no_newline_dec; reflexivity|reflexivity]|constructor]|]. split.
    { apply (sizes_dec _ ["3"; "3"; "7"]%string); [reflexivity|discriminate| |apply C07_words; reflexivity|].
      - intros n Hn. rewrite !elem_of_cons, elem_of_nil in Hn. cbn in Hn. destruct Hn as [-> |[-> |[-> |[]]]]; split; lia.
      - constructor; [exact (digit_int 3 _ eq_refl)|]. constructor; [exact (digit_int 3 _ eq_refl)|]. constructor; [exact (digit_int 7 _ eq_refl)|]. constructor. }
    split; [intros k Hk; apply elem_of_nil in Hk as []|].
    refine (bt_entry _ "" "3" " " "2" " " "2" _ _ _ _ _ _ _ _ _ _ (digit_int 3 _ eq_refl) (digit_int 2 _ eq_refl) (ex_intro _ (Z.of_nat 2) (conj (digit_int 2 _ eq_refl) eq_refl)) _ _ _ _);
    [apply blank_empty|apply blank1, in_blanks; reflexivity|apply blank1, in_blanks; reflexivity|discriminate|discriminate|unfold is_int; lia|unfold is_int; lia|apply end_blank, in_blanks; reflexivity|].
    ex_entry "1"%string "1"%string "2"%string 1 1 2. ex_entry "2"%string "2"%string "2"%string 2 2 2. ex_entry "1"%string "2"%string "1"%string 1 2 1.
    ex_entry "2"%string "1"%string "2"%string 2 1 2. ex_entry "2"%string "3"%string "1"%string 2 3 1. ex_entry "3"%string "3"%string "5"%string 3 3 5.
    apply bt_end.
  - split; [|split].
    + intros ri ci v H. unfold exBody in H. rewrite !elem_of_cons, elem_of_nil in H. destruct H as [H|[H|[H|[H|[H|[H|[H|[]]]]]]]]; injection H as -> -> _; lia.
    + intros k1 k2 t1 t2 H1 H2 E. do 7 (destruct k1 as [|k1]; [injection H1 as <-; do 7 (destruct k2 as [|k2]; [injection H2 as <-; try reflexivity; discriminate E|]); discriminate H2|]). discriminate H1.
    + intros i Hi. apply ex_place; [exact Hi..|]. destruct i as [|[|[|]]]; [reflexivity..|lia].
  - intros i j Hi Hj. split.
    + intros v H. unfold exBody in H. rewrite !elem_of_cons, elem_of_nil in H. destruct i as [|[|[|]]], j as [|[|[|]]]; try lia; cbn in H;
        repeat (destruct H as [H|H]; [try discriminate H; injection H as ->; reflexivity|]); contradiction.
    + intros H. rewrite ex_place in H by assumption. destruct i as [|[|[|]]], j as [|[|[|]]]; try lia; try (exfalso; apply H; reflexivity); reflexivity.
  - intros i j k Hi Hj Hk1 Hk2. rewrite !ex_place by lia. destruct i as [|[|[|]]], j as [|[|[|]]], k as [|[|[|]]]; try lia; cbn; try discriminate; auto.
  - split; [|split].
    + intros i j Hi Hj H. rewrite ex_place in H by assumption. destruct i as [|[|[|]]], j as [|[|[|]]]; try lia; try (exfalso; apply H; reflexivity); reflexivity.
    + intros k Hk. destruct k as [|[|[|]]]; try lia; discriminate.
    + intros i j Hi Hj. destruct i as [|[|[|]]], j as [|[|[|]]]; try lia; apply Qc_is_canon; vm_compute; reflexivity.
Qed.
Example C111_case : forall solver prec, solver ∈ ["bcgs"; "gcr"; "richardson"]%string -> prec ∈ ["seqilu0"; "ilu0"; "sfilu0"; "sapilu0"]%string ->
  vector_file whole_text [q 3; q 5; q 7] exBText /\ vector_file whole_text [q 1; q 1; q 1] exXText /\ nonzero (O := Qc_ops) 3 [q 3; q 5; q 7] /\
  is_prod (O := Qc_ops) 3 exA [q 1; q 1; q 1] [q 3; q 5; q 7] /\ ordered_ilu 1 (exParams solver prec) /\
  one_step (O := Qc_ops) qsqrt qlt (exParams solver prec) 3 [q 3; q 5; q 7] /\ qlt (qsqrt (q 0)) (tp_testtol (exParams solver prec)) = true.
Proof.
  intros solver prec Hs Hp. split; [exact (ex_vector _ _ _ 3 5 7 eq_refl eq_refl eq_refl)|]. split; [exact (ex_vector _ _ _ 1 1 1 eq_refl eq_refl eq_refl)|].
  split; [exists 0; split; [lia|discriminate]|]. split.
  { intros k Hk. destruct k as [|[|[|]]]; try lia; apply Qc_is_canon; vm_compute; reflexivity. }
  split.
  { split; [rewrite elem_of_cons in Hp; cbn; tauto|]. split; [do 1 apply elem_of_list_further; apply elem_of_list_here|].
    split; [apply elem_of_list_further, elem_of_list_here|cbn; lia]. }
  split; [|vm_compute; reflexivity]. split; [vm_compute; reflexivity|]. cbn [tp_solver tp_maxiter tp_restart tp_tol exParams].
  rewrite !elem_of_cons, elem_of_nil in Hs. destruct Hs as [-> |[-> |[-> |[]]]]; [left|right; left|right; right]; (split; [reflexivity|]); try lia.
  split; [lia|vm_compute; reflexivity].
Qed.
Example C111_offered_case : forall solver prec, prec ∈ prec_names -> offered 1 (exParams solver prec) 3 exBody.
Proof.
  intros solver prec Hp. split; [exact Hp|]. split; [cbn; lia|]. split; [in_list|]. split; [in_list|]. split; [discriminate|]. split; [|auto].
  intros _ i j Hi Hj. rewrite !ex_place by assumption. destruct i as [|[|[|]]], j as [|[|[|]]]; try lia; cbn; auto.
Qed.

Print Assumptions C111_solves.
Print Assumptions C111_reports.
Print Assumptions C111_checked.
Print Assumptions C111_unknown_solver.
