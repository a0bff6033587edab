(** * PropTestReordered: property C113 (the test of reordered preconditioning) *)
From Coq Require Import ZArith Ascii String QArith.Qcanon.
From Verif Require Import Base Alg Norms SRMatrix Nd Reduction Matvec SolveSpec Coo CooSpec CooFacts CooRead PropCoo PropCooRead MMText PropMMText FileMat
  Kernels KernelFacts IluApply IluApplyFacts IluApplyProofs TriSpec TriFacts IluApplyMain IluPattern IluFactor IluFactorProofs IluFactorMain Sgs SgsForms SgsMain
  PropIluInit PropIluFactor PropIluSolve Factory Petsc Objects ObjFacts ObjHistory ObjAlg ObjTotal PropObjects PropLinear PropBicg PropKrylov Solvers BicgSpec SymSpec SymFacts SolversFacts PropSolvers TestSolve PropTestSolve
  PoissonSetup PropPoissonSetup Reorder ReorderFacts ReorderMain PropReorder ReorderedIlu PropReorderedIlu TestReordered Inst.
Open Scope nat_scope.

#[local] Instance ascii_eq : EqDecision ascii := ascii_dec.
#[local] Instance string_eq : EqDecision string := string_dec.

(** ** Specification *)
(** unknowns 1 and 3 change places *)
Definition swapped (i : nat) : nat := if i =? 1 then 3 else if i =? 3 then 1 else i.

(** ** The ordering *)
Lemma swapped_invol i : swapped (swapped i) = i.
Proof. unfold swapped. do 4 (destruct i as [|i]; [reflexivity|]). reflexivity. Qed.
Lemma swapped_lt n i : 4 <= n -> i < n -> swapped i < n.
Proof. unfold swapped. do 4 (destruct i as [|i]; [simpl; lia|]). simpl. lia. Qed.
Definition swap_list (N : nat) : list nat := swapped <$> seq 0 N.
Lemma swap_list_get N i : i < N -> swap_list N !!! i = swapped i.
Proof. intros H. apply list_lookup_total_correct. unfold swap_list. rewrite list_lookup_fmap, lookup_seq_lt by exact H. reflexivity. Qed.
Lemma swap_list_perm N : 4 <= N -> swap_list N ≡ₚ seq 0 N.
Proof.
  intros HN. apply NoDup_Permutation.
  - unfold swap_list. apply NoDup_fmap_2; [|apply NoDup_seq]. intros a b E. rewrite <- (swapped_invol a), E. apply swapped_invol.
  - apply NoDup_seq.
  - intros x. unfold swap_list. rewrite elem_of_list_fmap, elem_of_seq. split.
    + intros (y & -> & Hy). apply elem_of_seq in Hy. pose proof (swapped_lt N y HN ltac:(lia)). lia.
    + intros Hx. exists (swapped x). rewrite swapped_invol. split; [reflexivity|]. apply elem_of_seq. pose proof (swapped_lt N x HN ltac:(lia)). lia.
Qed.
Lemma iota_fill N : for_ 0 N (fun i v => set v i i) (replicate N 0) = Ok (seq 0 N).
Proof.
  assert (ok (for_ 0 N (fun i v => set v i i) (replicate N 0)) (fun v => length v = N /\ forall i, i < N -> v !! i = Some i)) as H.
  { apply (ok_for 0 N _ _ (fun k v => length v = N /\ forall i, i < k -> v !! i = Some i)); [lia|split; [apply replicate_length|lia]|].
    intros j v Hj [L Hv]. unfold set. rewrite decide_True by lia. simpl. split; [rewrite insert_length; exact L|].
    intros i Hi. destruct (decide (i = j)) as [-> |Hne]; [apply list_lookup_insert; lia|]. rewrite list_lookup_insert_ne by congruence. apply Hv. lia. }
  apply ok_inv in H as (v & -> & L & Hv). f_equal. apply list_eq. intros i. destruct (decide (i < N)) as [Hi|Hi].
  - rewrite Hv by exact Hi. rewrite lookup_seq_lt by exact Hi. reflexivity.
  - rewrite !lookup_ge_None_2; [reflexivity|rewrite seq_length; lia|lia].
Qed.

(** ** C113 *)
(** From four rows on the driver's ordering exchanges unknowns 1 and 3 in rows and columns; for smaller matrices it reads outside the vector. *)
Theorem C113_ordering : forall N,
  (4 <= N -> exists o p, trivial_reordering N = Ok o /\ with_ordering N (Some p) (Some p) o /\ forall i, i < N -> oget (Some p) i = swapped i) /\
  (N < 4 -> trivial_reordering N = UB).
Proof.
  intros N. unfold trivial_reordering. rewrite iota_fill. cbn [bind]. split; intros HN.
  - destruct (C18_set_ordering N (Some (swap_list N)) (Some (swap_list N)) (swap_list_perm N HN) (swap_list_perm N HN)) as (o & Ho).
    exists o, (swap_list N). split; [|split; [exact Ho|intros i Hi; apply swap_list_get, Hi]].
    unfold get, set. rewrite !lookup_seq_lt by lia. cbn [bind Nat.add]. rewrite decide_True by (rewrite seq_length; lia). cbn [bind].
    rewrite decide_True by (rewrite insert_length, seq_length; lia). cbn [bind].
    destruct Ho as (_ & _ & <-). replace (<[3:=1]> (<[1:=3]> (seq 0 N))) with (swap_list N); [reflexivity|].
    apply list_eq. intros i. unfold swap_list. rewrite list_lookup_fmap. unfold swapped.
    destruct (decide (i = 3)) as [-> |H3]; [rewrite list_lookup_insert by (rewrite insert_length, seq_length; lia); rewrite lookup_seq_lt by lia; reflexivity|].
    rewrite list_lookup_insert_ne by congruence.
    destruct (decide (i = 1)) as [-> |H1]; [rewrite list_lookup_insert by (rewrite seq_length; lia); rewrite lookup_seq_lt by lia; reflexivity|].
    rewrite list_lookup_insert_ne by congruence. destruct (decide (i < N)) as [Hi|Hi].
    + rewrite lookup_seq_lt by exact Hi. cbn. rewrite (proj2 (Nat.eqb_neq i 1)), (proj2 (Nat.eqb_neq i 3)) by assumption. reflexivity.
    + rewrite lookup_ge_None_2 by (rewrite seq_length; lia). reflexivity.
  - do 4 (destruct N as [|N]; [reflexivity|]). lia.
Qed.
(** In a matrix with an entry in exactly one of the places (1,0) and (3,0), for example in every tridiagonal matrix, the reordered matrix has an
    entry in place (1,1), but its diagonal index for row 1 does not point to it. *)
Theorem C113_diagonal_lost : forall (F : Type) (O : SOps F) (M : srmat F) o,
  mat_ok 1 M -> wf_sorted M -> wf_diag M -> trivial_reordering (nbrows M) = Ok o ->
  ~ (pos M 1 0 <> None <-> pos M 3 0 <> None) ->
  nok (applyOrdering_mat 1 o FORWARD M) (fun R => pos R 1 1 <> None /\ ~ (rp R 1 <= dg R 1 < rp R 2 /\ col R (dg R 1) = 1)).
Proof.
  intros F O M o HM Hs Hd Eo Hx.
  destruct (le_lt_dec 4 (nbrows M)) as [Hn|Hn]; [|rewrite (proj2 (C113_ordering _) Hn) in Eo; discriminate].
  destruct (proj1 (C113_ordering (nbrows M)) Hn) as (o' & p & Eo' & Ho & Hp). rewrite Eo in Eo'. injection Eo' as <-.
  pose proof (with_ordering_of _ _ _ _ Ho) as Ho'. pose proof HM as (Hw & Hnd & Hv).
  eapply nok_mono; [apply (nok_and _ _ _ (C19_forward F O 1 M _ _ o HM Ho) (order_fwd 1 (Some p) (Some p) o (nbrows M) (proj1 Ho) (proj1 (proj2 Ho)) Ho' M eq_refl Hw Hv))|].
  intros R [(En & _ & (HwR & _) & HsR & Hst) [Hm _]]. specialize (HsR ltac:(left; discriminate)).
  assert (forall i j, i < nbrows M -> j < nbrows M -> pos R i j <> None <-> pos M (swapped i) (swapped j) <> None) as Hpos.
  { intros i j Hi Hj. specialize (Hst i j Hi Hj). rewrite !Hp in Hst by assumption. unfold stored in Hst.
    destruct (pos R i j), (pos M (swapped i) (swapped j)); simpl in Hst; split; congruence. }
  destruct Hd as [_ Hd]. split.
  { apply Hpos; [lia..|]. destruct (Hd 3 ltac:(lia)) as [H1 H2]. change (swapped 1) with 3. intros E. apply (proj1 (pos_None M 3 3 ltac:(lia)) E (dg M 3)); [split; [lia|exact H1]|exact H2]. }
  intros [HR1 HR2].
  assert (rp R 1 = rp M 1) as E1.
  { destruct (mp_row _ _ _ _ _ Hm 0 ltac:(lia)) as [L0 _]. rewrite Hp in L0 by lia. change (swapped 0) with 0 in L0. unfold rowlen in L0. simpl in L0.
    pose proof (wf_0 M Hw). pose proof (wf_0 R HwR). pose proof (wf_mono M Hw 0 ltac:(lia)). pose proof (wf_mono R HwR 0 ltac:(lia)). simpl in *. lia. }
  assert (dg R 1 = dg M 1) as Edg by (unfold dg; rewrite (mp_dg _ _ _ _ _ Hm); reflexivity). rewrite Edg in HR1, HR2.
  destruct (Hd 1 ltac:(lia)) as [HM1 HM2]. simpl in HM1. set (k := dg M 1) in *.
  assert (pos R 1 0 <> None <-> pos M 3 0 <> None) as H30 by (apply (Hpos 1 0); lia).
  (** the first place of row 1 is its diagonal if and only if there is no entry in column 0 *)
  assert (forall X : srmat F, 1 < nbrows X -> wf_sorted X -> rp X 1 <= k < rp X 2 -> col X k = 1 -> k = rp X 1 <-> pos X 1 0 = None) as Hfirst.
  { intros X HX HsX Hk Hc. split.
    - intros ->. apply pos_None; [exact HX|]. intros j [_ Hj] Hcj. simpl in Hj. destruct (decide (j = rp X 1)) as [-> |]; [lia|].
      pose proof (HsX 1 (rp X 1) j ltac:(lia)) as H. simpl in H. lia.
    - intros H0. destruct (decide (k = rp X 1)) as [|Hne]; [assumption|]. exfalso.
      pose proof (HsX 1 (rp X 1) k ltac:(lia)) as H. simpl in H.
      apply (proj1 (pos_None X 1 0 ltac:(lia)) H0 (rp X 1)); [split; [lia|simpl; lia]|lia]. }
  pose proof (Hfirst M ltac:(lia) Hs HM1 HM2) as F1. pose proof (Hfirst R ltac:(lia) HsR HR1 HR2) as F2. rewrite E1 in F2.
  apply Hx. rewrite <- H30. destruct (pos M 1 0), (pos R 1 0); split; intros; try congruence; exfalso; [assert (Some n = None) by tauto|assert (Some n = None) by tauto]; discriminate.
Qed.
(** If the driver ends normally, both vectors are within the limit of the reference file and the matrix has at least four rows. *)
Theorem C113_checked : forall (F : Type) (O : SOps F) ssqrt sabs slt inv hundred real_text scan_real nthr
    gp gi gv gd gmem gmem2 gpar (P : tparams F) n body mat_text b_file v x_text x info x2 info2,
  understands real_text scan_real -> 0 < n -> matrix_file real_text n body mat_text -> proper n body -> vector_file real_text v x_text ->
  test_reordered ssqrt sabs slt inv hundred scan_real nthr gp gi gv gd gmem gmem2 gpar P (Some mat_text) (Some x_text) b_file (Ok ((x, info), (x2, info2))) ->
  4 <= n /\ (tp_solver P = "richardson"%string \/ tp_solver P = "bcgs"%string) /\ n <= length x /\ n <= length x2 /\ n <= length v /\
  slt (ssqrt (bsum n (fun i => (vat x i - vat v i) * (vat x i - vat v i)))%s) (tp_testtol P) = true /\
  slt (ssqrt (bsum n (fun i => (vat x2 i - vat v i) * (vat x2 i - vat v i)))%s) (tp_testtol P) = true.
Proof.
  intros F O ssqrt sabs slt inv hundred real_text scan_real nthr gp gi gv gd gmem gmem2 gpar P n body mat_text b_file v x_text x info x2 info2 Hs Hn Hmf Hprop Hvf H.
  unfold test_reordered in H. apply nbind_Ok in H as (c & Hc & H). apply (nok_out _ _ _ (read_matrix real_text scan_real n body mat_text Hs Hmf Hn Hprop)) in Hc as (Hc & Hr & Hcn & Hsrt & Hnd & Hel).
  rewrite (read_vector real_text scan_real v x_text Hs Hvf) in H. apply nbind_Ok in H as (ans & Ea & H). injection Ea as ->.
  apply nbind_Ok in H as (b & _ & H). apply nbind_Ok in H as ([M d] & EM & H). cbv zeta in H.
  assert (nbrows M = n) as Hnr.
  { unfold nlift, getSRMatrixFromCOO in EM. cbn [Nat.eqb] in EM.
    destruct (C04_csr F c (gp 0) (gi 0) (gv 0) (fun i => Z.to_nat (gd 0 i)) Hc) as (M' & E & Hn' & _). rewrite E in EM. cbn [bind] in EM. injection EM as -> _. lia. }
  rewrite Hnr in H.
  apply nbind_Ok in H as ([M1 d1] & _ & H). apply nbind_Ok in H as (fi & _ & H). apply nbind_Ok in H as (ai & _ & H).
  apply nbind_Ok in H as ([st i0] & _ & H). apply nbind_Ok in H as ([x' info'] & Hrun & H). apply nbind_Ok in H as ([] & Hck & H).
  apply nbind_Ok in H as (o & Eo & H). apply nbind_Ok in H as ([M2 d2] & _ & H). apply nbind_Ok in H as ([st2 R] & _ & H).
  apply nbind_Ok in H as ([x2' info2'] & _ & H). apply nbind_Ok in H as ([] & Hck2 & Hret). apply nret_Ok in Hret. injection Hret as -> -> -> ->.
  split. { destruct (le_lt_dec 4 n) as [|Hlt]; [assumption|]. unfold nlift in Eo. rewrite (proj2 (C113_ordering n) Hlt) in Eo. discriminate. }
  split. { unfold run_two in Hrun. destruct (String.eqb_spec (tp_solver P) "richardson"); [auto|]. destruct (String.eqb_spec (tp_solver P) "bcgs"); [auto|]. discriminate. }
  unfold nlift, check_error in Hck, Hck2.
  destruct (sum_squares n x' v) as [[(H1 & H2) E]|E]; rewrite E in Hck; cbn [bind] in Hck; [|discriminate].
  destruct (sum_squares n x2' v) as [[(H3 & _) E2]|E2]; rewrite E2 in Hck2; cbn [bind] in Hck2; [|discriminate].
  split; [exact H1|]. split; [exact H3|]. split; [exact H2|]. split; [destruct (slt _ _) eqn:Es in Hck; [exact Es|discriminate]|destruct (slt _ _) eqn:Es in Hck2; [exact Es|discriminate]].
Qed.
(** ** Full matrices *)
(** in a row with all columns, each column is at its own place *)
Lemma full_row {A} (X : srmat A) i : wf_pat X -> wf_sorted X -> i < nbrows X -> (forall j, j < nbrows X -> pos X i j <> None) ->
  rp X (i + 1) = rp X i + nbrows X /\ forall j, j < nbrows X -> col X (rp X i + j) = j.
Proof.
  intros Hw Hs Hi Hall.
  assert (forall j, j < nbrows X -> rp X i + j < rp X (i + 1) /\ col X (rp X i + j) = j) as Hpl.
  { induction j as [j IH] using lt_wf_ind. intros Hj. destruct (pos X i j) as [m|] eqn:Em; [|destruct (Hall j Hj Em)].
    apply pos_Some in Em as [[_ Hm] Hc]; [|exact Hi]. destruct (lt_eq_lt_dec (m - rp X i) j) as [[Hlt|Heq]|Hgt].
    - destruct (IH (m - rp X i) Hlt ltac:(lia)) as [_ H]. replace (rp X i + (m - rp X i)) with m in H by lia. lia.
    - replace (rp X i + j) with m by lia. split; [lia|exact Hc].
    - exfalso. assert (col X (rp X i + j) < j) as Hcj by (rewrite <- Hc at 2; apply (Hs i); lia).
      destruct (IH (col X (rp X i + j)) Hcj ltac:(lia)) as [_ H].
      assert (col X (rp X i + col X (rp X i + j)) < col X (rp X i + j)) by (apply (Hs i); lia). lia. }
  split; [|intros j Hj; apply Hpl, Hj].
  destruct (Hpl (nbrows X - 1) ltac:(lia)) as [H1 H2]. destruct (decide (rp X (i + 1) = rp X i + nbrows X)) as [|Hne]; [assumption|]. exfalso.
  assert (inrow X i (rp X i + nbrows X)) as Hr by (split; [exact Hi|lia]). pose proof (wf_col X Hw _ (inrow_lt X i _ Hw Hr)) as Hb.
  assert (col X (rp X i + (nbrows X - 1)) < col X (rp X i + nbrows X)) by (apply (Hs i); lia). lia.
Qed.
Lemma full_rows {A} (X : srmat A) : wf_pat X -> wf_sorted X -> (forall i j, i < nbrows X -> j < nbrows X -> pos X i j <> None) ->
  forall i, i <= nbrows X -> rp X i = i * nbrows X.
Proof.
  intros Hw Hs Hall. induction i as [|i IH]; intros Hi; [apply (wf_0 X Hw)|]. rewrite <- Nat.add_1_r.
  destruct (full_row X i Hw Hs ltac:(lia) (fun j Hj => Hall i j ltac:(lia) Hj)) as [-> _]. rewrite IH by lia. lia.
Qed.
Lemma full_diag {A} (M X : srmat A) : wf_pat M -> wf_sorted M -> wf_diag M -> wf_pat X -> wf_sorted X -> nbrows X = nbrows M -> diagind X = diagind M ->
  (forall i j, i < nbrows M -> j < nbrows M -> pos M i j <> None /\ pos X i j <> None) -> wf_diag X.
Proof.
  intros Hw Hs [Hl Hd] HwX HsX En Ed Hall. split; [congruence|]. intros i Hi. rewrite En in Hi. assert (dg X i = dg M i) as -> by (unfold dg; rewrite Ed; reflexivity).
  destruct (Hd i Hi) as [H1 H2]. destruct (full_row M i Hw Hs Hi ltac:(intros; apply Hall; lia)) as [E1 C1].
  destruct (full_row X i HwX HsX ltac:(lia) ltac:(intros; apply Hall; lia)) as [E2 C2]. rewrite En in *.
  pose proof (full_rows M Hw Hs ltac:(intros; apply Hall; lia) i ltac:(lia)) as R1.
  pose proof (full_rows X HwX HsX ltac:(intros; apply Hall; lia) i ltac:(lia)) as R2. rewrite En in R2.
  pose proof (C1 (dg M i - rp M i) ltac:(lia)) as C1'. replace (rp M i + (dg M i - rp M i)) with (dg M i) in C1' by lia.
  split; [lia|]. replace (dg M i) with (rp X i + i) by lia. apply C2. lia.
Qed.
Lemma dense_stored {F} {O : SOps F} (X : srmat F) a b : dense X a b = match stored 1 X a b with Some bl => default s0 (bl !! 0) | None => s0 end.
Proof. unfold dense, stored. destruct (pos X a b) as [p|]; [|reflexivity]. simpl. rewrite lookup_take, lookup_drop by lia. f_equal. f_equal. lia. Qed.

(** the matrix with unknowns 1 and 3 exchanged, scaled from both sides so that its diagonal becomes one *)
Definition prepared {F} {O : SOps F} (ssqrt : F -> F) (A : nat -> nat -> F) (i j : nat) : F :=
  let B := fun i j => A (swapped i) (swapped j) in (s1 / ssqrt (B i i) * B i j * (s1 / ssqrt (B j j)))%s.
(** elimination without pivoting works: the factors, without the ones on the diagonal of the first *)
Definition eliminated {F} {O : SOps F} (n : nat) (B lu : nat -> nat -> F) : Prop :=
  (forall k, k < n -> lu k k <> s0) /\ forall i j, i < n -> j < n -> bsum n (fun k => unitlower lu i k * upper lu k j)%s = B i j.

Lemma reordered_direct {F} {O : SOps F} ssqrt (M : srmat F) A lu o n : nbrows M = n -> wf_mat M -> wf_vals 1 M -> 4 <= n -> trivial_reordering n = Ok o ->
  (forall i j, i < n -> j < n -> dense M i j = A i j) -> (forall i j, i < n -> j < n -> pos M i j <> None) ->
  (forall i, i < n -> ssqrt (A i i) <> s0) -> eliminated n (prepared ssqrt A) lu ->
  forall R, applyOrdering_mat 1 o FORWARD M (Ok R) -> direct_case ssqrt R.
Proof.
  intros En (Hw & Hd & Hs) Hv Hn Eo HA Hall Hsq [Hp Hlu] R HR.
  destruct (proj1 (C113_ordering n) Hn) as (o' & p & Eo' & Ho & Hpe). rewrite Eo in Eo'. injection Eo' as <-. rewrite <- En in Ho.
  pose proof (with_ordering_of _ _ _ _ Ho) as Ho'. assert (mat_ok 1 M) as HM by (split; [exact Hw|]; split; [apply sorted_nodup, Hs|exact Hv]).
  pose proof (nok_and _ _ _ (C19_forward F O 1 M _ _ o HM Ho) (order_fwd 1 (Some p) (Some p) o (nbrows M) (proj1 Ho) (proj1 (proj2 Ho)) Ho' M eq_refl Hw Hv)) as Hok.
  pose proof (proj2 Hok _ HR) as Hok'. destruct Hok' as [(EnR & _ & (HwR & _) & HsR & Hst) [Hm _]]. specialize (HsR ltac:(left; discriminate)). rewrite En in *.
  assert (forall i j, i < n -> j < n -> pos R i j <> None) as HallR.
  { intros i j Hi Hj. specialize (Hst i j Hi Hj). rewrite (Hpe i Hi), (Hpe j Hj) in Hst. pose proof (Hall (swapped i) (swapped j) (swapped_lt n i Hn Hi) (swapped_lt n j Hn Hj)).
    unfold stored in Hst. destruct (pos R i j), (pos M (swapped i) (swapped j)); simpl in Hst; congruence. }
  assert (forall i j, i < n -> j < n -> dense R i j = A (swapped i) (swapped j)) as Hden.
  { intros i j Hi Hj. rewrite dense_stored, Hst, !Hpe, <- dense_stored by assumption. apply HA; apply swapped_lt; assumption. }
  split; [|split; [|split]].
  - split; [exact HwR|]. split; [|exact HsR]. apply (full_diag M R); auto; [congruence|apply (mp_dg _ _ _ _ _ Hm)|]. intros i j Hi Hj. rewrite En in *. auto.
  - intros i c t Hi Hc _ _ _ _. apply HallR; lia.
  - intros i Hi. rewrite EnR in Hi. rewrite Hden by assumption. apply Hsq, swapped_lt; assumption.
  - pose (v := (fun k => lu (rowof R k) (col R k)) <$> seq 0 (nnz R)).
    assert (forall i j, i < n -> j < n -> entry R v i j = lu i j) as Hev.
    { intros i j Hi Hj. unfold entry. destruct (pos R i j) as [k|] eqn:Ek; [|destruct (HallR i j Hi Hj Ek)].
      apply pos_Some in Ek as [Hk Hc]; [|lia]. assert (k < nnz R) as Hkn by (eapply inrow_lt; [exact HwR|exact Hk]).
      unfold v. rewrite vat_fmap_seq by exact Hkn. rewrite (rowof_inrow R i k HwR Hk), Hc. reflexivity. }
    exists v. split; [unfold v; rewrite fmap_length, seq_length; reflexivity|]. rewrite EnR. split.
    + intros i Hi. rewrite Hev by assumption. apply Hp, Hi.
    + intros i c Hi Hc _. rewrite EnR in *. transitivity (prepared ssqrt A i c).
      * rewrite <- Hlu by assumption. unfold mprod. apply bsum_ext. intros k Hk. unfold unitlower, upper. rewrite !Hev by assumption. reflexivity.
      * unfold scaled_mat, scale_used, diagonal_scale, prepared. rewrite !vat_fmap_seq by assumption. rewrite !Hden by assumption. reflexivity.
Qed.
Lemma nok_forall {A B} (m : nd A) (Q : B -> A -> Prop) (b0 : B) : (forall b, nok m (Q b)) -> nok m (fun a => forall b, Q b a).
Proof.
  intros H. split; [apply (H b0)|]. intros x Hx. pose proof (fun b => proj2 (H b) x Hx) as H'. destruct x; simpl in *; auto; apply (H' b0).
Qed.
(** settings of the driver that the theorem below is about *)
Definition tested {F} (P : tparams F) : Prop :=
  tp_finit P ∈ ["init_zero"; "init_original"; "init_none"]%string /\ tp_ainit P ∈ ["init_zero"; "init_jacobi"]%string /\
  (1 <= tp_nbuild P /\ 1 <= tp_napply P /\ 1 <= tp_chunk P)%Z /\ (tp_solver P = "bcgs" \/ tp_solver P = "richardson")%string.
Section Solves.
  Context {F : Type} {O : SOps F} {FF : Field F}.
  Add Ring FrS : (@cring F O field_ring).
  Variables (ssqrt sabs : F -> F) (slt sle : F -> F -> bool) (inv : list F -> list F) (hundred : F).
  Lemma run_two_solver (P : tparams F) N Aa Ag pr b x : (tp_solver P = "bcgs" \/ tp_solver P = "richardson")%string ->
    run_two ssqrt slt hundred P N Aa Ag pr b x = run_solver ssqrt slt sle hundred P N Aa Ag pr b x.
  Proof. unfold run_two, run_solver. intros [-> | ->]; reflexivity. Qed.
  Lemma check_error_exact N testtol (x v : list F) : length x = N -> length v = N -> (forall i, i < N -> vat x i = vat v i) -> slt (ssqrt s0) testtol = true ->
    check_error ssqrt slt N testtol x v = Ok Datatypes.tt.
  Proof.
    intros Lx Lv E Ht. unfold check_error.
    assert (ok (for_ 0 N (fun i l2 => let! a := get x i in let! b := get v i in Ok (l2 + (a - b) * (a - b))%s) s0) (fun l => l = s0)) as Hok.
    { apply (ok_for 0 N _ _ (fun _ l => l = s0)); [lia|reflexivity|]. intros j l Hj ->.
      destruct (lookup_lt_is_Some_2 x j) as [a Ha]; [lia|]. destruct (lookup_lt_is_Some_2 v j) as [b Hb]; [lia|].
      unfold get. rewrite Ha, Hb. cbn. specialize (E j ltac:(lia)). unfold vat in E. rewrite Ha, Hb in E. cbn in E. subst b. ring. }
    apply ok_inv in Hok as (l & -> & ->). cbn [bind]. rewrite Ht. reflexivity.
  Qed.
  Lemma reordered_linear n (M : srmat F) K o gi gs nb na chunk fi ai : nbrows M = n -> mat_ok 1 M -> 4 <= n -> trivial_reordering n = Ok o ->
    (forall R, applyOrdering_mat 1 o FORWARD M (Ok R) -> direct_case ssqrt R) -> is_inverse n (dense M) K ->
    length gi = nnz M -> length gs = n -> (1 <= nb)%Z -> (1 <= na)%Z -> (1 <= chunk)%Z -> fi <> INIT_F_SGS -> ai <> INIT_A_NONE ->
    nok (chunked chunk (fun c => reordered_compute ssqrt sabs (Z.to_nat nb) c false 1 fi gi gs o M ilu_new)) (fun '(st, R) =>
      linear_prec n K (reordered_prec 1 n o st R (ReorderedAsyncILU0 nb na chunk fi ai false false))).
  Proof.
    intros En HM Hn Eo Hdir HK Lgi Lgs Hnb Hna Hch Hfi Hai.
    destruct (proj1 (C113_ordering n) Hn) as (o' & p & Eo' & Ho & Hp). rewrite Eo in Eo'. injection Eo' as <-. subst n.
    unfold chunked. rewrite (proj2 (Z.leb_gt chunk 0)) by lia.
    assert (forall i, i < nbrows M -> oget (Some p) (oget (Some p) i) = i) as Hinv.
    { intros i Hi. rewrite (Hp i Hi), (Hp (swapped i)) by (apply swapped_lt; assumption). apply swapped_invol. }
    eapply nok_mono.
    { apply (nok_forall _ (fun r '(st, R) => length r = nbrows M -> forall ytemp rb z0, length ytemp = nbrows M -> length rb = nbrows M -> length z0 = nbrows M ->
        nok (reordered_apply o st R ytemp (Z.to_nat na) (Z.to_nat chunk) true 1 ai rb r z0) (fun '(_, z) => length z = nbrows M /\ is_prod (nbrows M) (dense M) z r)) []).
      intros r. destruct (decide (length r = nbrows M)) as [Lr|Lr].
      - eapply nok_mono; [apply nok_and; [
          apply (C59_reordered_apply F O FF ssqrt sabs M (Some p) (Some p) o r HM Ho Lr Hdir (Z.to_nat nb) (Z.to_nat chunk) false 1 fi gi gs); auto; lia|
          apply (C59_solves_if_involution F O FF ssqrt sabs M (Some p) (Some p) o r HM Ho Lr Hdir Hinv (Z.to_nat nb) (Z.to_nat chunk) false 1 fi gi gs); auto; lia]|].
        intros [st R] [(_ & y & pr & _ & _ & _ & _ & H1) H2] _ ytemp rb z0 L1 L2 L3.
        eapply nok_mono; [apply nok_and; [apply (H1 ytemp rb z0 (Z.to_nat na) (Z.to_nat chunk) true 1 ai); auto; lia|apply (H2 ytemp rb z0 (Z.to_nat na) (Z.to_nat chunk) true 1 ai); auto; lia]|].
        intros [y' z] [[L _] Hz]. auto.
      - eapply nok_mono; [apply (C59_reordered_apply F O FF ssqrt sabs M (Some p) (Some p) o (replicate (nbrows M) s0) HM Ho (replicate_length _ _) Hdir (Z.to_nat nb) (Z.to_nat chunk) false 1 fi gi gs); auto; lia|].
        intros [st R] _ L. contradiction. }
    intros [st R] H r z Lr Lz. unfold reordered_prec. cbn [ReorderedAsyncILU0 AsyncILU0_default AsyncILU0 i_chunk i_napply i_tapply i_ainit]. unfold chunked.
    rewrite (proj2 (Z.leb_gt chunk 0)) by lia.
    assert (forall ytemp rb, length ytemp = nbrows M -> length rb = nbrows M ->
      nok (ndo (_, z') := reordered_apply o st R ytemp (Z.to_nat na) (Z.to_nat chunk) true 1 ai rb r z in nret z') (fun y' => length y' = nbrows M /\ is_prod (nbrows M) K r y')) as Hone.
    { intros ytemp rb L1 L2. eapply nok_bind; [apply (H r Lr ytemp rb z L1 L2 Lz)|]. intros [y' z'] [L Hz]. apply nok_ret. split; [exact L|].
      intros i Hi. symmetry. apply (inverse_apply (nbrows M) (dense M) K (vat r) (vat z') HK (fun i Hi => eq_sym (Hz i Hi)) i Hi). }
    split.
    - destruct (Hone (replicate (nbrows M) s0) (replicate (nbrows M) s0) (replicate_length _ _) (replicate_length _ _)) as [[out Hout] _].
      exists out, (replicate (nbrows M) s0), (replicate (nbrows M) s0). rewrite !replicate_length. auto.
    - intros out (ytemp & rb & L1 & L2 & Hout). apply (proj2 (Hone ytemp rb L1 L2) out Hout).
  Qed.
End Solves.

(** The files list all entries of a matrix with at least four rows, a right-hand side and the solution; there is one thread; elimination without pivoting
    works for the matrix and for the reordered and scaled one. Then the driver ends normally and both solves return the solution after one step. *)
Theorem C113_solves : forall (F : Type) (O : SOps F) (FF : Field F) (ps : F -> Prop) ssqrt sabs slt inv hundred real_text scan_real
    gp gi gv gd gmem gmem2 gpar (P : tparams F) n body A lu lu2 b v mat_text x_text b_text,
  ordered ps -> understands real_text scan_real -> 4 <= n ->
  matrix_file real_text n body mat_text -> proper n body -> lists n body A -> (forall i j, i < n -> j < n -> place body i j) ->
  eliminated n A lu -> (forall i, i < n -> ssqrt (A i i) <> s0) -> eliminated n (prepared ssqrt A) lu2 ->
  vector_file real_text b b_text -> length b = n -> nonzero n b -> vector_file real_text v x_text -> length v = n -> is_prod n A v b ->
  tested P -> one_step ssqrt slt P n b -> slt (ssqrt s0) (tp_testtol P) = true ->
  nok (test_reordered ssqrt sabs slt inv hundred scan_real 1 gp gi gv gd gmem gmem2 gpar P (Some mat_text) (Some x_text) (Some b_text))
    (fun '((x, info), (x2, info2)) => length x = n /\ iters info = 1 /\ is_prod n A x b /\ length x2 = n /\ iters info2 = 1 /\ is_prod n A x2 b).
Proof.
  intros F O FF ps ssqrt sabs slt inv hundred real_text scan_real gp gi gv gd gmem gmem2 gpar P n body A lu lu2 b v mat_text x_text b_text
    Hpos Hs Hn Hmf Hprop HA Hfull Hlu Hsq Hlu2 Hbf Lb Hnz Hvf Lv Hvs (Hfi & Hai & (Hnb & Hna & Hch) & Hsol) Hone Htt.
  unfold test_reordered. eapply nok_bind; [apply (read_matrix real_text scan_real n body mat_text Hs Hmf ltac:(lia) Hprop)|].
  intros c (Hc & Hr & Hcn & Hsrt & Hnd & Hel).
  rewrite (read_vector real_text scan_real v x_text Hs Hvf). eapply nok_bind; [apply nok_lift, ok_ret, eq_refl|]. intros ? <-.
  rewrite (read_vector real_text scan_real b b_text Hs Hbf). eapply nok_bind; [apply nok_lift, ok_ret, eq_refl|]. intros ? <-.
  destruct (converted n body c A (tp_order P) (gp 0) (gi 0) (gv 0) (gd 0) Hc Hr Hcn Hsrt Hnd Hel Hprop HA) as (M & d & E & Hnr & (Hw & _ & Hws) & Hv & _ & HM & _).
  destruct (converted n body c A (tp_order P) (gp 1) (gi 1) (gv 1) (gd 1) Hc Hr Hcn Hsrt Hnd Hel Hprop HA) as (M1 & d1 & E1 & Hnr1 & Hmat1 & Hv1 & Hend1 & HM1 & Hpc1).
  destruct (converted n body c A (tp_order P) (gp 2) (gi 2) (gv 2) (gd 2) Hc Hr Hcn Hsrt Hnd Hel Hprop HA) as (M2 & d2 & E2 & Hnr2 & Hmat2 & Hv2 & _ & HM2 & Hpc2).
  rewrite E. eapply nok_bind; [apply nok_lift, ok_ret, eq_refl|]. intros ? <-. cbv zeta. rewrite Hnr.
  rewrite E1. eapply nok_bind; [apply nok_lift, ok_ret, eq_refl|]. intros ? <-.
  assert (exists ai, getApplyInitFromString (tp_ainit P) = Ok ai /\ ai <> INIT_A_NONE) as (ai & Eai & Hane).
  { rewrite !elem_of_cons, elem_of_nil in Hai. destruct Hai as [-> |[-> |[]]]; eexists; (split; [reflexivity|discriminate]). }
  assert (exists fi, getFactInitFromString (tp_finit P) = Ok fi /\ fi <> INIT_F_SGS) as (fi & Efi & Hfne).
  { rewrite !elem_of_cons, elem_of_nil in Hfi. destruct Hfi as [-> |[-> |[-> |[]]]]; eexists; (split; [reflexivity|discriminate]). }
  rewrite Efi. eapply nok_bind; [apply nok_lift, ok_ret, eq_refl|]. intros ? <-. rewrite Eai. eapply nok_bind; [apply nok_lift, ok_ret, eq_refl|]. intros ? <-.
  set (i := AsyncILU0_default (tp_nbuild P) (tp_napply P) false (tp_chunk P) fi ai false false). set (p := PIlu Scalar i).
  assert (i_nbuild i = tp_nbuild P /\ i_napply i = tp_napply P /\ i_chunk i = tp_chunk P) as (Hi1 & Hi2 & Hi3) by auto.
  assert (well_equipped inv p M1) as Heq by (split; [exact Hmat1|]; split; [discriminate|]; split; [exact Logic.I|exact Hend1]).
  assert (usable p) as Hu by (split; [cbn; lia|]; split; [exact Hane|]; intros _; right; reflexivity).
  assert (same_pattern M1 M1) as Hsame by (repeat split).
  assert (fits (pshape p) M1) as Hf by (unfold wf_vals in Hv1; unfold ObjFacts.fits; cbn [pshape bsize p]; lia).
  eapply nok_bind; [apply (C68_calls_return F O ssqrt sabs inv p 1 M1 Heq Hu); [lia|exact Hsame|exact Hf]|]. intros [st info0] Hst.
  assert (obj_dim p M1 = n) as Hdim by (unfold obj_dim; cbn [p pshape width]; lia).
  assert (no_fill M1) as Hnf by (intros i0 j k Hi0 Hj _ _ _ _; apply Hpc1; [lia|lia|apply Hfull; lia]).
  assert (factored n body A lu) as Hfac by (destruct Hlu as [L1 L2]; split; [intros i0 j Hi0 Hj Hno; destruct (Hno (Hfull i0 j Hi0 Hj))|split; assumption]).
  destruct (C109_no_fill F O FF ssqrt sabs inv 1 1 Scalar i p M1 M1 (or_introl eq_refl) Hnf Heq Hsame Hf ltac:(lia)) as (K & HK & HL).
  { cbn. split; [split; [lia|]; split; [auto|]; intros _; right; reflexivity|]. split; [lia|]. split; [exact Hane|auto]. }
  { split; [apply (file_factors n body M1 A lu Hnr1 Hmat1 HM1 Hpc1 Hfac)|]. discriminate. }
  { eauto. }
  rewrite Hdim in HK, HL. cbn [matrix_of] in HK.
  assert (forall X : srmat F, (forall i j, i < n -> j < n -> dense X i j = A i j) -> is_inverse n (dense X) K) as HKX.
  { intros X HX a b' Ha Hb'. destruct (HK a b' Ha Hb') as [K1 K2]. split; [rewrite <- K1|rewrite <- K2]; unfold mprod; apply bsum_ext; intros k Hk; rewrite HX, HM1 by lia; reflexivity. }
  assert (is_inverse n A K) as HKA.
  { intros a b' Ha Hb'. destruct (HK a b' Ha Hb') as [K1 K2]. split; [rewrite <- K1|rewrite <- K2]; unfold mprod; apply bsum_ext; intros k Hk; rewrite HM1 by lia; reflexivity. }
  assert (matrix_object n (dense M) (csr_apply M) (fun a x b y z => csr_gemv3 M a x b (Some y) z)) as HMO
    by (rewrite <- Hnr; apply (proj1 (C99_matrix_views F O field_ring M Hw (sorted_nodup M Hws)) Hv)).
  assert (forall x, is_prod n (dense M) x b -> is_prod n A x b) as HxA by (intros x Hx k Hk; rewrite <- (Hx k Hk); apply bsum_ext; intros j Hj; rewrite HM by lia; reflexivity).
  assert (forall x, is_prod n A x b -> forall k, k < n -> vat x k = vat v k) as Huniq.
  { intros x Hx k Hk. rewrite (inverse_apply n A K (vat b) (vat x) HKA (fun i Hi => eq_sym (Hx i Hi)) k Hk).
    symmetry. apply (inverse_apply n A K (vat b) (vat v) HKA (fun i Hi => eq_sym (Hvs i Hi)) k Hk). }
  rewrite (run_two_solver ssqrt slt slt hundred) by exact Hsol.
  eapply nok_bind.
  { apply (run_exact ssqrt slt slt hundred ps P n (dense M) K); [exact Hpos|exact HMO| |apply HKX, HM|exact Lb|exact Hnz|exact Hone].
    apply (used_prec ssqrt sabs inv 1 p M1 st n K); auto; eauto. }
  intros [x info] (Lx & Hit & Hx). apply HxA in Hx.
  rewrite (check_error_exact ssqrt slt n (tp_testtol P) x v Lx Lv (Huniq x Hx) Htt). eapply nok_bind; [apply nok_lift, ok_ret, eq_refl|]. intros ? <-.
  destruct (proj1 (C113_ordering n) Hn) as (o & pp & Eo & _). rewrite Eo. eapply nok_bind; [apply nok_lift, ok_ret, eq_refl|]. intros ? <-.
  rewrite E2. eapply nok_bind; [apply nok_lift, ok_ret, eq_refl|]. intros ? <-. rewrite Hnr2.
  eapply nok_bind.
  { apply (reordered_linear ssqrt sabs n M2 K o _ _ (tp_nbuild P) (tp_napply P) (tp_chunk P) fi ai); auto.
    - destruct Hmat2 as (W & _ & S). split; [exact W|]. split; [apply sorted_nodup, S|exact Hv2].
    - apply (reordered_direct ssqrt M2 A lu2 o n); auto. intros i0 j Hi0 Hj. apply Hpc2; auto.
    - unfold alloc. rewrite fmap_length, seq_length. reflexivity.
    - unfold alloc. rewrite fmap_length, seq_length. reflexivity. }
  intros [st2 R] HL2. rewrite (run_two_solver ssqrt slt slt hundred) by exact Hsol.
  eapply nok_bind.
  { apply (run_exact ssqrt slt slt hundred ps P n (dense M) K); [exact Hpos|exact HMO|exact HL2|apply HKX, HM|exact Lb|exact Hnz|exact Hone]. }
  intros [x2 info2] (Lx2 & Hit2 & Hx2). apply HxA in Hx2.
  rewrite (check_error_exact ssqrt slt n (tp_testtol P) x2 v Lx2 Lv (Huniq x2 Hx2) Htt). eapply nok_bind; [apply nok_lift, ok_ret, eq_refl|]. intros ? <-.
  apply nok_ret. auto 10.
Qed.
(** ** Cases *)
(** a tridiagonal matrix *)
Definition exTri : srmat Qc := SR [0; 2; 5; 8; 10] [0; 1; 0; 1; 2; 1; 2; 3; 2; 3] (q <$> [4; 1; 1; 4; 1; 1; 4; 1; 1; 4]%Z) [0; 3; 6; 9] [2; 5; 8; 10] 4 10 10.
Example C113_diagonal_case : mat_ok 1 exTri /\ wf_sorted exTri /\ wf_diag exTri /\ (exists o, trivial_reordering (nbrows exTri) = Ok o) /\ ~ (pos exTri 1 0 <> None <-> pos exTri 3 0 <> None).
Proof.
  assert (wf_sorted exTri) as Hs by (apply wfb_sorted_ok; reflexivity).
  split; [split; [apply wfb_pat_ok; reflexivity|]; split; [apply sorted_nodup, Hs|reflexivity]|]. split; [exact Hs|]. split; [apply wfb_diag_ok; reflexivity|].
  split; [eexists; reflexivity|]. intros [H _]. apply H; [discriminate|reflexivity].
Qed.
(** all entries of a four by four matrix, the rows in some order *)
Definition exFullText : string := lines ["%%MatrixMarket matrix coordinate real general"; "4 4 16"; "3 1 1"; "3 2 2"; "3 3 3"; "3 4 3"; "1 1 1"; "1 2 1"; "1 3 1"; "1 4 1"; "4 1 1"; "4 2 2"; "4 3 3"; "4 4 4"; "2 1 1"; "2 2 2"; "2 3 2"; "2 4 2"]%string.
Definition exFullBody : list (Z * Z * Qc) := [(3, 1, q 1); (3, 2, q 2); (3, 3, q 3); (3, 4, q 3); (1, 1, q 1); (1, 2, q 1); (1, 3, q 1); (1, 4, q 1); (4, 1, q 1); (4, 2, q 2); (4, 3, q 3); (4, 4, q 4); (2, 1, q 1); (2, 2, q 2); (2, 3, q 2); (2, 4, q 2)]%Z.
Definition exFullA := table [[q 1; q 1; q 1; q 1]; [q 1; q 2; q 2; q 2]; [q 1; q 2; q 3; q 3]; [q 1; q 2; q 3; q 4]].
Definition exFullLu (i j : nat) : Qc := q 1.
(** the factors of the reordered matrix, and those of the reordered and scaled one *)
Definition exSwappedLu := table [[q 1; q 1; q 1; q 1]; [q 1; q 3; q 2; q 1]; [q 1; q 2 / q 3; q 2 / q 3; q 1 / q 3]; [q 1; q 1 / q 3; q 1 / q 2; q 1 / q 2]]%Qc.
Definition exFullLu2 (i j : nat) : Qc :=
  let d k := (q 1 / qsqrt (exFullA (swapped k) (swapped k)))%Qc in if j <? i then (exSwappedLu i j * d i / d j)%Qc else (exSwappedLu i j * d i * d j)%Qc.
Example C113_matrix_case : matrix_file whole_text 4 exFullBody exFullText /\ proper 4 exFullBody /\ lists (O := Qc_ops) 4 exFullBody exFullA /\
  (forall i j, i < 4 -> j < 4 -> place exFullBody i j) /\ eliminated (O := Qc_ops) 4 exFullA exFullLu /\
  (forall i, i < 4 -> qsqrt (exFullA i i) <> q 0) /\ eliminated (O := Qc_ops) 4 (prepared qsqrt exFullA) exFullLu2.
Proof.
  assert (forall i j, i < 4 -> j < 4 -> place exFullBody i j) as Hall.
  { intros i j Hi Hj. destruct i as [|[|[|[|]]]], j as [|[|[|[|]]]]; try lia; eexists; cbn; in_list. }
  split; [|split; [|split; [|split; [exact Hall|split; [|split]]]]].
  - eexists "%%MatrixMarket matrix coordinate real general"%string, [], "4 4 16"%string, [], _. split; [reflexivity|].
    split; [split; [apply no_newline_dec; reflexivity|]; eexists; split; [reflexivity|]; split; [reflexivity|]; split; [discriminate|reflexivity]|].
    split; [constructor|]. split.
    { apply (sizes_dec _ ["4"; "4"; "16"]%string); [reflexivity|discriminate| |apply C07_words; reflexivity|].
      - intros n Hn. rewrite !elem_of_cons, elem_of_nil in Hn. cbn in Hn. destruct Hn as [-> |[-> |[-> |[]]]]; split; lia.
      - constructor; [exact (digit_int 4 _ eq_refl)|]. constructor; [exact (digit_int 4 _ eq_refl)|]. constructor; [|constructor].
        apply it_plain. exact (dec_more "1" 1 6 "6" (dec_one 1 "1" eq_refl) eq_refl). }
    split; [intros k Hk; apply elem_of_nil in Hk as []|].
    refine (bt_entry _ "" "3" " " "1" " " "1" _ _ _ _ _ _ _ _ _ _ (digit_int 3 _ eq_refl) (digit_int 1 _ eq_refl) (ex_intro _ (Z.of_nat 1) (conj (digit_int 1 _ eq_refl) eq_refl)) _ _ _ _);
    [apply blank_empty|apply blank1, in_blanks; reflexivity|apply blank1, in_blanks; reflexivity|discriminate|discriminate|unfold is_int; lia|unfold is_int; lia|apply end_blank, in_blanks; reflexivity|].
    ex_entry "3"%string "2"%string "2"%string 3 2 2. ex_entry "3"%string "3"%string "3"%string 3 3 3. ex_entry "3"%string "4"%string "3"%string 3 4 3. ex_entry "1"%string "1"%string "1"%string 1 1 1. ex_entry "1"%string "2"%string "1"%string 1 2 1. ex_entry "1"%string "3"%string "1"%string 1 3 1. ex_entry "1"%string "4"%string "1"%string 1 4 1. ex_entry "4"%string "1"%string "1"%string 4 1 1. ex_entry "4"%string "2"%string "2"%string 4 2 2. ex_entry "4"%string "3"%string "3"%string 4 3 3. ex_entry "4"%string "4"%string "4"%string 4 4 4. ex_entry "2"%string "1"%string "1"%string 2 1 1. ex_entry "2"%string "2"%string "2"%string 2 2 2. ex_entry "2"%string "3"%string "2"%string 2 3 2. ex_entry "2"%string "4"%string "2"%string 2 4 2.
    apply bt_end.
  - split; [|split; [|intros i Hi; apply Hall; exact Hi]].
    + intros ri ci v H. unfold exFullBody in H. rewrite !elem_of_cons, elem_of_nil in H. destruct H as [H|[H|[H|[H|[H|[H|[H|[H|[H|[H|[H|[H|[H|[H|[H|[H|[]]]]]]]]]]]]]]]]]; injection H as -> -> _; lia.
    + intros k1 k2 t1 t2 H1 H2 E. do 16 (destruct k1 as [|k1]; [injection H1 as <-; do 16 (destruct k2 as [|k2]; [injection H2 as <-; try reflexivity; discriminate E|]); discriminate H2|]). discriminate H1.
  - intros i j Hi Hj. split; [|intros H; destruct (H (Hall i j Hi Hj))].
    intros v H. unfold exFullBody in H. rewrite !elem_of_cons, elem_of_nil in H. destruct i as [|[|[|[|]]]], j as [|[|[|[|]]]]; try lia; cbn in H;
      repeat (destruct H as [H|H]; [try discriminate H; injection H as ->; reflexivity|]); contradiction.
  - split; [intros k Hk; discriminate|]. intros i j Hi Hj. destruct i as [|[|[|[|]]]], j as [|[|[|[|]]]]; try lia; apply Qc_is_canon; vm_compute; reflexivity.
  - intros i Hi. destruct i as [|[|[|[|]]]]; try lia; vm_compute; discriminate.
  - split; [intros k Hk; destruct k as [|[|[|[|]]]]; try lia; vm_compute; discriminate|].
    intros i j Hi Hj. destruct i as [|[|[|[|]]]], j as [|[|[|[|]]]]; try lia; apply Qc_is_canon; vm_compute; reflexivity.
Qed.
Definition exFour (a b c d : string) : string := lines ["%%MatrixMarket matrix array real general"; "4 1"; a; b; c; d]%string.
Lemma ex_four s1 s2 s3 s4 (a b c d : nat) : String.get a "0123456789" = Some s1 -> String.get b "0123456789" = Some s2 -> String.get c "0123456789" = Some s3 -> String.get d "0123456789" = Some s4 ->
  vector_file whole_text [q (Z.of_nat a); q (Z.of_nat b); q (Z.of_nat c); q (Z.of_nat d)] (exFour (String s1 "") (String s2 "") (String s3 "") (String s4 "")).
Proof.
  intros Ha Hb Hc Hd. eexists "%%MatrixMarket matrix array real general"%string, [], "4 1"%string, [], _. split; [reflexivity|].
  split; [split; [apply no_newline_dec; reflexivity|]; eexists; split; [reflexivity|]; split; reflexivity|]. split; [constructor|].
  split.
  { apply (sizes_dec _ ["4"; "1"]%string); [reflexivity|discriminate| |apply C07_words; reflexivity|].
    - intros n Hn. rewrite !elem_of_cons, elem_of_nil in Hn. cbn in Hn. destruct Hn as [-> |[-> |[]]]; split; lia.
    - constructor; [exact (digit_int 4 _ eq_refl)|]. constructor; [exact (digit_int 1 _ eq_refl)|]. constructor. }
  split; [|unfold is_int; cbn; lia].
  refine (vt_value _ "" (String s1 "") _ _ _ blank_empty (ex_intro _ _ (conj (digit_int a _ Ha) eq_refl)) _ _); [apply end_blank, in_blanks; reflexivity|].
  refine (vt_value _ (String "010" "") (String s2 "") _ _ _ (blank1 "010" (in_blanks "010" eq_refl)) (ex_intro _ _ (conj (digit_int b _ Hb) eq_refl)) _ _); [apply end_blank, in_blanks; reflexivity|].
  refine (vt_value _ (String "010" "") (String s3 "") _ _ _ (blank1 "010" (in_blanks "010" eq_refl)) (ex_intro _ _ (conj (digit_int c _ Hc) eq_refl)) _ _); [apply end_blank, in_blanks; reflexivity|].
  refine (vt_value _ (String "010" "") (String s4 "") _ _ _ (blank1 "010" (in_blanks "010" eq_refl)) (ex_intro _ _ (conj (digit_int d _ Hd) eq_refl)) _ _); [apply end_blank, in_blanks; reflexivity|].
  apply vt_end.
Qed.
(** the remaining hypotheses of C113_solves; with [C113_solves] the driver ends normally for these files, as C113_checked supposes *)
Example C113_case : forall solver prec, solver ∈ ["bcgs"; "richardson"]%string ->
  vector_file whole_text [q 2; q 3; q 3; q 3] (exFour "2" "3" "3" "3") /\ vector_file whole_text [q 1; q 1; q 0; q 0] (exFour "1" "1" "0" "0") /\
  nonzero (O := Qc_ops) 4 [q 2; q 3; q 3; q 3] /\ is_prod (O := Qc_ops) 4 exFullA [q 1; q 1; q 0; q 0] [q 2; q 3; q 3; q 3] /\ tested (exParams solver prec) /\
  one_step (O := Qc_ops) qsqrt qlt (exParams solver prec) 4 [q 2; q 3; q 3; q 3] /\ qlt (qsqrt (q 0)) (tp_testtol (exParams solver prec)) = true.
Proof.
  intros solver prec Hs. split; [exact (ex_four _ _ _ _ 2 3 3 3 eq_refl eq_refl eq_refl eq_refl)|]. split; [exact (ex_four _ _ _ _ 1 1 0 0 eq_refl eq_refl eq_refl eq_refl)|].
  split; [exists 0; split; [lia|discriminate]|]. split.
  { intros k Hk. destruct k as [|[|[|[|]]]]; try lia; apply Qc_is_canon; vm_compute; reflexivity. }
  rewrite !elem_of_cons, elem_of_nil in Hs. split.
  { split; [cbn; in_list|]. split; [cbn; in_list|]. split; [cbn; lia|]. cbn. destruct Hs as [-> |[-> |[]]]; auto. }
  split; [|vm_compute; reflexivity]. split; [vm_compute; reflexivity|]. cbn [tp_solver tp_maxiter tp_restart tp_tol exParams].
  destruct Hs as [-> |[-> |[]]]; [left|right; right]; (split; [reflexivity|]); try lia. split; [lia|vm_compute; reflexivity].
Qed.
Print Assumptions C113_solves.
Print Assumptions C113_ordering.
Print Assumptions C113_diagonal_lost.
Print Assumptions C113_checked.
