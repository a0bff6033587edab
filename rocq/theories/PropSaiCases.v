(** * PropSaiCases: C51, C64: matrices to which the theorems apply *)
From Coq Require Import ZArith Sorting.Sorted Qcanon.
From Verif Require Import Base Alg SRMatrix Nd TriView PropTriView CooFacts BlockMat Sai SaiSpec SaiFacts PropSai PropSaiValues PropSaiResidual Inst.
Local Open Scope nat_scope.

Section Views.
  Context {F : Type} (M : srmat F).
  Hypothesis Hw : wf_pat M.
  Hypothesis Hs : wf_nodup M.
  Definition same_pattern_of (M M' : srmat F) : Prop := browptr M' = browptr M /\ bcolind M' = bcolind M /\ browendptr M' = browendptr M /\ nbrows M' = nbrows M.
  (** a part of each row that contains the diagonal *)
  Lemma part_view (V : srmat F) (a b : nat -> nat) : wf_diag M -> nbrows V = nbrows M -> bcolind V = bcolind M -> nbrows M <= length (browptr V) -> nbrows M <= length (browendptr V) ->
    (forall i, i < nbrows M -> browptr V !! i = Some (a i) /\ browendptr V !! i = Some (b i) /\ rp M i <= a i <= dg M i /\ dg M i < b i <= rp M (i + 1)) ->
    wf_view V /\ nodup_rows V /\ diag_present V /\ NoDup (visible V) /\ forall i j, i < nbrows M -> j ∈ vrange V i -> j < nnz M.
  Proof.
    intros Hd Hn Hc Lp Le H. assert (forall i, i < nbrows M -> browptr V !!! i = a i /\ browendptr V !!! i = b i) as Hab by (intros i Hi; destruct (H i Hi) as (H1 & H2 & _); rewrite !list_lookup_total_alt, H1, H2; split; reflexivity).
    assert (forall i j, i < nbrows M -> j ∈ vrange V i <-> a i <= j < b i) as Hv by (intros i j Hi; unfold vrange; destruct (Hab i Hi) as [-> ->]; apply elem_of_range).
    assert (forall i j, i < nbrows M -> j ∈ vrange V i -> inrow M i j) as Hin by (intros i j Hi Hj; apply Hv in Hj; [|exact Hi]; destruct (H i Hi) as (_ & _ & H1 & H2); split; lia).
    assert (forall i j, i < nbrows M -> j ∈ vrange V i -> j < nnz M) as Hlt by (intros i j Hi Hj; eapply inrow_lt; [exact Hw|apply Hin; eassumption]).
    split; [|split; [|split; [|split]]].
    - split; [lia|]. split; [lia|]. rewrite Hn, Hc. split.
      + intros i Hi. destruct (Hab i Hi) as [-> ->]. destruct (H i Hi) as (_ & _ & H1 & H2). split; [lia|]. rewrite (wf_clen M Hw). pose proof (rp_mono M (i + 1) (nbrows M) Hw ltac:(lia) ltac:(lia)). unfold nnz. lia.
      + intros i j Hi Hj. apply (wf_col M Hw). eapply Hlt; eassumption.
    - intros i Hi. rewrite Hn in Hi. unfold unknowns. rewrite Hc. apply NoDup_fmap_2_strong; [|apply NoDup_range]. intros j j' Hj Hj' e. apply (Hs i); auto.
    - intros i Hi. rewrite Hn in Hi. destruct (H i Hi) as (_ & _ & H1 & H2). destruct (proj2 Hd i Hi) as [_ Hdi]. unfold unknowns. apply elem_of_list_fmap. exists (dg M i). split; [rewrite Hc; symmetry; exact Hdi|]. apply Hv; [exact Hi|lia].
    - unfold visible. rewrite Hn. assert (forall k, k <= nbrows M -> NoDup (seq 0 k ≫= vrange V) /\ forall j, j ∈ seq 0 k ≫= vrange V -> j < rp M k) as X; [|apply X; lia].
      induction k as [|k IH]; intros Hk; [split; [constructor|intros j Hj; apply elem_of_nil in Hj as []]|]. destruct (IH ltac:(lia)) as [N1 N2]. pose proof (wf_mono M Hw k ltac:(lia)) as Hm. replace (k + 1) with (S k) in Hm by lia.
      rewrite seq_S, bind_app, Nat.add_0_l, bind_one. split.
      + apply NoDup_app. split; [exact N1|]. split; [|apply NoDup_range]. intros j Hj Hj'. specialize (N2 j Hj). apply Hin in Hj' as [_ Hj']; [|lia]. lia.
      + intros j Hj. apply elem_of_app in Hj as [Hj|Hj]; [specialize (N2 j Hj); lia|]. apply Hin in Hj as [_ Hj]; [|lia]. replace (k + 1) with (S k) in Hj by lia. lia.
    - exact Hlt.
  Qed.
  (** The theorems apply to every well-formed matrix with a diagonal, and the pattern of the approximate inverse may be that of the matrix... *)
  Theorem C51_applies (M' : srmat F) bs : wf_diag M -> wf_end M -> wf_vals bs M -> same_pattern_of M M' -> wf_vals bs M' ->
    wf_view M /\ nodup_rows M /\ diag_present M /\ (forall i j, i < nbrows M -> j ∈ vrange M i -> j * (bs * bs) + bs * bs <= length (vals M)) /\
    fits bs M M' /\ (forall i, i < nbrows M -> unknowns M' i = unknowns M i).
  Proof.
    intros Hd He Hv HM Hv'. destruct (part_view M (fun i => rp M i) (fun i => rp M (i + 1)) Hd eq_refl eq_refl) as (H1 & H2 & H3 & H4 & H5).
    { rewrite (wf_len M Hw). lia. } { destruct He as [-> _]. lia. }
    { intros i Hi. split; [apply wf_browptr; [exact Hw|lia]|]. split; [apply He, Hi|]. destruct (proj2 Hd i Hi) as [? _]. lia. }
    destruct HM as (E1 & E2 & E3 & E4). assert (nnz M' = nnz M) as En by (unfold nnz, rp; rewrite E1, E4; reflexivity).
    assert (forall i, vrange M' i = vrange M i) as Er by (intros i; unfold vrange; rewrite E1, E3; reflexivity).
    split; [exact H1|]. split; [exact H2|]. split; [exact H3|]. split; [intros i j Hi Hj; rewrite Hv; specialize (H5 i j Hi Hj); nia|]. split.
    - destruct H1 as (X1 & X2 & X3 & X4). assert (visible M' = visible M) as Ev.
      { unfold visible. rewrite E4. generalize (seq 0 (nbrows M)) as l. induction l as [|x l IH]; [reflexivity|]. rewrite !bind_cons, IH, Er. reflexivity. }
      unfold fits. rewrite Ev, E4. split.
      { unfold wf_view. rewrite E1, E2, E3, E4. split; [exact X1|]. split; [exact X2|]. split; [exact X3|]. intros i j Hi Hj. rewrite Er in Hj. eapply X4; eassumption. }
      split; [reflexivity|]. split; [exact H4|]. split; [intros; rewrite Er; reflexivity|].
      intros i j Hi Hj. rewrite Er in Hj. rewrite Hv', En. specialize (H5 i j Hi Hj). nia.
    - intros i Hi. unfold unknowns. rewrite Er, E2. reflexivity.
  Qed.
  (** ... and to its triangular views. *)
  Theorem C51_views g1 g2 g3 g4 : wf_diag M -> wf_end M -> exists L U, getLowerTriangularView g1 g2 M = Ok L /\ getUpperTriangularView g3 g4 M = Ok U /\
    (wf_view L /\ nodup_rows L /\ diag_present L /\ NoDup (visible L)) /\ (wf_view U /\ nodup_rows U /\ diag_present U /\ NoDup (visible U)).
  Proof.
    intros Hd He. pose proof (proj2 Hd) as Hd'. unfold getLowerTriangularView, getUpperTriangularView.
    destruct (two_arrays M (fun i => rp M i) (fun i => dg M i + 1) g1 g2 (fun irow s =>
      let! b := get (browptr M) irow in
      let '(lrowptr, lrowendptr, nnz) := s in
      let! lrowptr := set lrowptr irow b in
      let! d := get (diagind M) irow in
      let! lrowendptr := set lrowendptr irow (d + 1) in
      Ok (lrowptr, lrowendptr, (nnz + (Z.of_nat d - Z.of_nat b + 1))%Z))) as (p & e & z & E1 & L1 & L2 & H1 & Hz).
    { intros i Hi. destruct (Hd' i Hi). lia. }
    { intros i p e z Hi Lp Le. rewrite (proj2 (get_Some _ _ _) (wf_browptr M i Hw ltac:(lia))). cbn [bind]. rewrite set_Ok by lia. cbn [bind].
      rewrite (proj2 (get_Some _ _ _) (wf_diagind M i Hd Hi)). cbn [bind]. rewrite set_Ok by lia. cbn [bind]. do 2 f_equal. lia. }
    destruct (two_arrays M (fun i => dg M i) (fun i => rp M (i + 1)) g3 g4 (fun irow s =>
      let! d := get (diagind M) irow in
      let '(urowptr, urowendptr, nnz) := s in
      let! urowptr := set urowptr irow d in
      let! e := get (browendptr M) irow in
      let! urowendptr := set urowendptr irow e in
      Ok (urowptr, urowendptr, (nnz + (Z.of_nat e - Z.of_nat d))%Z))) as (p' & e' & z' & E2 & L3 & L4 & H2 & Hz').
    { intros i Hi. destruct (Hd' i Hi). lia. }
    { intros i p0 e0 z0 Hi Lp Le. rewrite (proj2 (get_Some _ _ _) (wf_diagind M i Hd Hi)). cbn [bind]. rewrite set_Ok by lia. cbn [bind].
      rewrite (proj2 (get_Some _ _ _) (proj2 He i Hi)). cbn [bind]. rewrite set_Ok by lia. reflexivity. }
    do 2 eexists. split; [rewrite E1; reflexivity|]. split; [rewrite E2; reflexivity|]. split.
    - match goal with |- wf_view ?V /\ _ => destruct (part_view V (fun i => rp M i) (fun i => dg M i + 1) Hd eq_refl eq_refl) as (X1 & X2 & X3 & X4 & _) end; cbn; [lia|lia| |auto].
      intros i Hi. destruct (H1 i Hi) as [-> ->]. destruct (Hd' i Hi) as [? _]. split; [reflexivity|]. split; [reflexivity|]. lia.
    - match goal with |- wf_view ?V /\ _ => destruct (part_view V (fun i => dg M i) (fun i => rp M (i + 1)) Hd eq_refl eq_refl) as (X1 & X2 & X3 & X4 & _) end; cbn; [lia|lia| |auto].
      intros i Hi. destruct (H2 i Hi) as [-> ->]. destruct (Hd' i Hi) as [? _]. split; [reflexivity|]. split; [reflexivity|]. lia.
  Qed.
End Views.

(** In a debug build the set-up of the 3x3 tridiagonal example aborts; otherwise all systems are gathered. *)
Example C51_case : wf_view exM /\ nodup_rows exM /\ diag_present exM /\ exists sp, left_SAI_pattern exM = Ok sp /\ nEqns sp = [3; 3; 3] /\ nVars sp = [2; 3; 2] /\ localCentralRow sp = [0; 1; 2]%Z /\
  gather_lhs_matrix true RowMajor 1 exM sp 0 = Throw "assert" /\
  exists L, gather_lhs_matrix false RowMajor 1 exM sp 0 = Ok L /\ lrows L = 3 /\ ldata L = q <$> [4; 1; 0; 2; 5; 1]%Z.
Proof.
  assert (wf_end exM) as He by (split; [reflexivity|]; intros i Hi; cbn in Hi; do 3 (destruct i as [|i]; [reflexivity|]); lia).
  assert (wf_nodup exM) as Hn by (apply sorted_nodup, exM_sorted).
  destruct (C51_applies exM exM_pat Hn exM 1 exM_diag He eq_refl ltac:(repeat split) eq_refl) as (H1 & H2 & H3 & _).
  split; [exact H1|]. split; [exact H2|]. split; [exact H3|]. eexists. split; [vm_compute; reflexivity|]. split; [reflexivity|]. split; [reflexivity|]. split; [reflexivity|].
  split; [reflexivity|]. eexists. split; [reflexivity|]. split; reflexivity.
Qed.

(** A solver for two equations with two unknowns, and the matrix
       2 1
       1 1  *)
Definition ex2 : srmat Qc := SR [0; 2; 4] [0; 1; 0; 1] (q <$> [2; 1; 1; 1]%Z) [0; 3] [2; 4] 2 4 4.
Definition cramer (L R : lmat Qc) : lmat Qc :=
  if decide (lrows L = 2 /\ lcols L = 2) then
    let det := (lent L 0 0 * lent L 1 1 - lent L 0 1 * lent L 1 0)%s in
    LMat 2 (lcols R) (seq 0 (lcols R) ≫= (fun a =>
      [((lent R 0 a * lent L 1 1 - lent L 0 1 * lent R 1 a) / det)%s; ((lent L 0 0 * lent R 1 a - lent L 1 0 * lent R 0 a) / det)%s]))
  else lzero (lcols L) (lcols R).
Lemma cramer_size : right_size cramer.
Proof.
  intros L R r c k (H1 & H2 & H3) (H4 & H5 & H6). unfold cramer. rewrite H1, H2, H5. destruct (decide _) as [[-> ->]|]; [|apply lwf_zero]. split; [reflexivity|]. split; [reflexivity|]. cbn [ldata].
  clear. assert (forall (f : nat -> list Qc) l, (forall x, length (f x) = 2) -> length (l ≫= f) = 2 * length l) as H.
  { intros f l Hf. induction l as [|x l IH]; [reflexivity|]. rewrite bind_cons, app_length, IH, Hf. cbn. lia. }
  rewrite H by reflexivity. rewrite seq_length. reflexivity.
Qed.
Lemma ex2_equations i E : i < 2 -> full_equations ex2 i E -> E = [0; 1].
Proof.
  intros Hi [Hs HE]. assert (forall c, c ∈ E <-> c = 0 \/ c = 1) as H.
  { intros c. rewrite HE. destruct i as [|[|i]]; [| |lia]; cbn; (split; [intros (u & Hu & Hc); rewrite !elem_of_cons, elem_of_nil in Hu; destruct Hu as [->|[->|[]]]; cbn in Hc; rewrite !elem_of_cons, elem_of_nil in Hc; tauto|]);
      intros Hc; exists 0; (split; [left|]); cbn; rewrite !elem_of_cons; tauto. }
  destruct Hs as [|a E Hs Ha]; [exfalso; apply (not_elem_of_nil 0), H; auto|]. rewrite Forall_forall in Ha.
  assert (a = 0) as ->. { destruct (proj1 (H a) (elem_of_list_here _ _)) as [|]; [assumption|subst]. assert (0 ∈ 1 :: E) as H0 by (apply H; auto). apply elem_of_cons in H0 as [|H0]; [lia|]. specialize (Ha 0 H0). lia. }
  f_equal. destruct Hs as [|b E Hs Hb]; [assert (1 ∈ [0]) as H0 by (apply H; auto); apply elem_of_list_singleton in H0; lia|]. rewrite Forall_forall in Hb.
  assert (0 < b) by (apply Ha; left). assert (b = 1) as -> by (destruct (proj1 (H b) ltac:(right; left)); lia).
  f_equal. destruct E as [|c E]; [reflexivity|]. assert (1 < c) by (apply Hb; left). destruct (proj1 (H c) ltac:(right; right; left)); lia.
Qed.
Lemma ex2_exact i E L R : i < 2 -> full_equations ex2 i E -> is_lhs RowMajor 1 ex2 E i L -> is_rhs 1 E i R -> solves L (cramer L R) R.
Proof.
  intros Hi HE [(L1 & L2 & _) HL] [(R1 & R2 & _) HR]. apply ex2_equations in HE as ->; [|exact Hi]. cbn [length] in *.
  assert (length (unknowns ex2 i) = 2) as Hu by (destruct i as [|[|i]]; [reflexivity|reflexivity|lia]). rewrite Hu in L2. cbn in L1, L2, R1.
  assert (unknowns ex2 i = [0; 1]) as Eu by (destruct i as [|[|i]]; [reflexivity|reflexivity|lia]). rewrite Eu in HL.
  assert (lent L 0 0 = q 2) as A00 by (refine (eq_trans (HL 0 0 0 0 0 0 eq_refl eq_refl ltac:(lia) ltac:(lia)) _); apply Qc_is_canon; vm_compute; reflexivity).
  assert (lent L 1 0 = q 1) as A10 by (refine (eq_trans (HL 0 0 1 1 0 0 eq_refl eq_refl ltac:(lia) ltac:(lia)) _); apply Qc_is_canon; vm_compute; reflexivity).
  assert (lent L 0 1 = q 1) as A01 by (refine (eq_trans (HL 1 1 0 0 0 0 eq_refl eq_refl ltac:(lia) ltac:(lia)) _); apply Qc_is_canon; vm_compute; reflexivity).
  assert (lent L 1 1 = q 1) as A11 by (refine (eq_trans (HL 1 1 1 1 0 0 eq_refl eq_refl ltac:(lia) ltac:(lia)) _); apply Qc_is_canon; vm_compute; reflexivity).
  assert (lent R 0 0 = if decide (0 = i /\ 0 = 0) then s1 else s0) as B0 by (apply (HR 0 0 0 0); [reflexivity|lia|lia]).
  assert (lent R 1 0 = if decide (1 = i /\ 0 = 0) then s1 else s0) as B1 by (apply (HR 1 1 0 0); [reflexivity|lia|lia]).
  assert (cramer L R = LMat 2 1 [((lent R 0 0 * q 1 - q 1 * lent R 1 0) / q 1)%s; ((q 2 * lent R 1 0 - q 1 * lent R 0 0) / q 1)%s]) as ->.
  { unfold cramer. rewrite decide_True by auto. rewrite R2, A00, A01, A10, A11. cbn [seq mbind list_bind app]. replace (q 2 * q 1 - q 1 * q 1)%s with (q 1) by (apply Qc_is_canon; vm_compute; reflexivity). reflexivity. }
  intros r a Hr Ha. rewrite L1 in Hr. rewrite R2 in Ha. assert (a = 0) as -> by lia. rewrite L2. cbn [bsum].
  assert (forall x y : Qc, lent (LMat 2 1 [x; y]) 0 0 = x /\ lent (LMat 2 1 [x; y]) 1 0 = y) as Hlm by (split; reflexivity).
  rewrite (proj1 (Hlm _ _)), (proj2 (Hlm _ _)).
  destruct r as [|[|r]]; [| |lia]; rewrite ?A00, ?A01, ?A10, ?A11, B0, B1; destruct i as [|[|i]]; try lia; apply Qc_is_canon; vm_compute; reflexivity.
Qed.
Lemma Qc_sq_nonneg (x : Qc) : Qcle (q 0) (sq x).
Proof.
  change (q 0) with (Q2Qc (QArith_base.inject_Z 0)). unfold sq. cbn [smul Qc_ops].
  assert (forall y, Qcle (Q2Qc (QArith_base.inject_Z 0)) y -> Qcle (Q2Qc (QArith_base.inject_Z 0)) (Qcmult y y)) as H by (intros y Hy; rewrite <- (Qcmult_0_l y) at 1; apply Qcmult_le_compat_r; assumption).
  destruct (Qclt_le_dec x (Q2Qc (QArith_base.inject_Z 0))) as [Hx|Hx]; [|apply H, Hx]. replace (Qcmult x x) with (Qcmult (Qcopp x) (Qcopp x)) by ring. apply H.
  apply Qclt_le_weak in Hx. apply Qcopp_le_compat in Hx. exact Hx.
Qed.
Lemma Qc_bsum_nonneg n (f : nat -> Qc) : (forall i, i < n -> Qcle (q 0) (f i)) -> Qcle (q 0) (bsum n f).
Proof.
  induction n as [|n IH]; intros H; [apply Qcle_refl|]. cbn [bsum]. replace (q 0) with (q 0 + q 0)%s by (apply Qc_is_canon; reflexivity). apply Qcplus_le_compat; [apply IH; intros; apply H; lia|apply H; lia].
Qed.
Example C64_case : exists sp, left_SAI_pattern ex2 = Ok sp /\ nok (compute_SAI (fun _ => cramer) false RowMajor 1 ex2 sp true ex2) (fun vs => length vs = 4 /\
  (forall I J, I < 2 -> J < 2 -> prod RowMajor 1 2 (with_vals ex2 vs) ex2 I J = delta I J)) /\
  nok (compute_SAI (fun _ => cramer) false RowMajor 1 ex2 sp true ex2) (fun vs => length vs = 4 /\
  forall i vs', i < 2 -> length vs' = 4 -> Qcle (row_error RowMajor 1 (with_vals ex2 vs) ex2 i) (row_error RowMajor 1 (with_vals ex2 vs') ex2 i)).
Proof.
  assert (wf_pat ex2) as Hp by (apply wfb_pat_ok; reflexivity). assert (wf_diag ex2) as Hd by (apply wfb_diag_ok; reflexivity). assert (wf_sorted ex2) as Hs by (apply wfb_sorted_ok; reflexivity).
  assert (wf_end ex2) as He by (split; [reflexivity|]; intros i Hi; cbn in Hi; do 2 (destruct i as [|i]; [reflexivity|]); lia).
  destruct (C51_applies ex2 Hp (sorted_nodup _ Hs) ex2 1 Hd He eq_refl ltac:(repeat split) eq_refl) as (H1 & H2 & H3 & H4 & H5 & H6).
  destruct (C64_full_exact RowMajor 1 ex2 ex2 H1 H2 H3 H4 H5 H6 (fun _ => cramer) cramer_size ex2_exact) as (sp & E1 & X1).
  destruct (C64_optimal RowMajor 1 ex2 ex2 H1 H2 H3 H4 H5 H6 (fun _ => cramer) Qcle cramer_size) as (sp' & E2 & X2).
  { intros i E L R X Hi HE HL HR HX. replace (misfit L (cramer L R) R) with (s0 : Qc).
    - apply Qc_bsum_nonneg. intros a Ha. apply Qc_bsum_nonneg. intros r Hr. apply Qc_sq_nonneg.
    - symmetry. unfold misfit. apply bsum_zero. intros a Ha. apply bsum_zero. intros r Hr. rewrite (ex2_exact i E L R Hi HE HL HR r a Hr Ha). apply sq_diff. }
  exists sp. rewrite E1 in E2. injection E2 as <-. split; [exact E1|]. split; [exact X1|exact X2].
Qed.

Print Assumptions C51_full.
Print Assumptions C51_incomplete.
Print Assumptions C51_compute.
Print Assumptions C51_assert_refuted.
Print Assumptions C51_views.
Print Assumptions C64_optimal.
Print Assumptions C64_full_exact.
Print Assumptions C64_incomplete.
