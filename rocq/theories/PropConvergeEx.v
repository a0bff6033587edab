(** * PropConvergeEx (C74): a matrix that converges, and two that show what relaxation
    under every schedule does not do *)
From Coq Require Import ZArith QArith.Qcanon QArith.Qcabs.
From Verif Require Import Base Alg Norms SRMatrix Async AsyncTheory AsyncSystem AsyncSweeps AsyncJacobi Nd Kernels KernelFacts
  IluApply TriSpec IluApplyMain IluFactorMain IluApplyStall Sgs SgsFacts SgsForms SgsMain PropSgs PropConverge Inst.
Open Scope nat_scope.

(** ** The rational numbers with their order and absolute value *)
Global Instance Qc_magnitude : Magnitude Qc Qcabs Qcle.
Proof.
  constructor.
  - apply Qcle_refl.
  - apply Qcle_trans.
  - intros a b c d. apply Qcplus_le_compat.
  - intros a b c Hc Hab. simpl. rewrite !(Qcmult_comm c). apply Qcmult_le_compat_r; auto.
  - apply Qcabs_nonneg.
  - apply Qc_is_canon. reflexivity.
  - apply Qc_is_canon. reflexivity.
  - apply Qcabs_opp.
  - apply Qcabs_triangle.
  - apply Qcabs_Qcmult.
Qed.

(** the matrix (2 1; 1 2), dominant with rate 1/2, and the exact solution (1, 1) *)
Definition domM : srmat Qc := SR [0; 2; 4] [0; 1; 0; 1] (q <$> [2; 1; 1; 2]%Z) [0; 3] [2; 4] 2 4 4.
Definition half : Qc := (q 1 / q 2)%Qc.
Lemma domM_wf : wf_mat domM.
Proof. split; [apply wfb_pat_ok; reflexivity|]. split; [apply wfb_diag_ok; reflexivity|apply wfb_sorted_ok; reflexivity]. Qed.
Lemma domM_diag i : i < 2 -> dense domM i i <> q 0.
Proof. intros Hi. destruct i as [|[|]]; [discriminate|discriminate|lia]. Qed.
Lemma domM_dom : dominant Qcabs Qcle 2 (dense domM) (fun _ => q 1) half.
Proof. intros i Hi. destruct i as [|[|]]; [vm_compute; discriminate|vm_compute; discriminate|lia]. Qed.
Lemma domM_sol : is_prod 2 (dense domM) [q 1; q 1] [q 3; q 3].
Proof. intros i Hi. destruct i as [|[|]]; [reflexivity|reflexivity|lia]. Qed.
Lemma half_pos : Qcle (q 0) half. Proof. vm_compute. discriminate. Qed.
Lemma half_one : Qcle half (q 1). Proof. vm_compute. discriminate. Qed.

(** ten calls of two steps with four threads from (5, -3): within 4/1024 of (1, 1) *)
Example C74_applies :
  nok (ndo d := jacobi_setup domM [q 0; q 0] in
       in_turn (replicate 10 (chaotic_relax 1 2 (scalar_relaxC domM d) 2 1 4 [q 3; q 3])) [q 5; q (-3)])
      (fun x => length x = 2 /\ forall i, i < 2 -> Qcle (Qcabs (vat x i - q 1)%Qc) (q 1 / q 256)%Qc).
Proof.
  destruct (C74_every_schedule (mag := Qcabs) (le := Qcle) domM [q 3; q 3] [q 1; q 1] (fun _ => q 1) half [q 0; q 0] [q 5; q (-3)] (q 4)) with (calls := replicate 10 (2, 1, 4)) as [H _].
  - apply domM_wf.
  - reflexivity.
  - apply domM_diag.
  - reflexivity.
  - reflexivity.
  - apply domM_sol.
  - intros i Hi. vm_compute. discriminate.
  - apply half_pos.
  - apply half_one.
  - apply domM_dom.
  - reflexivity.
  - vm_compute. discriminate.
  - split; [reflexivity|]. intros i Hi. destruct i as [|[|]]; [vm_compute; discriminate|vm_compute; discriminate|simpl in Hi; lia].
  - apply Forall_replicate. lia.
  - cbn [replicate fmap list_fmap] in H. eapply nok_mono; [exact H|].
    intros x [Hl Hx]. split; [exact Hl|]. intros i Hi. specialize (Hx i Hi).
    replace (vat [q 1; q 1] i) with (q 1) in Hx by (destruct i as [|[|]]; [reflexivity|reflexivity|lia]).
    eapply Qcle_trans; [exact Hx|]. vm_compute. discriminate.
Qed.

(** two rows of 2x2 blocks: (2 1; 1 1) on the diagonal, a tenth of the identity elsewhere *)
Definition domB : srmat Qc :=
  let t := (q 1 / q 10)%Qc in
  SR [0; 2; 4] [0; 1; 0; 1] [q 2; q 1; q 1; q 1;  t; q 0; q 0; t;  t; q 0; q 0; t;  q 2; q 1; q 1; q 1] [0; 3] [2; 4] 2 4 4.
Definition domB_Dinv (i j : nat) : Qc :=
  if decide (i / 2 = j / 2)%nat then match (i mod 2)%nat, (j mod 2)%nat with 0, 0 => q 1 | 1, 1 => q 2 | _, _ => q (-1) end else q 0.
Example C74_block_case : wf_mat domB /\ length (vals domB) = nnz domB * (2 * 2) /\ inverse_oracle RowMajor 2 inv2 /\
  is_inverse (2 * 2) (bdiag 2 (bdense RowMajor 2 domB)) domB_Dinv /\
  is_prod (2 * 2) (bdense RowMajor 2 domB) (replicate 4 (q 0)) (replicate 4 (q 0)) /\
  block_dominant Qcabs Qcle 2 2 (bdense RowMajor 2 domB) domB_Dinv (fun _ => q 1) half /\
  error_within Qcabs Qcle 4 (fun _ => q 1) (replicate 4 (q 0)) (q 3) [q 1; q 3; q (-2); q 0].
Proof.
  split; [split; [apply wfb_pat_ok; reflexivity|]; split; [apply wfb_diag_ok; reflexivity|apply wfb_sorted_ok; reflexivity]|].
  split; [reflexivity|]. split; [apply inv2_oracle|]. split; [|split; [|split]].
  - intros i j Hi Hj. split; apply Qc_is_canon; destruct i as [|[|[|[|]]]]; try lia; destruct j as [|[|[|[|]]]]; try lia; vm_compute; reflexivity.
  - intros i Hi. apply Qc_is_canon; destruct i as [|[|[|[|]]]]; try lia; vm_compute; reflexivity.
  - intros i p Hi Hp. destruct i as [|[|]]; try lia; destruct p as [|[|]]; try lia; vm_compute; discriminate.
  - split; [reflexivity|]. intros i Hi. destruct i as [|[|[|[|]]]]; try lia; vm_compute; discriminate.
Qed.

(** ** What does not hold: steps of one call need not gain anything *)
Lemma writefree_relaxC {F} {O : SOps F} (M : srmat F) d b i : writefree (scalar_relaxC M d b i).
Proof.
  unfold scalar_relaxC. repeat (apply writefree_bind; [apply writefree_plift|intros ?]).
  apply writefree_bind; [|simpl; auto]. unfold scalar_relax, sdot.
  repeat (apply writefree_bind; [apply writefree_pfor; intros j s;
    repeat (apply writefree_bind; [apply writefree_plift|intros ?]); simpl; auto|intros ?]). simpl. auto.
Qed.
Lemma nok_exists {A} (m : nd A) Q : nok m Q -> exists a, m (Ok a) /\ Q a.
Proof. intros [[o Ho] H]. specialize (H o Ho). destruct o as [a| | |]; simpl in H; try tauto. eauto. Qed.

(** Two threads, chunks of one row: one thread may take the values it needs at the
    start and store its result at the very end. However many steps the call makes,
    the error is then that after one: [half] times what it was, not a power of it. *)
Theorem C74_steps_of_one_call_refuted steps d0 : 1 <= steps -> length d0 = 2 ->
  let b := [q 0; q 0] in
  let x := [q 1; q 1] in
  is_prod 2 (dense domM) [q 0; q 0] b /\
  error_within Qcabs Qcle 2 (fun _ => q 1) [q 0; q 0] (q 1) x /\
  exists x', (ndo d := jacobi_setup domM d0 in chaotic_relax 1 2 (scalar_relaxC domM d) steps 1 2 b x) (Ok x') /\
    Qcabs (vat x' 1 - q 0)%Qc = half.
Proof.
  intros Hst Hd0 b x.
  split; [intros i Hi; destruct i as [|[|]]; [reflexivity|reflexivity|lia]|].
  split; [split; [reflexivity|]; intros i Hi; destruct i as [|[|]]; [vm_compute; discriminate|vm_compute; discriminate|lia]|].
  destruct domM_wf as (Hw & Hd & Hs).
  destruct (nok_exists _ _ (nok_and _ _ _ (scalar_good domM domM_wf eq_refl domM_diag d0 Hd0) (jacobi_setup_spec domM d0 Hw Hd eq_refl Hd0)))
    as (d & Hset & Hg & Ed).
  assert (length d = 2) as Hdl by (rewrite Ed; reflexivity).
  assert (d = [(q 1 / q 2)%Qc; (q 1 / q 2)%Qc]) as -> by (rewrite Ed; reflexivity).
  set (C := scalar_relaxC domM [(q 1 / q 2)%Qc; (q 1 / q 2)%Qc] b).
  destruct steps as [|k]; [lia|].
  set (rest := concat (replicate k (chunks 1 (seq 0 2)))).
  assert (nowait_sweeps (S k) 1 (seq 0 2) = [0] :: [1] :: rest) as Hq by reflexivity.
  assert (forall r, r ∈ [0] ++ concat rest -> r < 2) as Hrows.
  { intros r Hr. apply elem_of_app in Hr as [Hr|Hr]; [apply elem_of_list_singleton in Hr; lia|].
    assert (r ∈ concat (nowait_sweeps (S k) 1 (seq 0 2))) as H'.
    { rewrite Hq. cbn [concat]. apply elem_of_app. right. right. exact Hr. }
    rewrite concat_nowait in H' by lia. apply elem_of_concat_replicate, elem_of_seq in H'. lia. }
  destruct (exec_seq_total 1 C 2 (offdep domM) ([0] ++ concat rest) x) as (m1 & Hm1 & Hm1l); [|reflexivity|].
  { intros r Hr. apply (g_kr _ _ _ _ _ _ _ _ _ _ _ Hg); [reflexivity|apply Hrows, Hr]. }
  destruct (exec_pwseg [(- half)%Qc] (1 * 1) m1) as (y' & Hy' & Hy'l & Hy'v & _); [simpl; lia|].
  exists y'. split.
  - exists (Ok [(q 1 / q 2)%Qc; (q 1 / q 2)%Qc]). split; [exact Hset|]. unfold chaotic_relax, omp_region. simpl andb. cbv iota.
    left. exists y'. split; [|reflexivity]. rewrite Hq. apply region_sc_region.
    apply (stalled_task 1 C [0] 1 rest x [(- half)%Qc] m1 y'); [discriminate|apply writefree_relaxC| |exact Hm1|exact Hy'].
    reflexivity.
  - specialize (Hy'v 0 ltac:(simpl; lia)). assert (vat y' 1 = (- half)%Qc) as -> by (apply vat_eq; exact Hy'v).
    apply Qc_is_canon. reflexivity.
Qed.

(** ** What does not hold: positive definite matrices *)
(** 4 on the diagonal and 3 elsewhere: symmetric and positive definite *)
Definition spdM : srmat Qc :=
  SR [0; 3; 6; 9] [0; 1; 2; 0; 1; 2; 0; 1; 2] (q <$> [4; 3; 3; 3; 4; 3; 3; 3; 4]%Z) [0; 4; 8] [3; 6; 9] 3 9 9.
Definition symmetric {F} (n : nat) (A : nat -> nat -> F) : Prop := forall i j, i < n -> j < n -> A i j = A j i.
Definition positive_definite (n : nat) (A : nat -> nat -> Qc) : Prop := forall v : nat -> Qc,
  (exists i, i < n /\ v i <> q 0) -> Qclt (q 0) (bsum n (fun i => v i * bsum n (fun j => A i j * v j))%s).
Lemma spdM_wf : wf_mat spdM.
Proof. split; [apply wfb_pat_ok; reflexivity|]. split; [apply wfb_diag_ok; reflexivity|apply wfb_sorted_ok; reflexivity]. Qed.
Lemma spdM_diag i : i < 3 -> dense spdM i i <> q 0.
Proof. intros Hi. destruct i as [|[|[|]]]; [discriminate|discriminate|discriminate|lia]. Qed.
Lemma Qc_square (a : Qc) : Qcle (q 0) (a * a)%Qc.
Proof.
  assert (forall c : Qc, Qcle (q 0) c -> Qcle (q 0) (c * c)%Qc) as Hp.
  { intros c Hc. replace (q 0) with (q 0 * c)%Qc by apply Qcmult_0_l. apply Qcmult_le_compat_r; exact Hc. }
  destruct (Qclt_le_dec a (q 0)) as [H|H]; [|apply Hp, H].
  replace (a * a)%Qc with ((- a) * (- a))%Qc by ring. apply Hp. apply Qclt_le_weak in H. apply Qcopp_le_compat in H. exact H.
Qed.
Lemma Qc_square_pos (a : Qc) : a <> q 0 -> Qclt (q 0) (a * a)%Qc.
Proof.
  intros Ha. destruct (Qcle_lt_or_eq _ _ (Qc_square a)) as [H|H]; [exact H|]. exfalso.
  symmetry in H. apply Qcmult_integral in H as [H|H]; apply Ha; exact H.
Qed.
Lemma Qc_add_pos (a b : Qc) : Qclt (q 0) a -> Qcle (q 0) b -> Qclt (q 0) (a + b)%Qc.
Proof.
  intros Ha Hb. eapply Qclt_le_trans; [exact Ha|]. replace a with (a + q 0)%Qc at 1 by apply Qcplus_0_r.
  apply Qcplus_le_compat; [apply Qcle_refl|exact Hb].
Qed.
Lemma spdM_definite : symmetric 3 (dense spdM) /\ positive_definite 3 (dense spdM).
Proof.
  split.
  - intros i j Hi Hj. destruct i as [|[|[|]]], j as [|[|[|]]]; try lia; reflexivity.
  - intros v (i & Hi & Hv). cbn [bsum].
    assert (forall i j, i < 3 -> j < 3 -> dense spdM i j = if decide (i = j) then q 4 else q 3) as Hdn.
    { intros k l Hk Hl. destruct k as [|[|[|]]], l as [|[|[|]]]; try lia; reflexivity. }
    rewrite !Hdn by lia. simpl.
    set (a := v 0). set (b := v 1). set (c := v 2).
    match goal with |- Qclt _ ?X => replace X with ((a * a + b * b + c * c) + q 3 * ((a + b + c) * (a + b + c)))%Qc end.
    2:{ replace (q 4) with (q 3 + q 1)%Qc by (apply Qc_is_canon; reflexivity).
        change (q 1) with 1%Qc. change (Q2Qc (QArith_base.inject_Z 0)) with 0%Qc. ring. }
    apply Qc_add_pos.
    + destruct i as [|[|[|]]]; [| | |lia].
      * replace (a * a + b * b + c * c)%Qc with (a * a + (b * b + c * c))%Qc by ring.
        apply Qc_add_pos; [apply Qc_square_pos, Hv|]. apply (Qcplus_le_compat (q 0) _ (q 0)); apply Qc_square.
      * replace (a * a + b * b + c * c)%Qc with (b * b + (a * a + c * c))%Qc by ring.
        apply Qc_add_pos; [apply Qc_square_pos, Hv|]. apply (Qcplus_le_compat (q 0) _ (q 0)); apply Qc_square.
      * replace (a * a + b * b + c * c)%Qc with (c * c + (a * a + b * b))%Qc by ring.
        apply Qc_add_pos; [apply Qc_square_pos, Hv|]. apply (Qcplus_le_compat (q 0) _ (q 0)); apply Qc_square.
    + replace (q 0) with (q 0 * ((a + b + c) * (a + b + c)))%Qc by apply Qcmult_0_l.
      apply Qcmult_le_compat_r; [vm_compute; discriminate|apply Qc_square].
Qed.

(** With a thread for every row, each call of one step may be a step of Jacobi's
    method, which diverges for this matrix: after [k] calls the error is (3/2)^k
    times what it was, although the matrix is symmetric and positive definite. *)
Theorem C74_definite_refuted d0 k : length d0 = 3 ->
  symmetric 3 (dense spdM) /\ positive_definite 3 (dense spdM) /\
  is_prod 3 (dense spdM) [q 0; q 0; q 0] [q 0; q 0; q 0] /\
  (ndo d := jacobi_setup spdM d0 in
   in_turn (replicate k (chaotic_relax 1 3 (scalar_relaxC spdM d) 1 1 3 [q 0; q 0; q 0])) [q 1; q 1; q 1])
    (Ok (replicate 3 (spow (- (q 3 / q 2))%Qc k))).
Proof.
  intros Hd0. split; [apply spdM_definite|]. split; [apply spdM_definite|].
  split; [intros i Hi; destruct i as [|[|[|]]]; [reflexivity|reflexivity|reflexivity|lia]|].
  destruct spdM_wf as (Hw & Hd & Hs).
  destruct (nok_exists _ _ (jacobi_setup_spec spdM d0 Hw Hd eq_refl Hd0)) as (d & Hset & Ed).
  exists (Ok d). split; [exact Hset|].
  assert (d = replicate 3 (q 1 / q 4)%Qc) as -> by (rewrite Ed; reflexivity). clear Hset Ed.
  assert (forall k c, in_turn (replicate k (chaotic_relax 1 3 (scalar_relaxC spdM (replicate 3 (q 1 / q 4)%Qc)) 1 1 3 [q 0; q 0; q 0])) (replicate 3 c)
            (Ok (replicate 3 (spow (- (q 3 / q 2))%Qc k * c)%Qc))) as H.
  { clear k. induction k as [|k IH]; intros c; cbn [replicate in_turn spow].
    - change (@s1 Qc _) with 1%Qc. rewrite Qcmult_1_l. reflexivity.
    - exists (Ok (replicate 3 (- (q 3 / q 2) * c)%Qc)). split.
      + unfold chaotic_relax, omp_region. simpl andb. cbv iota. left. eexists. split; [|reflexivity]. apply region_sc_region.
        change (nowait_sweeps 1 1 (seq 0 3)) with ((fun r : nat => [r]) <$> seq 0 3).
        apply (simultaneous_rows 1 _ (fun _ => [(- (q 3 / q 2) * c)%Qc])).
        * simpl. lia.
        * intros r Hr. split; [apply writefree_relaxC|]. apply elem_of_seq in Hr.
          assert (forall a, a = (- (q 3 / q 2) * c)%Qc -> Ok ([a], replicate 3 c) = Ok ([(- (q 3 / q 2) * c)%Qc], replicate 3 c)) as Hfin by (intros a ->; reflexivity).
          destruct r as [|[|[|]]]; [| | |lia]; apply Hfin; cbn -[Qcmult Qcminus Qcplus Qcopp Qcdiv q].
          all: replace (q 3 / q 2)%Qc with (q 1 / q 4 * (q 3 + q 3))%Qc by (apply Qc_is_canon; reflexivity).
          all: change (Q2Qc (QArith_base.inject_Z 0)) with 0%Qc; change (q 0) with 0%Qc; ring.
        * reflexivity.
      + specialize (IH (- (q 3 / q 2) * c)%Qc).
        replace (spow (- (q 3 / q 2)) k * (- (q 3 / q 2) * c))%Qc with (- (q 3 / q 2) * spow (- (q 3 / q 2)) k * c)%Qc in IH by ring.
        exact IH. }
  specialize (H k 1%Qc). rewrite Qcmult_1_r in H. exact H.
Qed.
Print Assumptions C74_applies.
Print Assumptions C74_steps_of_one_call_refuted.
Print Assumptions C74_definite_refuted.
