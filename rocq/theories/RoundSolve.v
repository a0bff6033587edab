(** * RoundSolve: the row kernels and triangular solves with rounding *)
From Coq Require Import QArith.Qcanon Field.
From Verif Require Import Base Alg Inst Rounding RoundFacts RoundDot SRMatrix Async AsyncTheory AsyncSystem Nd Kernels KernelFacts
  IluApply IluApplyFacts TriSpec TriFacts IluApplyProofs Chains IluApplyMain Sgs SgsFacts Reduce.

Open Scope Qc_scope.

(** finite choice *)
Lemma rows_choice {A} (a0 : A) n (P : nat -> A -> Prop) :
  (forall i, (i < n)%nat -> exists a, P i a) -> exists f, forall i, (i < n)%nat -> P i (f i).
Proof.
  induction n as [|n IH]; intros Hn.
  - exists (fun _ => a0). intros i Hi. lia.
  - destruct IH as (f & Hf); [intros i Hi; apply Hn; lia|].
    destruct (Hn n ltac:(lia)) as (a & Ha).
    exists (fun i => if decide (i = n) then a else f i). intros i Hi.
    destruct (decide (i = n)) as [->|Hne]; [exact Ha|apply Hf; lia].
Qed.
Lemma bsum_low n i (f : nat -> Qc) : (i < n)%nat -> (forall c, (i < c < n)%nat -> f c = 0) ->
  bsum n f = bsum n (fun c => if decide (c < i)%nat then f c else s0) + f i.
Proof.
  intros Hi Hz. rewrite (bsum_split3 n i) by done.
  rewrite (bsum_zero n (fun c => if decide (i < c)%nat then _ else s0)).
  - change (@sadd Qc Qc_ops) with Qcplus. change (@s0 Qc Qc_ops) with (0:Qc). ring.
  - intros c Hc. destruct (decide (i < c)%nat); [apply Hz; lia|reflexivity].
Qed.
Lemma bsum_up n i (f : nat -> Qc) : (i < n)%nat -> (forall c, (c < i)%nat -> f c = 0) ->
  bsum n f = f i + bsum n (fun c => if decide (i < c)%nat then f c else s0).
Proof.
  intros Hi Hz. rewrite (bsum_split3 n i) by done.
  rewrite (bsum_zero n (fun c => if decide (c < i)%nat then _ else s0)).
  - change (@sadd Qc Qc_ops) with Qcplus. change (@s0 Qc Qc_ops) with (0:Qc). ring.
  - intros c Hc. destruct (decide (c < i)%nat); [apply Hz; lia|reflexivity].
Qed.

Section Solve.
  Variables (u : Qc) (Of : machine).
  Hypothesis H : rounds u Of.
  Notation close := (close u).
  Let Hu0 : 0 <= u := rd_nonneg u Of H.
  Let Hu1 : u < 1 := rd_lt u Of H.
  (** the way sums are evaluated *)
  Variable dot : list Qc -> list nat -> nat -> nat -> Qc -> @P Qc Qc.
  Hypothesis Hdot : dot_rounds u dot.
  Variable M : srmat Qc.
  Hypothesis (Hw : wf_pat M) (Hd : wf_diag M) (Hs : wf_sorted M).
  Notation n := (nbrows M).

  (** the number of entries stored in a row *)
  Definition rowlen (i : nat) : nat := (rp M (i + 1) - rp M i)%nat.

  Lemma low_dot_fl vs y i a : length vs = nnz M -> length y = n -> (i < n)%nat ->
    exists ta t, close (dg M i - rp M i) ta /\ (forall c, close (dg M i - rp M i + 1) (t c)) /\
    exec y (dot vs (bcolind M) (rp M i) (dg M i) a) =
      Ok (a * ta + bsum n (fun c => if decide (c < i)%nat then entry M vs i c * vat y c * t c else s0), y).
  Proof.
    intros Hl Hy Hi. pose proof (row_bounds M Hw Hd i Hi) as Hb.
    destruct (exec_dot_fl u dot Hdot y vs (bcolind M) (rp M i) (dg M i) a) as (ti & t & H1 & H2 & E).
    - lia.
    - lia.
    - rewrite (wf_clen M Hw). lia.
    - intros j Hj. rewrite Hy. apply (wf_col M Hw). lia.
    - exists ti, (fun c => match pos M i c with Some j => if decide (rp M i <= j < dg M i)%nat then t j else 1 | None => 1 end).
      split; [exact H1|]. split.
      { intros c. destruct (pos M i c) as [j|]; [|apply close_one; auto].
        destruct (decide _); [auto|apply close_one; auto]. }
      rewrite E. do 3 f_equal. rewrite (low_row_sum M Hw Hd Hs) by done.
      apply bsum_ext. intros c Hc. destruct (decide (c < i)%nat) as [Hci|]; [|reflexivity].
      unfold entry. destruct (pos M i c) as [j|] eqn:Ep.
      + apply pos_Some in Ep as [Hj Ep]; [|done].
        rewrite decide_True.
        * unfold col in Ep. rewrite Ep. reflexivity.
        * pose proof (before_diag M i j Hs Hd Hj) as Hbd. destruct Hj as [_ Hj]. lia.
      + change (@s0 Qc Qc_ops) with (0:Qc). ring.
  Qed.
  Lemma up_dot_fl vs y i a : length vs = nnz M -> length y = n -> (i < n)%nat ->
    exists ta t, close (rp M (i + 1) - (dg M i + 1)) ta /\ (forall c, close (rp M (i + 1) - (dg M i + 1) + 1) (t c)) /\
    exec y (dot vs (bcolind M) (dg M i + 1) (rp M (i + 1)) a) =
      Ok (a * ta + bsum n (fun c => if decide (i < c)%nat then entry M vs i c * vat y c * t c else s0), y).
  Proof.
    intros Hl Hy Hi. pose proof (row_bounds M Hw Hd i Hi) as Hb.
    destruct (exec_dot_fl u dot Hdot y vs (bcolind M) (dg M i + 1) (rp M (i + 1)) a) as (ti & t & H1 & H2 & E).
    - lia.
    - lia.
    - rewrite (wf_clen M Hw). lia.
    - intros j Hj. rewrite Hy. apply (wf_col M Hw). lia.
    - exists ti, (fun c => match pos M i c with Some j => if decide (dg M i + 1 <= j < rp M (i + 1))%nat then t j else 1 | None => 1 end).
      split; [exact H1|]. split.
      { intros c. destruct (pos M i c) as [j|]; [|apply close_one; auto].
        destruct (decide _); [auto|apply close_one; auto]. }
      rewrite E. do 3 f_equal. rewrite (up_row_sum M Hw Hd Hs) by done.
      apply bsum_ext. intros c Hc. destruct (decide (i < c)%nat) as [Hci|]; [|reflexivity].
      unfold entry. destruct (pos M i c) as [j|] eqn:Ep.
      + apply pos_Some in Ep as [Hj Ep]; [|done].
        rewrite decide_True.
        * unfold col in Ep. rewrite Ep. reflexivity.
        * pose proof (after_diag M i j Hs Hd Hj) as Hbd. destruct Hj as [_ Hj]. lia.
      + change (@s0 Qc Qc_ops) with (0:Qc). ring.
  Qed.

  Lemma row_len i : (i < n)%nat -> (dg M i - rp M i + 1 + (rp M (i + 1) - (dg M i + 1)) = rowlen i)%nat.
  Proof. intros Hi. pose proof (row_bounds M Hw Hd i Hi). unfold rowlen. lia. Qed.

  (** ** Rows of the triangular solves *)
  Lemma lowC_fl ilu z y i : length ilu = nnz M -> length z = n -> length y = n -> (i < n)%nat ->
    exists t s, (forall c, close (rowlen i) (t c)) /\ close 1 s /\
    exec y (@low_with Qc Of dot M ilu z i) =
      Ok ([(vat z i - bsum n (fun c => if decide (c < i)%nat then entry M ilu i c * vat y c * t c else s0)) * s], y).
  Proof.
    intros Hl Hz Hy Hi. pose proof (row_bounds M Hw Hd i Hi) as Hb. unfold low_with.
    rewrite (proj2 (get_Some _ _ _) (wf_browptr M i Hw ltac:(lia))).
    rewrite (proj2 (get_Some _ _ _) (wf_diagind M i Hd Hi)).
    rewrite (vat_get z) by lia.
    destruct (low_dot_fl ilu y i (@s0 Qc Of) Hl Hy Hi) as (ta & t & _ & Ht & E).
    cbn [plift pbind]. rewrite exec_bind, exec_bind, E. cbn [bind exec].
    destruct (fl_sub u Of H (vat z i) (@s0 Qc Of * ta + bsum n (fun c => if decide (c < i)%nat then entry M ilu i c * vat y c * t c else s0)))
      as (s & Hs1 & Es).
    exists t, s. split; [|split; [exact Hs1|]].
    - intros c. eapply close_mono; [auto..| |apply Ht]. pose proof (row_len i Hi). lia.
    - rewrite Es, (rd_zero u Of H). do 4 f_equal. ring.
  Qed.
  Lemma upC_fl ilu y x i : length ilu = nnz M -> length y = n -> length x = n -> (i < n)%nat ->
    vat ilu (dg M i) <> 0 ->
    exists t s, (forall c, close (rowlen i) (t c)) /\ close 3 s /\
    exec x (@up_with Qc Of dot M ilu y i) =
      Ok ([(vat y i - bsum n (fun c => if decide (i < c)%nat then entry M ilu i c * vat x c * t c else s0))
             / vat ilu (dg M i) * s], x).
  Proof.
    intros Hl Hz Hy Hi Hnz. pose proof (row_bounds M Hw Hd i Hi) as Hb. unfold up_with.
    rewrite (proj2 (get_Some _ _ _) (wf_diagind M i Hd Hi)).
    rewrite (proj2 (get_Some _ _ _) (wf_browptr M (i + 1) Hw ltac:(lia))).
    cbn [plift pbind]. rewrite (vat_get ilu) by lia. rewrite (vat_get y) by lia.
    destruct (up_dot_fl ilu x i (@s0 Qc Of) Hl Hy Hi) as (ta & t & _ & Ht & E).
    cbn [plift pbind]. rewrite exec_bind, exec_bind, E. cbn [bind exec].
    destruct (fl_sub u Of H (vat y i) (@s0 Qc Of * ta + bsum n (fun c => if decide (i < c)%nat then entry M ilu i c * vat x c * t c else s0)))
      as (s & Hs1 & Es).
    destruct (fl_div u Of H 1 (vat ilu (dg M i)) Hnz) as (s2 & Hs2 & Es2).
    rewrite (rd_one u Of H), Es, Es2.
    match goal with |- context [@smul _ _ ?a ?b] => destruct (fl_mul u Of H a b) as (s3 & Hs3 & Es3) end.
    rewrite Es3. exists t, (s * s2 * s3). split; [|split].
    - intros c. eapply close_mono; [auto..| |apply Ht]. pose proof (row_len i Hi). lia.
    - apply (close_mul u Hu1 2 1); [apply (close_mul u Hu1 1 1)|]; auto.
    - rewrite (rd_zero u Of H). do 3 f_equal. unfold Qcdiv. ring.
  Qed.
  (** a consistent entry *)
  Lemma fix_at_val (C : nat -> @P Qc (list Qc)) ms i x :
    exec ms (C i) = Ok ([x], ms) -> (i < length ms)%nat -> fix_at 1 C ms i -> vat ms i = x.
  Proof. intros He Hi. apply (fix_at_1 C ms i x He Hi). Qed.

  Lemma lower_solution_fl ilu rhs y : length ilu = nnz M -> length rhs = n ->
    @lower_solution Qc 1 n (@low_with Qc Of dot M ilu) rhs y ->
    length y = n /\ exists L', perturbed u n rowlen (unitlower (entry M ilu)) L' /\ is_prod n L' y rhs.
  Proof.
    intros Hl Hr [Hy Hf]. rewrite Nat.mul_1_r in Hy. split; [exact Hy|].
    destruct (rows_choice (fun _ => 0) n (fun i (row : nat -> Qc) =>
      (forall j, (j < n)%nat -> exists t, close (rowlen i) t /\ row j = unitlower (entry M ilu) i j * t) /\
      bsum n (fun j => row j * vat y j)%s = vat rhs i)) as (L' & HL).
    - intros i Hi. specialize (Hf i Hi).
      destruct (lowC_fl ilu rhs y i Hl Hr Hy Hi) as (t & s & Ht & Hs1 & E).
      apply (fix_at_val _ _ _ _ E) in Hf; [|lia].
      pose proof (close_neq u Hu1 _ _ Hs1) as Hs0.
      pose proof (row_bounds M Hw Hd i Hi) as Hb.
      exists (fun j => unitlower (entry M ilu) i j * (if decide (j < i)%nat then t j else / s)). split.
      + intros j Hj. eexists. split; [|reflexivity]. destruct (decide _); [apply Ht|].
        apply close_inv; auto. eapply close_mono; [auto..| |exact Hs1]. unfold rowlen. lia.
      + rewrite (bsum_low n i); [|done|].
        * rewrite (bsum_ext n _ (fun c => if decide (c < i)%nat then entry M ilu i c * vat y c * t c else s0)).
          -- unfold unitlower. rewrite !(decide_False (P := (i < i)%nat)) by lia. rewrite decide_True by done.
             change (@smul Qc Qc_ops) with Qcmult. change (@s1 Qc Qc_ops) with (1:Qc). rewrite Hf. field. exact Hs0.
          -- intros c Hc. unfold unitlower. destruct (decide (c < i)%nat); [|reflexivity].
             change (@smul Qc Qc_ops) with Qcmult. ring.
        * intros c Hc. unfold unitlower. rewrite !decide_False by lia.
          change (@smul Qc Qc_ops) with Qcmult. change (@s0 Qc Qc_ops) with (0:Qc). ring.
    - exists L'. split.
      + intros i j Hi Hj. apply HL; auto.
      + intros i Hi. apply HL; auto.
  Qed.
  Lemma upper_solution_fl ilu y x : length ilu = nnz M -> length y = n ->
    (forall i, (i < n)%nat -> vat ilu (dg M i) <> 0) ->
    @upper_solution Qc 1 n (@up_with Qc Of dot M ilu) y x ->
    length x = n /\ exists U', perturbed u n (fun i => rowlen i + 2)%nat (upper (entry M ilu)) U' /\ is_prod n U' x y.
  Proof.
    intros Hl Hr Hnz [Hy Hf]. rewrite Nat.mul_1_r in Hy. split; [exact Hy|].
    destruct (rows_choice (fun _ => 0) n (fun i (row : nat -> Qc) =>
      (forall j, (j < n)%nat -> exists t, close (rowlen i + 2) t /\ row j = upper (entry M ilu) i j * t) /\
      bsum n (fun j => row j * vat x j)%s = vat y i)) as (U' & HU).
    - intros i Hi. specialize (Hf i Hi). pose proof (Hnz i Hi) as Hnzi.
      destruct (upC_fl ilu y x i Hl Hr Hy Hi Hnzi) as (t & s & Ht & Hs1 & E).
      apply (fix_at_val _ _ _ _ E) in Hf; [|lia].
      pose proof (close_neq u Hu1 _ _ Hs1) as Hs0.
      pose proof (row_bounds M Hw Hd i Hi) as Hb.
      exists (fun j => upper (entry M ilu) i j * (if decide (i < j)%nat then t j else / s)). split.
      + intros j Hj. eexists. split; [|reflexivity]. destruct (decide _).
        * eapply close_mono; [auto..| |apply Ht]. lia.
        * apply close_inv; auto. eapply close_mono; [auto..| |exact Hs1]. unfold rowlen. lia.
      + rewrite (bsum_up n i); [|done|].
        * rewrite (bsum_ext n _ (fun c => if decide (i < c)%nat then entry M ilu i c * vat x c * t c else s0)).
          -- unfold upper. rewrite decide_True by lia. rewrite !(decide_False (P := (i < i)%nat)) by lia.
             rewrite (entry_diag M ilu Hd Hs i Hi).
             change (@smul Qc Qc_ops) with Qcmult. rewrite Hf. field. split; [exact Hnzi|exact Hs0].
          -- intros c Hc. unfold upper. destruct (decide (i < c)%nat); [|reflexivity].
             rewrite decide_True by lia. change (@smul Qc Qc_ops) with Qcmult. ring.
        * intros c Hc. unfold upper. rewrite !decide_False by lia.
          change (@smul Qc Qc_ops) with Qcmult. change (@s0 Qc Qc_ops) with (0:Qc). ring.
    - exists U'. split.
      + intros i j Hi Hj. apply HU; auto.
      + intros i Hi. apply HU; auto.
  Qed.
End Solve.

(** ** Gauss-Seidel rows and solves *)
Section Sgs.
  Variables (u : Qc) (Of : machine).
  Hypothesis H : rounds u Of.
  Notation close := (close u).
  Let Hu0 : 0 <= u := rd_nonneg u Of H.
  Let Hu1 : u < 1 := rd_lt u Of H.
  (** the way sums are evaluated *)
  Variable dot : list Qc -> list nat -> nat -> nat -> Qc -> @P Qc Qc.
  Hypothesis Hdot : dot_rounds u dot.
  Variable M : srmat Qc.
  Hypothesis (Hw : wf_pat M) (Hd : wf_diag M) (Hs : wf_sorted M) (Hl : length (vals M) = nnz M).
  Notation n := (nbrows M).
  Notation A := (entry M (vals M)).
  Notation rowlen := (rowlen M).
  (** the stored inverses of the diagonal *)
  Variable d : list Qc.
  Hypothesis Hdl : length d = n.
  Hypothesis Hnz : forall i, (i < n)%nat -> A i i <> 0.
  Hypothesis Hdv : forall i, (i < n)%nat -> exists t, close 1 t /\ vat d i = 1 / A i i * t.

  Variable ms : Qc -> Qc -> Qc -> Qc.
  Hypothesis Hms : msub_rounds u ms.
  Lemma fgsC_fl r y i : length r = n -> length y = n -> (i < n)%nat ->
    exists t s, (forall c, close (rowlen i) (t c)) /\ close 3 s /\
    exec y (@fgs_with Qc Of dot M d r i) =
      Ok ([(vat r i - bsum n (fun c => if decide (c < i)%nat then A i c * vat y c * t c else s0)) / A i i * s], y).
  Proof.
    intros Hr Hy Hi. pose proof (row_bounds M Hw Hd i Hi) as Hb. unfold fgs_with.
    rewrite (proj2 (get_Some _ _ _) (wf_browptr M i Hw ltac:(lia))).
    rewrite (proj2 (get_Some _ _ _) (wf_diagind M i Hd Hi)).
    rewrite (vat_get d) by lia. rewrite (vat_get r) by lia.
    destruct (low_dot_fl u Of H dot Hdot M Hw Hd Hs (vals M) y i (@s0 Qc Of) Hl Hy Hi) as (ta & t & _ & Ht & E).
    cbn [plift pbind]. rewrite exec_bind, exec_bind, E. cbn [bind exec].
    destruct (fl_sub u Of H (vat r i) (@s0 Qc Of * ta + bsum n (fun c => if decide (c < i)%nat then A i c * vat y c * t c else s0)))
      as (s & Hs1 & Es).
    destruct (Hdv i Hi) as (s2 & Hs2 & Es2). rewrite Es, Es2.
    match goal with |- context [@smul _ _ ?a ?b] => destruct (fl_mul u Of H a b) as (s3 & Hs3 & Es3) end.
    rewrite Es3. exists t, (s * s2 * s3). split; [|split].
    - intros c. eapply close_mono; [auto..| |apply Ht]. pose proof (row_len M Hw Hd i Hi). lia.
    - apply (close_mul u Hu1 2 1); [apply (close_mul u Hu1 1 1)|]; auto.
    - rewrite (rd_zero u Of H). do 3 f_equal. unfold Qcdiv. ring.
  Qed.
  Lemma bgsC_fl y z i : length y = n -> length z = n -> (i < n)%nat ->
    exists t s, (forall c, close (rowlen i + 2) (t c)) /\ close 1 s /\
    exec z (@bgs_with Qc Of dot ms M d y i) =
      Ok ([(vat y i - bsum n (fun c => if decide (i < c)%nat then A i c * vat z c * t c else s0) / A i i) * s], z).
  Proof.
    intros Hy Hz Hi. pose proof (row_bounds M Hw Hd i Hi) as Hb. unfold bgs_with.
    rewrite (proj2 (get_Some _ _ _) (wf_diagind M i Hd Hi)).
    rewrite (proj2 (get_Some _ _ _) (wf_browptr M (i + 1) Hw ltac:(lia))).
    cbn [plift pbind]. rewrite (vat_get (vals M)) by lia.
    rewrite (vat_get d) by lia. rewrite (vat_get y) by lia.
    destruct (up_dot_fl u Of H dot Hdot M Hw Hd Hs (vals M) z i (@s0 Qc Of) Hl Hz Hi) as (ta & t & _ & Ht & E).
    cbn [plift pbind]. rewrite exec_bind, exec_bind, E. cbn [bind exec].
    destruct (Hdv i Hi) as (s2 & Hs2 & Es2). rewrite Es2.
    match goal with |- context [ms ?r ?a ?b] => destruct (Hms r a b) as (s3 & s & Hs3 & Hs1 & Es) end.
    rewrite Es. exists (fun c => t c * (s2 * s3)), s. split; [|split].
    - intros c. apply (close_mul u Hu1); [|apply (close_mul u Hu1 1 1); auto].
      eapply close_mono; [auto..| |apply Ht]. pose proof (row_len M Hw Hd i Hi). lia.
    - exact Hs1.
    - rewrite (rd_zero u Of H). do 4 f_equal.
      rewrite (bsum_ext n (fun c => if decide (i < c)%nat then A i c * vat z c * (t c * (s2 * s3)) else s0)
        (fun c => ((if decide (i < c)%nat then A i c * vat z c * t c else s0) * (s2 * s3))%s)).
      + rewrite bsum_mul_r. change (@smul Qc Qc_ops) with Qcmult. unfold Qcdiv. ring.
      + intros c Hc. change (@smul Qc Qc_ops) with Qcmult. destruct (decide _); [ring|].
        change (@s0 Qc Qc_ops) with (0:Qc). ring.
  Qed.

  Lemma fgs_solution_fl r y : length r = n -> @lower_solution Qc 1 n (@fgs_with Qc Of dot M d) r y ->
    length y = n /\ exists L', perturbed u n (fun i => rowlen i + 2)%nat (lower A) L' /\ is_prod n L' y r.
  Proof.
    intros Hr [Hy Hf]. rewrite Nat.mul_1_r in Hy. split; [exact Hy|].
    destruct (rows_choice (fun _ => 0) n (fun i (row : nat -> Qc) =>
      (forall j, (j < n)%nat -> exists t, close (rowlen i + 2) t /\ row j = lower A i j * t) /\
      bsum n (fun j => row j * vat y j)%s = vat r i)) as (L' & HL).
    - intros i Hi. specialize (Hf i Hi). pose proof (Hnz i Hi) as Hnzi.
      destruct (fgsC_fl r y i Hr Hy Hi) as (t & s & Ht & Hs1 & E).
      apply (fix_at_val _ _ _ _ E) in Hf; [|lia].
      pose proof (close_neq u Hu1 _ _ Hs1) as Hs0.
      pose proof (row_bounds M Hw Hd i Hi) as Hb.
      exists (fun j => lower A i j * (if decide (j < i)%nat then t j else / s)). split.
      + intros j Hj. eexists. split; [|reflexivity]. destruct (decide _).
        * eapply close_mono; [auto..| |apply Ht]. lia.
        * apply close_inv; auto. eapply close_mono; [auto..| |exact Hs1]. unfold RoundSolve.rowlen. lia.
      + rewrite (bsum_low n i); [|done|].
        * rewrite (bsum_ext n _ (fun c => if decide (c < i)%nat then A i c * vat y c * t c else s0)).
          -- unfold lower. rewrite decide_True by lia. rewrite !(decide_False (P := (i < i)%nat)) by lia.
             change (@smul Qc Qc_ops) with Qcmult. rewrite Hf. field. auto.
          -- intros c Hc. unfold lower. destruct (decide (c < i)%nat); [|reflexivity].
             rewrite decide_True by lia. change (@smul Qc Qc_ops) with Qcmult. ring.
        * intros c Hc. unfold lower. rewrite !decide_False by lia.
          change (@smul Qc Qc_ops) with Qcmult. change (@s0 Qc Qc_ops) with (0:Qc). ring.
    - exists L'. split.
      + intros i j Hi Hj. apply HL; auto.
      + intros i Hi. apply HL; auto.
  Qed.
  Lemma bgs_solution_fl y z : length y = n -> @upper_solution Qc 1 n (@bgs_with Qc Of dot ms M d) y z ->
    length z = n /\ exists U', perturbed u n (fun i => rowlen i + 2)%nat (upper A) U' /\
      forall i, (i < n)%nat -> bsum n (fun j => U' i j * vat z j)%s = A i i * vat y i.
  Proof.
    intros Hr [Hy Hf]. rewrite Nat.mul_1_r in Hy. split; [exact Hy|].
    destruct (rows_choice (fun _ => 0) n (fun i (row : nat -> Qc) =>
      (forall j, (j < n)%nat -> exists t, close (rowlen i + 2) t /\ row j = upper A i j * t) /\
      bsum n (fun j => row j * vat z j)%s = A i i * vat y i)) as (U' & HU).
    - intros i Hi. specialize (Hf i Hi). pose proof (Hnz i Hi) as Hnzi.
      destruct (bgsC_fl y z i Hr Hy Hi) as (t & s & Ht & Hs1 & E).
      apply (fix_at_val _ _ _ _ E) in Hf; [|lia].
      pose proof (close_neq u Hu1 _ _ Hs1) as Hs0.
      pose proof (row_bounds M Hw Hd i Hi) as Hb.
      exists (fun j => upper A i j * (if decide (i < j)%nat then t j else / s)). split.
      + intros j Hj. eexists. split; [|reflexivity]. destruct (decide _).
        * apply Ht.
        * apply close_inv; auto. eapply close_mono; [auto..| |exact Hs1]. lia.
      + rewrite (bsum_up n i); [|done|].
        * rewrite (bsum_ext n _ (fun c => if decide (i < c)%nat then A i c * vat z c * t c else s0)).
          -- unfold upper. rewrite decide_True by lia. rewrite !(decide_False (P := (i < i)%nat)) by lia.
             change (@smul Qc Qc_ops) with Qcmult. rewrite Hf. field. auto.
          -- intros c Hc. unfold upper. destruct (decide (i < c)%nat); [|reflexivity].
             rewrite decide_True by lia. change (@smul Qc Qc_ops) with Qcmult. ring.
        * intros c Hc. unfold upper. rewrite !decide_False by lia.
          change (@smul Qc Qc_ops) with Qcmult. change (@s0 Qc Qc_ops) with (0:Qc). ring.
    - exists U'. split.
      + intros i j Hi Hj. apply HU; auto.
      + intros i Hi. apply HU; auto.
  Qed.
End Sgs.
