(** * RoundFacts: accumulating rounding errors *)
From Coq Require Import QArith.Qcanon Field.
From Verif Require Import Base Alg Inst Rounding SRMatrix Async AsyncTheory AsyncSystem Nd Kernels KernelFacts
  IluApply IluApplyFacts TriSpec TriFacts IluApplyProofs Chains IluApplyMain.

Open Scope Qc_scope.

Section Close.
  Variable u : Qc.
  Hypothesis (Hu0 : 0 <= u) (Hu1 : u < 1).
  Notation close := (close u).

  Lemma omu_pos : 0 < 1 - u.
  Proof. apply Qclt_minus_iff in Hu1. exact Hu1. Qed.
  Lemma omu_le1 : 1 - u <= 1.
  Proof. apply Qcle_minus_iff. replace (1 + - (1 - u)) with u by ring. exact Hu0. Qed.
  Lemma pow_pos k : 0 < (1 - u) ^ k.
  Proof.
    induction k as [|k IH]; simpl; [reflexivity|].
    replace 0 with (0 * (1 - u) ^ k) by ring. apply Qcmult_lt_compat_r; [exact IH|exact omu_pos].
  Qed.
  Lemma Qcmul_nonneg a b : 0 <= a -> 0 <= b -> 0 <= a * b.
  Proof. intros Ha Hb. replace 0 with (0 * b) by ring. apply Qcmult_le_compat_r; auto. Qed.
  Lemma Qcmul_pos a b : 0 < a -> 0 < b -> 0 < a * b.
  Proof. intros Ha Hb. replace 0 with (0 * b) by ring. apply Qcmult_lt_compat_r; auto. Qed.
  Lemma Qcmul_le2 a b c d : 0 <= a -> 0 <= d -> a <= b -> c <= d -> a * c <= b * d.
  Proof.
    intros Ha Hd Hab Hcd. apply Qcle_trans with (a * d).
    - rewrite !(Qcmult_comm a). apply Qcmult_le_compat_r; auto.
    - apply Qcmult_le_compat_r; auto.
  Qed.
  Lemma pow_add j k : (1 - u) ^ (j + k) = (1 - u) ^ j * (1 - u) ^ k.
  Proof. induction j as [|j IH]; simpl; [ring|]. rewrite IH. ring. Qed.
  Lemma pow_le1 k : (1 - u) ^ k <= 1.
  Proof.
    induction k as [|k IH]; simpl; [apply Qcle_refl|].
    apply Qcle_trans with (1 * 1); [|discriminate].
    apply Qcmul_le2; [apply Qclt_le_weak, omu_pos|discriminate|exact omu_le1|exact IH].
  Qed.

  Lemma close_pos k t : close k t -> 0 < t.
  Proof. intros [H _]. eapply Qclt_le_trans; [apply pow_pos|exact H]. Qed.
  Lemma close_neq k t : close k t -> t <> 0.
  Proof. intros H. apply close_pos in H. intros ->. discriminate. Qed.
  Lemma close_one k : close k 1.
  Proof.
    split; [apply pow_le1|]. rewrite Qcmult_1_l. apply pow_le1.
  Qed.
  Lemma close_mul j k s t : close j s -> close k t -> close (j + k) (s * t).
  Proof.
    intros Hs Ht. pose proof (close_pos _ _ Hs) as Ps. pose proof (close_pos _ _ Ht) as Pt.
    destruct Hs as [S1 S2], Ht as [T1 T2]. split; rewrite pow_add.
    - apply Qcmul_le2; auto; apply Qclt_le_weak; auto. apply pow_pos.
    - replace (s * t * ((1 - u) ^ j * (1 - u) ^ k)) with ((s * (1 - u) ^ j) * (t * (1 - u) ^ k)) by ring.
      apply Qcle_trans with (1 * 1); [|discriminate]. apply Qcmul_le2; auto; try discriminate.
      apply Qclt_le_weak, Qcmul_pos; auto. apply pow_pos.
  Qed.
  Lemma close_mono j k t : (j <= k)%nat -> close j t -> close k t.
  Proof.
    intros Hle H. replace k with (j + (k - j))%nat by lia. rewrite <- (Qcmult_1_r t).
    apply close_mul; [exact H|apply close_one].
  Qed.
  Lemma close_inv k t : close k t -> close k (/ t).
  Proof.
    intros H. pose proof (close_pos _ _ H) as Pt. pose proof (close_neq _ _ H) as Nt.
    assert (0 <= / t) as Pi.
    { apply Qclt_le_weak. apply Qcnot_le_lt. intros Hle.
      assert (/ t * t <= 0 * t) as H1 by (apply Qcmult_le_compat_r; [exact Hle|apply Qclt_le_weak, Pt]).
      rewrite (Qcmult_comm (/ t)), Qcmult_inv_r in H1 by exact Nt. rewrite Qcmult_0_l in H1.
      apply H1. reflexivity. }
    destruct H as [H1 H2]. split.
    - replace ((1 - u) ^ k) with (t * (1 - u) ^ k * / t).
      + rewrite <- (Qcmult_1_l (/ t)) at 2. apply Qcmult_le_compat_r; auto.
      + field. exact Nt.
    - apply Qcle_trans with (t * / t); [|rewrite Qcmult_inv_r by exact Nt; apply Qcle_refl].
      rewrite (Qcmult_comm (/ t)). apply Qcmult_le_compat_r; auto.
  Qed.
  Lemma close_delta d : - u <= d -> d <= u -> close 1 (1 + d).
  Proof.
    intros H1 H2. split; simpl; rewrite Qcmult_1_r.
    - unfold Qcminus. apply Qcplus_le_compat; [apply Qcle_refl|exact H1].
    - apply Qcle_trans with ((1 + u) * (1 - u)).
      + apply Qcmult_le_compat_r; [|apply Qclt_le_weak, omu_pos].
        apply Qcplus_le_compat; [apply Qcle_refl|exact H2].
      + apply Qcle_minus_iff. replace (1 + - ((1 + u) * (1 - u))) with (u * u) by ring.
        apply Qcmul_nonneg; auto.
  Qed.
  Lemma rounded_close e x : rounded u e x -> exists t, close 1 t /\ x = e * t.
  Proof. intros (d & H1 & H2 & E). exists (1 + d). split; [apply close_delta; auto|exact E]. Qed.
End Close.

(** ** The loops, with rounding *)
Section Kernel.
  Variables (u : Qc) (Of : machine).
  Hypothesis H : rounds u Of.
  Notation close := (close u).
  Let Hu0 : 0 <= u := rd_nonneg u Of H.
  Let Hu1 : u < 1 := rd_lt u Of H.

  Lemma fl_add x y : exists t, close 1 t /\ @sadd Qc Of x y = (x + y) * t.
  Proof. apply rounded_close; auto. apply (rd_add u Of H). Qed.
  Lemma fl_sub x y : exists t, close 1 t /\ @ssub Qc Of x y = (x - y) * t.
  Proof. apply rounded_close; auto. apply (rd_sub u Of H). Qed.
  Lemma fl_mul x y : exists t, close 1 t /\ @smul Qc Of x y = (x * y) * t.
  Proof. apply rounded_close; auto. apply (rd_mul u Of H). Qed.
  Lemma fl_div x y : y <> 0 -> exists t, close 1 t /\ @sdiv Qc Of x y = (x / y) * t.
  Proof. intros Hy. apply rounded_close; auto. apply (rd_div u Of H), Hy. Qed.

  Lemma lsum_ext {A} (f g : A -> Qc) l : (forall a, a ∈ l -> f a = g a) -> lsum f l = lsum g l.
  Proof.
    induction l as [|a l IH]; intros E; simpl; [reflexivity|].
    rewrite IH, (E a); [reflexivity|left|]. intros b Hb. apply E. right. exact Hb.
  Qed.
  Lemma lsum_mul {A} (f : A -> Qc) c l : lsum (fun a => f a * c) l = lsum f l * c.
  Proof.
    induction l as [|a l IH]; [change (0 = 0 * c)|change (f a * c + lsum (fun a => f a * c) l = (f a + lsum f l) * c); rewrite IH]; ring.
  Qed.

  (** accumulating one more term *)
  Definition bump (t : nat -> Qc) (j : nat) (tm ta : Qc) : nat -> Qc := fun k =>
    if decide (k = j) then tm * ta else t k * ta.
  Lemma lsum_bump g t lo j tm ta : (lo <= j)%nat ->
    lsum (fun k => g k * bump t j tm ta k) (range lo (j + 1)) =
    (lsum (fun k => g k * t k) (range lo j) + g j * tm) * ta.
  Proof.
    intros Hj. rewrite lsum_snoc_range by done. unfold bump at 2. rewrite decide_True by done.
    rewrite (lsum_ext _ (fun k => g k * t k * ta)).
    - rewrite lsum_mul. change (@sadd Qc Qc_ops) with Qcplus. ring.
    - intros k Hk. apply elem_of_range in Hk. unfold bump. rewrite decide_False by lia. ring.
  Qed.
  Lemma bump_close k t lo j tm ta :
    (forall i, (lo <= i < j)%nat -> close k (t i)) -> (1 <= k)%nat -> close 1 tm -> close 1 ta ->
    forall i, (lo <= i < j + 1)%nat -> close (k + 1) (bump t j tm ta i).
  Proof.
    intros Ht Hk Hm Ha i Hi. unfold bump. destruct (decide (i = j)) as [->|Hne].
    - apply close_mono with (1 + 1)%nat; auto; [lia|]. apply close_mul; auto.
    - apply close_mul; auto. apply Ht. lia.
  Qed.
End Kernel.
