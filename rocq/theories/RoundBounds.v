(** * RoundBounds: from factors close to 1 to absolute bounds

    The usual form of a backward error: a factor made of k roundings differs from 1 by
    at most k u / (1 - k u). *)
From Coq Require Import QArith.Qcanon QArith.Qcabs Field.
From Verif Require Import Base Alg Inst TriSpec Rounding RoundFacts RoundInst.

Open Scope Qc_scope.

Definition count (k : nat) : Qc := q (Z.of_nat k).
(** |x| <= (k u / (1 - k u)) b, without the division *)
Definition within (u : Qc) (k : nat) (x b : Qc) : Prop := Qcabs x * (1 - count k * u) <= count k * u * b.

Section Bounds.
  Context (u : Qc) (Hu0 : 0 <= u) (Hu1 : u < 1).
  Lemma count_S k : count (S k) = count k + 1.
  Proof. unfold count. rewrite Nat2Z.inj_succ, <- Z.add_1_r. rewrite q_add. reflexivity. Qed.
  Lemma count_nonneg k : 0 <= count k.
  Proof. change 0 with (q 0). apply (q_le 0). lia. Qed.
  Lemma bernoulli k : 1 - count k * u <= (1 - u) ^ k.
  Proof.
    pose proof (omu_pos u Hu1) as Hp.
    induction k as [|k IH].
    - replace (1 - count 0 * u) with 1; [apply Qcle_refl|]. replace (count 0) with (0:Qc) by (apply Qc_is_canon; reflexivity). ring.
    - rewrite count_S. simpl. apply Qcle_trans with ((1 - u) * (1 - count k * u)).
      + apply Qcle_minus_iff.
        replace ((1 - u) * (1 - count k * u) + - (1 - (count k + 1) * u)) with (count k * (u * u)) by ring.
        apply Qcmul_nonneg; [apply count_nonneg|]. apply Qcmul_nonneg; auto.
      + rewrite (Qcmult_comm (1 - u)), (Qcmult_comm (1 - u)). apply Qcmult_le_compat_r; [exact IH|]. apply Qclt_le_weak, Hp.
  Qed.
  Lemma close_abs k t : close u k t -> within u k (t - 1) 1.
  Proof.
    intros [H1 H2]. unfold within. pose proof (pow_pos u Hu1 k) as Hw. set (w := (1 - u) ^ k) in *.
    pose proof (bernoulli k) as HB. fold w in HB. pose proof (pow_le1 u Hu0 Hu1 k) as Hw1. fold w in Hw1.
    apply Qcle_trans with (Qcabs (t - 1) * w).
    { rewrite (Qcmult_comm _ w), (Qcmult_comm _ (1 - count k * u)). apply Qcmult_le_compat_r; [exact HB|apply Qcabs_nonneg]. }
    apply Qcle_trans with (1 - w).
    - rewrite <- (Qcabs_pos w) by (apply Qclt_le_weak, Hw). rewrite <- Qcabs_Qcmult. rewrite (Qcabs_pos w) by (apply Qclt_le_weak, Hw).
      apply Qcabs_Qcle_condition. split.
      + apply Qcle_minus_iff. replace ((t - 1) * w + - - (1 - w)) with ((t - w) * w + (1 - w) * (1 - w) ) by ring.
        replace 0 with (0 + 0) by ring. apply Qcplus_le_compat.
        * apply Qcmul_nonneg; [|apply Qclt_le_weak, Hw]. apply Qcle_minus_iff in H1. exact H1.
        * apply Qcle_minus_iff in Hw1. apply Qcmul_nonneg; exact Hw1.
      + apply Qcle_minus_iff in H2. apply Qcle_minus_iff. replace (1 - w + - ((t - 1) * w)) with (1 + - (t * w)) by ring. exact H2.
    - apply Qcle_minus_iff in HB. apply Qcle_minus_iff. replace (count k * u * 1 + - (1 - w)) with (w + - (1 - count k * u)) by ring. exact HB.
  Qed.
  Lemma within_scale k c x b : within u k x b -> within u k (c * x) (Qcabs c * b).
  Proof.
    unfold within. intros H. rewrite Qcabs_Qcmult.
    replace (Qcabs c * Qcabs x * (1 - count k * u)) with (Qcabs x * (1 - count k * u) * Qcabs c) by ring.
    replace (count k * u * (Qcabs c * b)) with (count k * u * b * Qcabs c) by ring.
    apply Qcmult_le_compat_r; [exact H|apply Qcabs_nonneg].
  Qed.
  Lemma bsum_within k n (f b : nat -> Qc) : count k * u <= 1 -> (forall i, (i < n)%nat -> within u k (f i) (b i)) ->
    within u k (bsum n f) (bsum n b).
  Proof.
    intros Hk. unfold within. induction n as [|n IH]; intros H.
    - cbn [bsum]. change (@s0 Qc Qc_ops) with (0:Qc). rewrite Qcabs_pos by apply Qcle_refl.
      replace (0 * (1 - count k * u)) with 0 by ring. replace (count k * u * 0) with 0 by ring. apply Qcle_refl.
    - cbn [bsum]. change (@sadd Qc Qc_ops) with Qcplus. apply Qcle_trans with ((Qcabs (bsum n f) + Qcabs (f n)) * (1 - count k * u)).
      + apply Qcmult_le_compat_r; [apply Qcabs_triangle|]. apply Qcle_minus_iff in Hk. exact Hk.
      + rewrite Qcmult_plus_distr_l, Qcmult_plus_distr_r. apply Qcplus_le_compat; [apply IH; auto|apply H; lia].
  Qed.
  Lemma perturbed_within n k m A B i j : perturbed u n k A B -> (i < n)%nat -> (j < n)%nat -> (k i <= m)%nat ->
    within u m (B i j - A i j) (Qcabs (A i j)).
  Proof.
    intros H Hi Hj Hk. destruct (H i j Hi Hj) as (t & Ht & ->).
    replace (A i j * t - A i j) with (A i j * (t - 1)) by ring. replace (Qcabs (A i j)) with (Qcabs (A i j) * 1) by ring.
    apply within_scale, close_abs. eapply close_mono; eauto.
  Qed.
  (** products of perturbed factors *)
  Lemma mprod_within n k1 k2 m L L' U U' i j :
    perturbed u n k1 L L' -> perturbed u n k2 U U' -> (i < n)%nat -> (j < n)%nat -> count m * u <= 1 ->
    (forall c, (c < n)%nat -> (k1 i + k2 c <= m)%nat) ->
    within u m (mprod n L' U' i j - mprod n L U i j) (mprod n (fun a b => Qcabs (L a b)) (fun a b => Qcabs (U a b)) i j).
  Proof.
    intros HL HU Hi Hj Hm Hk.
    assert (mprod n L' U' i j - mprod n L U i j = bsum n (fun c => L' i c * U' c j - L i c * U c j)) as ->.
    { unfold mprod. symmetry. exact (bsum_sub n (fun c => L' i c * U' c j) (fun c => L i c * U c j)). }
    apply bsum_within; [exact Hm|]. intros c Hc. change (@smul Qc Qc_ops) with Qcmult.
    destruct (HL i c Hi Hc) as (t & Ht & ->). destruct (HU c j Hc Hj) as (s & Hs & ->).
    replace (L i c * t * (U c j * s) - L i c * U c j) with (L i c * U c j * (t * s - 1)) by ring.
    rewrite <- Qcabs_Qcmult. replace (Qcabs (L i c * U c j)) with (Qcabs (L i c * U c j) * 1) by ring.
    apply within_scale, close_abs. apply (close_mono u Hu0 Hu1 (k1 i + k2 c)); [auto|]. apply close_mul; auto.
  Qed.
  Lemma count_add j k : count (j + k) = count j + count k.
  Proof. unfold count. rewrite Nat2Z.inj_add, q_add. reflexivity. Qed.
  Lemma count_mono j k : (j <= k)%nat -> count j <= count k.
  Proof. intros H. apply q_le. lia. Qed.
  Lemma within_less j k x b : (j <= k)%nat -> 0 <= b -> within u j x b -> within u k x b.
  Proof.
    unfold within. intros Hjk Hb H. pose proof (count_mono j k Hjk) as Hc.
    assert (count j * u <= count k * u) as Hcu by (apply Qcmult_le_compat_r; auto).
    apply Qcle_trans with (Qcabs x * (1 - count j * u)).
    - rewrite !(Qcmult_comm (Qcabs x)). apply Qcmult_le_compat_r; [|apply Qcabs_nonneg].
      apply Qcle_minus_iff in Hcu. apply Qcle_minus_iff.
      replace (1 - count j * u + - (1 - count k * u)) with (count k * u + - (count j * u)) by ring. exact Hcu.
    - eapply Qcle_trans; [exact H|]. apply Qcmult_le_compat_r; auto.
  Qed.
  Lemma within_add j k x y b : 0 <= b -> within u j x b -> within u k y b -> within u (j + k) (x + y) b.
  Proof.
    unfold within. intros Hb Hx Hy. rewrite count_add.
    destruct (Qclt_le_dec 1 ((count j + count k) * u)) as [Hlt|Hge].
    - (* the bound is vacuous *)
      apply Qcle_trans with 0.
      + rewrite <- (Qcmult_0_r (Qcabs (x + y))). rewrite !(Qcmult_comm (Qcabs (x + y))). apply Qcmult_le_compat_r; [|apply Qcabs_nonneg].
        apply Qclt_le_weak in Hlt. apply Qcle_minus_iff in Hlt. apply Qcle_minus_iff.
        replace (0 + - (1 - (count j + count k) * u)) with ((count j + count k) * u + - (1)) by ring. exact Hlt.
      + apply Qcmul_nonneg; [|exact Hb]. apply Qcmul_nonneg; [|exact Hu0].
        rewrite <- count_add. apply count_nonneg.
    - apply Qcle_trans with ((Qcabs x + Qcabs y) * (1 - (count j + count k) * u)).
      { apply Qcmult_le_compat_r; [apply Qcabs_triangle|]. apply Qcle_minus_iff in Hge. exact Hge. }
      replace ((count j + count k) * u * b) with (count j * u * b + count k * u * b) by ring. rewrite Qcmult_plus_distr_l.
      pose proof (Qcmul_nonneg _ _ (count_nonneg j) Hu0) as Hj. pose proof (Qcmul_nonneg _ _ (count_nonneg k) Hu0) as Hk.
      apply Qcplus_le_compat.
      + eapply Qcle_trans; [|exact Hx]. rewrite !(Qcmult_comm (Qcabs x)). apply Qcmult_le_compat_r; [|apply Qcabs_nonneg].
        apply Qcle_minus_iff. replace (1 - count j * u + - (1 - (count j + count k) * u)) with (count k * u) by ring. exact Hk.
      + eapply Qcle_trans; [|exact Hy]. rewrite !(Qcmult_comm (Qcabs y)). apply Qcmult_le_compat_r; [|apply Qcabs_nonneg].
        apply Qcle_minus_iff. replace (1 - count k * u + - (1 - (count j + count k) * u)) with (count j * u) by ring. exact Hj.
  Qed.
  Lemma bsum_nonneg n (f : nat -> Qc) : (forall i, (i < n)%nat -> 0 <= f i) -> 0 <= bsum n f.
  Proof.
    induction n as [|n IH]; intros H; cbn [bsum]; [apply Qcle_refl|].
    change (@sadd Qc Qc_ops) with Qcplus. replace 0 with (0 + 0) by ring. apply Qcplus_le_compat; auto.
  Qed.
  (** each term of a sum with a factor of its own *)
  Lemma weighted_within n k (f T : nat -> Qc) : count k * u <= 1 -> (forall i, (i < n)%nat -> close u k (T i)) ->
    within u k (bsum n f - bsum n (fun i => f i * T i)) (bsum n (fun i => Qcabs (f i))).
  Proof.
    intros Hk HT.
    replace (bsum n f - bsum n (fun i => f i * T i)) with (bsum n (fun i => f i - f i * T i))
      by exact (bsum_sub n f (fun i => f i * T i)).
    apply bsum_within; [exact Hk|]. intros i Hi. specialize (HT i Hi).
    replace (f i - f i * T i) with (- f i * (T i - 1)) by ring.
    rewrite <- (Qcabs_opp (f i)). replace (Qcabs (- f i)) with (Qcabs (- f i) * 1) by ring. apply within_scale, close_abs, HT.
  Qed.
End Bounds.
