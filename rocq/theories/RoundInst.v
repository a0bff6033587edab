(** * RoundInst: a machine that rounds: [p] significant binary digits, round to
    nearest (ties upwards), no bounds on the exponent *)
From Coq Require Import QArith QArith.Qcanon ZArith Field.
From Verif Require Import Base Alg Inst Rounding.

Open Scope Z_scope.

(** [num]/[den] is scaled by 2^k so that it has [p] digits before the binary point,
    rounded to an integer and scaled back *)
Definition rnd_exp (p num : Z) (den : positive) : Z := p - (Z.log2 (Z.abs num) - Z.log2 (Z.pos den)).
Definition rnd_Q (p : Z) (x : QArith_base.Q) : Qc :=
  let num := QArith_base.Qnum x in let den := QArith_base.Qden x in
  let k := rnd_exp p num den in
  let a := 2 ^ Z.max k 0 in let b := 2 ^ Z.max (- k) 0 in
  let n := num * a in let d := Z.pos den * b in
  (q ((2 * n + d) / (2 * d)) * q b / q a)%Qc.
Definition rnd (p : Z) (x : Qc) : Qc := rnd_Q p (this x).

Definition rounding_machine (p : Z) : machine := {|
  s0 := 0%Qc; s1 := 1%Qc;
  sadd := fun x y => rnd p (x + y)%Qc; ssub := fun x y => rnd p (x - y)%Qc;
  smul := fun x y => rnd p (x * y)%Qc; sdiv := fun x y => rnd p (x / y)%Qc; sopp := Qcopp |}.

Lemma q_mul a b : q (a * b) = (q a * q b)%Qc.
Proof. apply Qc_is_canon. simpl. rewrite !QArith.Qreduction.Qred_correct. unfold QArith_base.Qeq. simpl. lia. Qed.
Lemma q_add a b : q (a + b) = (q a + q b)%Qc.
Proof. apply Qc_is_canon. simpl. rewrite !QArith.Qreduction.Qred_correct. unfold QArith_base.Qeq. simpl. lia. Qed.
Lemma q_opp a : q (- a) = (- q a)%Qc.
Proof. apply Qc_is_canon. simpl. rewrite !QArith.Qreduction.Qred_correct. unfold QArith_base.Qeq. simpl. lia. Qed.
Lemma q_neq a : a <> 0 -> q a <> 0%Qc.
Proof.
  intros Ha E. apply (f_equal this) in E. simpl in E.
  assert (QArith_base.Qeq (QArith_base.inject_Z a) (QArith_base.inject_Z 0)) as E2.
  { rewrite <- (QArith.Qreduction.Qred_correct (QArith_base.inject_Z a)), E. reflexivity. }
  unfold QArith_base.Qeq in E2. simpl in E2. lia.
Qed.
Lemma q_le a b : a <= b -> (q a <= q b)%Qc.
Proof. intros Hab. unfold Qcle. simpl. rewrite !QArith.Qreduction.Qred_correct. unfold QArith_base.Qle. simpl. lia. Qed.
Lemma q_pos a : 0 < a -> (0 < q a)%Qc.
Proof. intros Ha. unfold Qclt. simpl. rewrite !QArith.Qreduction.Qred_correct. unfold QArith_base.Qlt. simpl. lia. Qed.
Lemma Qc_num_den (x : Qc) : x = (q (QArith_base.Qnum (this x)) / q (Z.pos (QArith_base.Qden (this x))))%Qc.
Proof.
  apply Qc_is_canon. unfold Qcdiv. simpl. rewrite !QArith.Qreduction.Qred_correct.
  destruct (this x) as [a b]. apply QArith_base.Qmake_Qdiv.
Qed.

Lemma rnd_scaled p num den : 1 <= p -> num <> 0 ->
  let k := rnd_exp p num den in
  2 ^ (p - 1) * (Z.pos den * 2 ^ Z.max (- k) 0) <= Z.abs num * 2 ^ Z.max k 0.
Proof.
  intros Hp Hn. cbv zeta. unfold rnd_exp. set (ln := Z.log2 (Z.abs num)). set (ld := Z.log2 (Z.pos den)).
  assert (0 <= ln) by apply Z.log2_nonneg. assert (0 <= ld) by apply Z.log2_nonneg.
  assert (2 ^ ln <= Z.abs num) as H1 by (apply (Z.log2_spec (Z.abs num)); lia).
  assert (Z.pos den < 2 ^ (ld + 1)) as H2 by (rewrite Z.add_1_r; apply (Z.log2_spec (Z.pos den)); lia).
  assert (2 ^ (p - 1) * (2 ^ (ld + 1) * 2 ^ Z.max (- (p - (ln - ld))) 0) = 2 ^ ln * 2 ^ Z.max (p - (ln - ld)) 0) as E.
  { rewrite <- !Z.pow_add_r by lia. f_equal. lia. }
  assert (0 < 2 ^ Z.max (- (p - (ln - ld))) 0) by (apply Z.pow_pos_nonneg; lia).
  assert (0 < 2 ^ Z.max (p - (ln - ld)) 0) by (apply Z.pow_pos_nonneg; lia).
  assert (0 < 2 ^ (p - 1)) by (apply Z.pow_pos_nonneg; lia).
  etransitivity; [|apply Z.mul_le_mono_nonneg_r; [lia|exact H1]]. rewrite <- E.
  apply Z.mul_le_mono_nonneg_l; [lia|]. apply Z.mul_le_mono_nonneg_r; lia.
Qed.

Lemma Qceq_le (x y : Qc) : x = y -> (x <= y)%Qc.
Proof. intros ->. apply Qcle_refl. Qed.
Lemma Qcinv_pos x : (0 < x)%Qc -> (0 < / x)%Qc.
Proof.
  intros Hx. apply Qcnot_le_lt. intros Hle.
  assert (x <> 0)%Qc as Nx by (intros ->; discriminate).
  assert (/ x * x <= 0 * x)%Qc as H1 by (apply Qcmult_le_compat_r; [exact Hle|apply Qclt_le_weak, Hx]).
  rewrite (Qcmult_comm (/ x)), Qcmult_inv_r in H1 by exact Nx. rewrite Qcmult_0_l in H1. apply H1. reflexivity.
Qed.
Lemma q_frac_le z n m : 0 < n -> 0 < m -> z * m <= n -> (q z / q n <= 1 / q m)%Qc.
Proof.
  intros Hn Hm Hz. assert (q n <> 0 /\ q m <> 0)%Qc as [Nn Nm] by (split; apply q_neq; lia).
  assert (0 <= / (q n * q m))%Qc as Hp by (rewrite <- q_mul; apply Qclt_le_weak, Qcinv_pos, q_pos; nia).
  apply Qcle_trans with (q (z * m) * / (q n * q m))%Qc.
  - apply Qceq_le. rewrite q_mul. field. auto.
  - apply Qcle_trans with (q n * / (q n * q m))%Qc.
    + apply Qcmult_le_compat_r; [apply q_le; lia|exact Hp].
    + apply Qceq_le. field. auto.
Qed.
Lemma q_frac_bound z n m : n <> 0 -> 0 < m -> Z.abs z * m <= Z.abs n ->
  (- (1 / q m) <= q z / q n /\ q z / q n <= 1 / q m)%Qc.
Proof.
  assert (forall z n m, 0 < n -> 0 < m -> Z.abs z * m <= n -> (- (1 / q m) <= q z / q n /\ q z / q n <= 1 / q m)%Qc) as Hpos.
  { clear. intros z n m Hn Hm Hz. split; [|apply q_frac_le; nia].
    assert (q (- z) / q n <= 1 / q m)%Qc as H1 by (apply q_frac_le; nia).
    apply Qcopp_le_compat in H1. eapply Qcle_trans; [exact H1|]. apply Qceq_le.
    rewrite q_opp. unfold Qcdiv. ring. }
  intros Hn Hm Hz. destruct (Z.lt_total n 0) as [Hlt|[Heq|Hgt]]; [|lia|apply Hpos; lia].
  replace (q z / q n)%Qc with (q (- z) / q (- n))%Qc.
  - apply Hpos; lia.
  - rewrite !q_opp. field. assert (q n <> 0)%Qc as Nn by (apply q_neq; lia). split; [exact Nn|].
    rewrite <- q_opp. apply q_neq. lia.
Qed.

Lemma rnd_rounded p x : 1 <= p -> rounded (1 / q (2 ^ p)) x (rnd p x).
Proof.
  intros Hp. unfold rnd, rnd_Q. set (num := QArith_base.Qnum (this x)). set (den := QArith_base.Qden (this x)).
  cbv zeta. set (k := rnd_exp p num den).
  set (a := 2 ^ Z.max k 0). set (b := 2 ^ Z.max (- k) 0).
  assert (0 < a) as Ha by (apply Z.pow_pos_nonneg; lia).
  assert (0 < b) as Hb by (apply Z.pow_pos_nonneg; lia).
  assert (0 < 2 ^ p) as H2p by (apply Z.pow_pos_nonneg; lia).
  set (n := num * a). set (d := Z.pos den * b).
  assert (0 < d) as Hd by nia.
  assert (x = (q num / q (Z.pos den))%Qc) as Ex by apply Qc_num_den.
  assert (q a <> 0 /\ q b <> 0 /\ q (Z.pos den) <> 0 /\ q (2 ^ p) <> 0)%Qc as (Na & Nb & Nd & Np).
  { repeat split; apply q_neq; lia. }
  set (y := (2 * n + d) / (2 * d)).
  assert (2 * Z.abs (y * d - n) <= d) as Hy.
  { pose proof (Z.div_mod (2 * n + d) (2 * d) ltac:(lia)) as E. fold y in E.
    pose proof (Z.mod_pos_bound (2 * n + d) (2 * d) ltac:(lia)). nia. }
  destruct (Z.eq_dec num 0) as [E0|E0].
  - exists 0%Qc. assert (n = 0) as En by (unfold n; lia).
    assert (y = 0) as Ey by nia.
    destruct (q_frac_bound 0 1 (2 ^ p)) as [H1 H2]; [lia..|]. split; [|split].
    + eapply Qcle_trans; [exact H1|]. apply Qceq_le. reflexivity.
    + eapply Qcle_trans; [|exact H2]. apply Qceq_le. reflexivity.
    + rewrite Ex, Ey, E0. change (q 0) with 0%Qc. field. auto.
  - pose proof (rnd_scaled p num den Hp E0) as Hsc. cbv zeta in Hsc. fold k in Hsc. fold a in Hsc. fold b in Hsc.
    fold d in Hsc.
    assert (n <> 0) as Nn by (unfold n; nia).
    assert (Z.abs n = Z.abs num * a) as En by (unfold n; rewrite Z.abs_mul; nia).
    assert (2 ^ p = 2 * 2 ^ (p - 1)) as E2.
    { rewrite <- Z.pow_succ_r by lia. f_equal. lia. }
    exists (q (y * d - n) / q n)%Qc.
    destruct (q_frac_bound (y * d - n) n (2 ^ p)) as [H1 H2]; [exact Nn|exact H2p| |].
    { rewrite E2. assert (0 < 2 ^ (p - 1)) by (apply Z.pow_pos_nonneg; lia). nia. }
    split; [exact H1|]. split; [exact H2|].
    rewrite Ex. replace (y * d - n) with (y * d + - n) by lia. rewrite q_add, q_opp. unfold n, d.
    rewrite !q_mul. assert (q num <> 0)%Qc as Nnum by (apply q_neq; lia). field. auto.
Qed.

(** the machine rounds with relative error 2^-p *)
Lemma rounding_machine_rounds p : 1 <= p -> rounds (1 / q (2 ^ p)) (rounding_machine p).
Proof.
  intros Hp. assert (1 < 2 ^ p) as H2p by (apply Z.pow_gt_1; lia).
  assert (q (2 ^ p) <> 0)%Qc as Np by (apply q_neq; lia).
  constructor; simpl; try reflexivity; try (intros; apply rnd_rounded; exact Hp).
  - unfold Qcdiv. rewrite Qcmult_1_l. apply Qclt_le_weak, Qcinv_pos, q_pos. lia.
  - apply Qclt_minus_iff. replace (1 + - (1 / q (2 ^ p)))%Qc with (q (2 ^ p - 1) * / q (2 ^ p))%Qc.
    + replace 0%Qc with (0 * / q (2 ^ p))%Qc by ring. apply Qcmult_lt_compat_r; [apply Qcinv_pos, q_pos; lia|apply q_pos; lia].
    + replace (2 ^ p - 1) with (2 ^ p + -1) by lia. rewrite q_add. change (q (-1)) with (- (1))%Qc. field. exact Np.
Qed.
