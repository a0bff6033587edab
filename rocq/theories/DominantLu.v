(** * DominantLu: elimination keeps dominance, also when entries are dropped *)
From Verif Require Import Base Alg Norms.

Section DominantLu.
  Context {F : Type} {O : SOps F} {R : CRing F} {mag : F -> F} {le : F -> F -> Prop} {HM : Magnitude F mag le}.
  Add Ring Fr : cring.
  Open Scope s_scope.
  Infix "<=" := le : s_scope.
  Lemma sle_cancel a b c : a + c <= b + c -> a <= b.
  Proof. intros H. replace a with (a + c + sopp c) by ring. replace b with (b + c + sopp c) by ring. apply sle_add; [exact H|apply sle_refl]. Qed.

  Variables (n : nat) (A B : nat -> nat -> F) (w : nat -> F) (rho : F) (i : nat).
  Hypothesis (Hi : (i < n)%nat) (Hw : forall j, (j < n)%nat -> s0 <= w j) (Hr0 : s0 <= rho) (Hr1 : rho <= s1).
  Notation off P c f := (if decide P then f else s0) (only parsing).
  (** what row [i] satisfies *)
  Hypothesis Hlow : forall c, (c < i)%nat -> mag (B i c) * mag (B c c) <= mag (A i c) + bsum n (fun t => if decide (t < c)%nat then mag (B i t) * mag (B t c) else s0).
  Hypothesis Hup : forall c, (i < c < n)%nat -> mag (B i c) <= mag (A i c) + bsum n (fun t => if decide (t < i)%nat then mag (B i t) * mag (B t c) else s0).
  Hypothesis Hdiag : mag (A i i) <= mag (B i i) + bsum n (fun t => if decide (t < i)%nat then mag (B i t) * mag (B t i) else s0).
  Hypothesis Hdiag' : mag (B i i) <= mag (A i i) + bsum n (fun t => if decide (t < i)%nat then mag (B i t) * mag (B t i) else s0).
  Hypothesis HA : bsum n (fun j => if decide (j = i) then s0 else mag (A i j) * w j) <= rho * mag (A i i) * w i.
  (** the rows before are dominant *)
  Hypothesis HB : forall t, (t < i)%nat -> bsum n (fun j => if decide (t < j)%nat then mag (B t j) * w j else s0) <= mag (B t t) * w t.

  Notation f t c := (mag (B t c) * w c).
  Let E t := bsum n (fun c => if decide (t < c < i)%nat then f t c else s0).
  Let G t := bsum n (fun c => if decide (i <= c)%nat then f t c else s0).
  Let AL := bsum n (fun c => if decide (c < i)%nat then mag (A i c) * w c else s0).
  Let AU := bsum n (fun c => if decide (i < c)%nat then mag (A i c) * w c else s0).
  Let SG := bsum n (fun t => if decide (t < i)%nat then mag (B i t) * G t else s0).

  Lemma f_pos t c : (c < n)%nat -> s0 <= f t c.
  Proof. intros H. apply sle_pos_mul; [apply mag_pos|auto]. Qed.
  Lemma row_low : SG <= AL.
  Proof.
    set (SE := bsum n (fun t => if decide (t < i)%nat then mag (B i t) * E t else s0)).
    set (SD := bsum n (fun t => if decide (t < i)%nat then mag (B i t) * mag (B t t) * w t else s0)).
    assert (SG + SE <= SD) as H1.
    { unfold SG, SE, SD. rewrite <- bsum_add. apply bsum_le. intros t Ht. destruct (decide (t < i)%nat) as [Hlt|]; [|replace (s0 + s0) with s0 by ring; apply sle_refl].
      replace (mag (B i t) * G t + mag (B i t) * E t) with (mag (B i t) * (G t + E t)) by ring.
      replace (mag (B i t) * mag (B t t) * w t) with (mag (B i t) * (mag (B t t) * w t)) by ring. apply sle_mul; [apply mag_pos|].
      eapply sle_trans; [|apply HB, Hlt]. apply sle_eq. unfold G, E. rewrite <- bsum_add. apply bsum_ext. intros c Hc.
      repeat match goal with |- context[decide ?P] => destruct (decide P); try lia end; ring. }
    assert (SD <= AL + SE) as H2.
    { assert (SE = bsum n (fun c => if decide (c < i)%nat then bsum n (fun t => if decide (t < c)%nat then mag (B i t) * mag (B t c) else s0) * w c else s0)) as ->.
      { unfold SE, E. transitivity (bsum n (fun t => bsum n (fun c => if decide (t < c < i)%nat then mag (B i t) * f t c else s0))).
        - apply bsum_ext. intros t Ht. destruct (decide (t < i)%nat).
          + rewrite <- bsum_mul_l. apply bsum_ext. intros c Hc. destruct (decide _); ring.
          + symmetry. apply bsum_zero. intros c Hc. rewrite decide_False by lia. reflexivity.
        - rewrite bsum_swap. apply bsum_ext. intros c Hc. destruct (decide (c < i)%nat).
          + rewrite <- bsum_mul_r. apply bsum_ext. intros t Ht.
            repeat match goal with |- context[decide ?P] => destruct (decide P); try lia end; ring.
          + apply bsum_zero. intros t Ht. rewrite decide_False by lia. reflexivity. }
      unfold SD, AL. rewrite <- bsum_add. apply bsum_le. intros c Hc. destruct (decide (c < i)%nat) as [Hlt|]; [|replace (s0 + s0) with s0 by ring; apply sle_refl].
      match goal with |- _ <= ?a * ?b + ?d * ?b => replace (a * b + d * b) with ((a + d) * b) by ring end. apply sle_mul_r; auto. }
    apply (sle_cancel _ _ SE). eapply sle_trans; eassumption.
  Qed.
  Lemma row_split (g : nat -> F) : bsum n (fun j => if decide (j = i) then s0 else g j) =
    bsum n (fun c => if decide (c < i)%nat then g c else s0) + bsum n (fun c => if decide (i < c)%nat then g c else s0).
  Proof.
    rewrite <- bsum_add. apply bsum_ext. intros c Hc. repeat match goal with |- context[decide ?P] => destruct (decide P); try lia end; ring.
  Qed.
  Lemma AL_AU : AL + AU <= rho * mag (A i i) * w i.
  Proof. eapply sle_trans; [|exact HA]. rewrite row_split. apply sle_refl. Qed.
  Lemma AU_pos : s0 <= AU.
  Proof. apply bsum_pos. intros c Hc. destruct (decide _); [apply sle_pos_mul; [apply mag_pos|auto]|apply sle_refl]. Qed.
  Let SI := bsum n (fun t => if decide (t < i)%nat then mag (B i t) * mag (B t i) else s0) * w i.
  Let SU := bsum n (fun c => if decide (i < c)%nat then bsum n (fun t => if decide (t < i)%nat then mag (B i t) * mag (B t c) else s0) * w c else s0).
  Lemma SI_pos : s0 <= SI.
  Proof.
    apply sle_pos_mul; [|auto]. apply bsum_pos. intros t Ht. destruct (decide _); [apply sle_pos_mul; apply mag_pos|apply sle_refl].
  Qed.
  Lemma SU_pos : s0 <= SU.
  Proof.
    apply bsum_pos. intros c Hc. destruct (decide _); [|apply sle_refl]. apply sle_pos_mul; [|auto].
    apply bsum_pos. intros t Ht. destruct (decide _); [apply sle_pos_mul; apply mag_pos|apply sle_refl].
  Qed.
  Lemma SG_split : SG = SI + SU.
  Proof.
    unfold SG, SI, SU, G. transitivity (bsum n (fun t => bsum n (fun c => if decide (t < i)%nat then if decide (i <= c)%nat then mag (B i t) * f t c else s0 else s0))).
    { apply bsum_ext. intros t Ht. destruct (decide (t < i)%nat).
      - rewrite <- bsum_mul_l. apply bsum_ext. intros c Hc. destruct (decide _); ring.
      - symmetry. apply bsum_zero. reflexivity. }
    rewrite bsum_swap. rewrite <- (bsum_delta n i (fun c => bsum n (fun t => if decide (t < i)%nat then mag (B i t) * mag (B t c) else s0) * w c)) by done.
    rewrite <- bsum_add. apply bsum_ext. intros c Hc. destruct (lt_eq_lt_dec i c) as [[H|H]|H].
    - rewrite decide_False, (decide_True (P := (i < c)%nat)) by lia. rewrite <- bsum_mul_r.
      match goal with |- _ = s0 + ?x => replace (s0 + x) with x by ring end. apply bsum_ext. intros t Ht.
      repeat match goal with |- context[decide ?P] => destruct (decide P); try lia end; ring.
    - subst c. rewrite decide_True, (decide_False (P := (i < i)%nat)) by lia. rewrite <- bsum_mul_r.
      match goal with |- _ = ?x + s0 => replace (x + s0) with x by ring end. apply bsum_ext. intros t Ht.
      repeat match goal with |- context[decide ?P] => destruct (decide P); try lia end; ring.
    - rewrite decide_False, (decide_False (P := (i < c)%nat)) by lia. replace (s0 + s0) with s0 by ring. apply bsum_zero. intros t Ht.
      repeat match goal with |- context[decide ?P] => destruct (decide P); try lia end; ring.
  Qed.
  (** dominance of the new row *)
  Lemma row_dominant : bsum n (fun j => if decide (i < j)%nat then mag (B i j) * w j else s0) <= rho * mag (B i i) * w i.
  Proof.
    set (BU := bsum n (fun j => if decide (i < j)%nat then mag (B i j) * w j else s0)).
    assert (BU <= AU + SU) as H1.
    { unfold BU, AU, SU. rewrite <- bsum_add. apply bsum_le. intros c Hc. destruct (decide (i < c)%nat); [|replace (s0 + s0) with s0 by ring; apply sle_refl].
      match goal with |- _ <= ?a * ?b + ?d * ?b => replace (a * b + d * b) with ((a + d) * b) by ring end. apply sle_mul_r; auto. }
    assert (rho * mag (A i i) * w i <= rho * mag (B i i) * w i + SI) as H2.
    { eapply sle_trans.
      - apply sle_mul_r; [auto|]. apply sle_mul; [exact Hr0|]. exact Hdiag.
      - match goal with |- rho * (?a + ?b) * ?c <= _ => replace (rho * (a + b) * c) with (rho * a * c + rho * (b * c)) by ring end.
        apply sle_add; [apply sle_refl|]. apply sle_mul_1; [apply SI_pos|exact Hr1]. }
    apply (sle_cancel _ _ (rho * mag (A i i) * w i)).
    eapply sle_trans; [apply sle_add; [exact H1|exact H2]|].
    replace (AU + SU + (rho * mag (B i i) * w i + SI)) with (rho * mag (B i i) * w i + (AU + SG)) by (rewrite SG_split; ring).
    apply sle_add; [apply sle_refl|]. eapply sle_trans; [apply sle_add; [apply sle_refl|apply row_low]|].
    eapply sle_trans; [|apply AL_AU]. apply sle_eq. ring.
  Qed.
  Lemma SI_le : SI <= rho * mag (A i i) * w i.
  Proof.
    eapply sle_trans; [|apply AL_AU]. eapply sle_trans; [|apply sle_add; [apply row_low|apply AU_pos]]. rewrite SG_split.
    replace SI with (SI + s0 + s0) at 1 by ring. apply sle_add; [|apply sle_refl]. apply sle_add; [apply sle_refl|apply SU_pos].
  Qed.
  (** the pivot is neither much smaller nor much larger than the diagonal entry *)
  Lemma pivot_lower : (s1 - rho) * mag (A i i) * w i <= mag (B i i) * w i.
  Proof.
    apply (sle_cancel _ _ (rho * mag (A i i) * w i)).
    replace ((s1 - rho) * mag (A i i) * w i + rho * mag (A i i) * w i) with (mag (A i i) * w i) by ring.
    eapply sle_trans; [apply sle_mul_r; [auto|exact Hdiag]|].
    match goal with |- (?a + ?b) * ?c <= _ => replace ((a + b) * c) with (a * c + b * c) by ring end.
    apply sle_add; [apply sle_refl|apply SI_le].
  Qed.
  Lemma pivot_upper : mag (B i i) * w i <= (s1 + rho) * mag (A i i) * w i.
  Proof.
    eapply sle_trans; [apply sle_mul_r; [auto|exact Hdiag']|].
    replace ((s1 + rho) * mag (A i i) * w i) with (mag (A i i) * w i + rho * mag (A i i) * w i) by ring.
    match goal with |- (?a + ?b) * ?c <= _ => replace ((a + b) * c) with (a * c + b * c) by ring end.
    apply sle_add; [apply sle_refl|apply SI_le].
  Qed.
End DominantLu.
