(** * Norms: magnitudes of scalars and how they are compared *)
From Verif Require Import Base Alg.
From Coq Require Import Ring.

(** The absolute value of an ordered field, or any magnitude with these laws. *)
Class Magnitude (F : Type) {O : SOps F} (mag : F -> F) (le : F -> F -> Prop) : Prop := {
  sle_refl : forall a, le a a;
  sle_trans : forall a b c, le a b -> le b c -> le a c;
  sle_add : forall a b c d, le a b -> le c d -> le (a + c)%s (b + d)%s;
  sle_mul : forall a b c, le s0 c -> le a b -> le (c * a)%s (c * b)%s;
  mag_pos : forall a, le s0 (mag a);
  mag_0 : mag s0 = s0;
  mag_1 : mag s1 = s1;
  mag_opp : forall a, mag (sopp a) = mag a;
  mag_add : forall a b, le (mag (a + b)%s) (mag a + mag b)%s;
  mag_mul : forall a b, mag (a * b)%s = (mag a * mag b)%s
}.

Section Facts.
  Context {F : Type} {O : SOps F} {R : CRing F} {mag : F -> F} {le : F -> F -> Prop} {HM : Magnitude F mag le}.
  Add Ring Fr : cring.
  Open Scope s_scope.
  Infix "<=" := le : s_scope.
  Lemma sle_eq a b : a = b -> a <= b.
  Proof. intros ->. apply sle_refl. Qed.
  Lemma sle_mul_r a b c : s0 <= c -> a <= b -> a * c <= b * c.
  Proof. intros H1 H2. replace (a * c) with (c * a) by ring. replace (b * c) with (c * b) by ring. apply sle_mul; auto. Qed.
  Lemma sle_pos_mul a b : s0 <= a -> s0 <= b -> s0 <= a * b.
  Proof. intros Ha Hb. replace s0 with (a * s0) by ring. apply sle_mul; auto. Qed.
  Lemma sle_pos_add a b : s0 <= a -> s0 <= b -> s0 <= a + b.
  Proof. intros Ha Hb. replace s0 with (s0 + s0) by ring. apply sle_add; auto. Qed.
  Lemma sle_mul_1 a c : s0 <= a -> c <= s1 -> c * a <= a.
  Proof. intros H1 H2. replace a with (s1 * a) at 2 by ring. apply sle_mul_r; auto. Qed.
  Lemma mag_sub a b : mag (a - b) = mag (b - a).
  Proof. replace (a - b) with (sopp (b - a)) by ring. apply mag_opp. Qed.
  Lemma mag_self a : mag (a - a) = s0.
  Proof. replace (a - a) with s0 by ring. apply mag_0. Qed.

  Lemma bsum_le n f g : (forall i, (i < n)%nat -> f i <= g i) -> bsum n f <= bsum n g.
  Proof.
    induction n as [|n IH]; intros H; simpl; [apply sle_refl|]. apply sle_add; [apply IH; intros; apply H; lia|apply H; lia].
  Qed.
  Lemma bsum_pos n f : (forall i, (i < n)%nat -> s0 <= f i) -> s0 <= bsum n f.
  Proof.
    intros H. induction n as [|n IH]; simpl; [apply sle_refl|]. apply sle_pos_add; [apply IH; intros; apply H; lia|apply H; lia].
  Qed.
  Lemma bsum_mag n f g : (forall i, (i < n)%nat -> mag (f i) <= g i) -> mag (bsum n f) <= bsum n g.
  Proof.
    induction n as [|n IH]; intros H; simpl; [rewrite mag_0; apply sle_refl|].
    eapply sle_trans; [apply mag_add|]. apply sle_add; [apply IH; intros; apply H; lia|apply H; lia].
  Qed.
  Fixpoint spow (r : F) (k : nat) : F := match k with 0 => s1 | S k' => r * spow r k' end.
  Lemma spow_add r a b : spow r (a + b) = spow r a * spow r b.
  Proof. induction a as [|a IH]; simpl; [ring|]. rewrite IH. ring. Qed.
  Lemma spow_pos r k : s0 <= s1 -> s0 <= r -> s0 <= spow r k.
  Proof. intros H1 Hr. induction k as [|k IH]; simpl; auto. apply sle_pos_mul; auto. Qed.
  Lemma one_pos : s0 <= s1.
  Proof. rewrite <- mag_1. apply mag_pos. Qed.
End Facts.
