(** * Alg: scalar operations, their laws, and finite sums

    [SOps F] are the operations the C++ code applies to scalars (no laws: IEEE
    doubles are an instance). [CRing F] and [Field F] add the laws of exact
    arithmetic for the theorems that need them. *)
From Verif Require Export Base.
From Coq Require Import Ring_theory Ring Field_theory.

Class SOps (F : Type) := {
  s0 : F; s1 : F;
  sadd : F -> F -> F; ssub : F -> F -> F; smul : F -> F -> F;
  sdiv : F -> F -> F; sopp : F -> F
}.
Declare Scope s_scope.
Delimit Scope s_scope with s.
Infix "+" := sadd : s_scope.
Infix "-" := ssub : s_scope.
Infix "*" := smul : s_scope.
Infix "/" := sdiv : s_scope.

Class CRing (F : Type) {O : SOps F} : Prop := {
  cring : ring_theory s0 s1 sadd smul ssub sopp (@eq F)
}.
Class Field (F : Type) {O : SOps F} : Prop := {
  field_ring :> CRing F;
  field_10 : s1 <> s0 :> F;
  field_div : forall x y : F, y <> s0 -> (sdiv x y * y)%s = x
}.

Section Sums.
  Context {F : Type} {O : SOps F} {R : CRing F}.
  Add Ring Fr : cring.
  Open Scope s_scope.

  (** [bsum n f] is f 0 + ... + f (n-1) *)
  Fixpoint bsum (n : nat) (f : nat -> F) : F :=
    match n with 0 => s0 | S n' => bsum n' f + f n' end.
  Definition lsum {A} (f : A -> F) (l : list A) : F := foldr (fun a s => f a + s) s0 l.

  Lemma bsum_ext n f g : (forall i, (i < n)%nat -> f i = g i) -> bsum n f = bsum n g.
  Proof.
    induction n as [|n IH]; intros H; simpl; [reflexivity|].
    rewrite IH, H; [reflexivity|lia|]. intros; apply H; lia.
  Qed.
  Lemma bsum_zero n f : (forall i, (i < n)%nat -> f i = s0) -> bsum n f = s0.
  Proof.
    induction n as [|n IH]; intros H; simpl; [reflexivity|].
    rewrite IH, H; [ring|lia|]. intros; apply H; lia.
  Qed.
  Lemma bsum_add n f g : bsum n (fun i => f i + g i) = bsum n f + bsum n g.
  Proof. induction n as [|n IH]; simpl; [ring|]. rewrite IH. ring. Qed.
  Lemma bsum_sub n f g : bsum n (fun i => f i - g i) = bsum n f - bsum n g.
  Proof. induction n as [|n IH]; simpl; [ring|]. rewrite IH. ring. Qed.
  Lemma bsum_mul_l n c f : bsum n (fun i => c * f i) = c * bsum n f.
  Proof. induction n as [|n IH]; simpl; [ring|]. rewrite IH. ring. Qed.
  Lemma bsum_mul_r n c f : bsum n (fun i => f i * c) = bsum n f * c.
  Proof. induction n as [|n IH]; simpl; [ring|]. rewrite IH. ring. Qed.
  Lemma bsum_swap n m f :
    bsum n (fun i => bsum m (fun j => f i j)) = bsum m (fun j => bsum n (fun i => f i j)).
  Proof.
    induction n as [|n IH]; simpl.
    - symmetry. apply bsum_zero. reflexivity.
    - rewrite IH, bsum_add. reflexivity.
  Qed.
  Lemma bsum_plus n m f : bsum (n + m) f = bsum n f + bsum m (fun i => f (n + i)%nat).
  Proof.
    induction m as [|m IH]; simpl.
    - replace (n + 0)%nat with n by lia. ring.
    - replace (n + S m)%nat with (S (n + m)) by lia. simpl. rewrite IH. ring.
  Qed.
  Lemma bsum_trunc n m f :
    (m <= n)%nat -> (forall i, (m <= i < n)%nat -> f i = s0) -> bsum n f = bsum m f.
  Proof.
    intros Hle H. replace n with (m + (n - m))%nat by lia. rewrite bsum_plus.
    rewrite (bsum_zero (n - m)); [ring|]. intros i Hi. apply H. lia.
  Qed.
  Lemma bsum_single n k f :
    (k < n)%nat -> (forall i, (i < n)%nat -> i <> k -> f i = s0) -> bsum n f = f k.
  Proof.
    induction n as [|n IH]; intros Hk H; [lia|]. simpl.
    destruct (decide (k = n)) as [->|Hne].
    - rewrite bsum_zero; [ring|]. intros i Hi. apply H; lia.
    - rewrite IH, (H n); [ring|lia|lia|lia|]. intros; apply H; lia.
  Qed.
  Lemma bsum_delta n k (f : nat -> F) :
    (k < n)%nat -> bsum n (fun i => if decide (i = k) then f i else s0) = f k.
  Proof.
    intros Hk. rewrite (bsum_single n k); [rewrite decide_True; auto|done|].
    intros i _ Hne. rewrite decide_False; auto.
  Qed.
  Lemma bsum_flat n w f :
    bsum (n * w) f = bsum n (fun i => bsum w (fun p => f (i * w + p)%nat)).
  Proof.
    induction n as [|n IH]; simpl; [reflexivity|].
    replace (w + n * w)%nat with (n * w + w)%nat by lia. rewrite bsum_plus, IH. reflexivity.
  Qed.

  Lemma lsum_app {A} (f : A -> F) l1 l2 : lsum f (l1 ++ l2) = lsum f l1 + lsum f l2.
  Proof. induction l1 as [|a l1 IH]; simpl; [ring|]. rewrite IH. ring. Qed.
  Lemma lsum_ext {A} (f g : A -> F) l : (forall a, a ∈ l -> f a = g a) -> lsum f l = lsum g l.
  Proof.
    induction l as [|a l IH]; intros H; simpl; [reflexivity|].
    rewrite IH, H; auto; [left|]. intros b Hb. apply H. right; auto.
  Qed.
  Lemma lsum_zero {A} (f : A -> F) l : (forall a, a ∈ l -> f a = s0) -> lsum f l = s0.
  Proof.
    induction l as [|a l IH]; intros H; simpl; [reflexivity|].
    rewrite IH, H; [ring|left|]. intros b Hb. apply H. right; auto.
  Qed.
  Lemma lsum_perm {A} (f : A -> F) l1 l2 : l1 ≡ₚ l2 -> lsum f l1 = lsum f l2.
  Proof. induction 1; simpl; try congruence. ring. Qed.
  Lemma lsum_mul_l {A} c (f : A -> F) l : lsum (fun a => c * f a) l = c * lsum f l.
  Proof. induction l as [|a l IH]; simpl; [ring|]. rewrite IH. ring. Qed.
  Lemma lsum_mul_r {A} c (f : A -> F) l : lsum (fun a => f a * c) l = lsum f l * c.
  Proof. induction l as [|a l IH]; simpl; [ring|]. rewrite IH. ring. Qed.
  Lemma lsum_add {A} (f g : A -> F) l : lsum (fun a => f a + g a) l = lsum f l + lsum g l.
  Proof. induction l as [|a l IH]; simpl; [ring|]. rewrite IH. ring. Qed.
  Lemma lsum_bsum_swap {A} n (f : A -> nat -> F) l :
    lsum (fun a => bsum n (f a)) l = bsum n (fun i => lsum (fun a => f a i) l).
  Proof.
    induction l as [|a l IH]; simpl.
    - symmetry. apply bsum_zero. reflexivity.
    - rewrite IH, bsum_add. reflexivity.
  Qed.
  (** a sum over a list of distinct indices below n equals the full sum with the
      other terms zero *)
  Lemma lsum_bsum {A} n (key : A -> nat) (f : nat -> F) (g : A -> F) l :
    NoDup (key <$> l) -> (forall a, a ∈ l -> (key a < n)%nat) ->
    (forall a, a ∈ l -> g a = f (key a)) ->
    (forall i, (i < n)%nat -> i ∉ key <$> l -> f i = s0) ->
    lsum g l = bsum n f.
  Proof.
    revert f. induction l as [|a l IH]; intros f Hnd Hlt Hg Hz; simpl.
    - symmetry. apply bsum_zero. intros i Hi. apply Hz; auto. apply not_elem_of_nil.
    - simpl in Hnd. apply NoDup_cons in Hnd as [Hna Hnd].
      rewrite (IH (fun i => if decide (i = key a) then s0 else f i)); auto.
      + rewrite (Hg a) by left.
        rewrite <- (bsum_delta n (key a) f) by (apply Hlt; left).
        rewrite <- bsum_add. apply bsum_ext. intros i Hi. destruct (decide (i = key a)); ring.
      + intros b Hb. apply Hlt. right; auto.
      + intros b Hb. rewrite decide_False; [apply Hg; right; auto|].
        intros E. apply Hna. rewrite <- E. apply elem_of_list_fmap. eauto.
      + intros i Hi Hni. destruct (decide (i = key a)); [reflexivity|].
        apply Hz; auto. simpl. rewrite not_elem_of_cons. auto.
  Qed.
End Sums.

(** entry of a vector (used in specifications only) *)
Definition vat {F} {O : SOps F} (v : list F) (i : nat) : F := default s0 (v !! i).
Lemma vat_Some {F} {O : SOps F} (v : list F) i : i < length v -> v !! i = Some (vat v i).
Proof. intros H. destruct (lookup_lt_is_Some_2 v i H) as [x Hx]. unfold vat. rewrite Hx. reflexivity. Qed.
Lemma vat_eq {F} {O : SOps F} (v : list F) i x : v !! i = Some x -> vat v i = x.
Proof. unfold vat. intros ->. reflexivity. Qed.
Lemma vat_get {F} {O : SOps F} (v : list F) i : i < length v -> get v i = Ok (vat v i).
Proof. intros H. apply get_Some, vat_Some, H. Qed.
Lemma vec_eq {F} {O : SOps F} (v w : list F) :
  length v = length w -> (forall i, i < length v -> vat v i = vat w i) -> v = w.
Proof.
  intros Hl H. apply list_eq_lt; [exact Hl|]. intros i Hi.
  rewrite !vat_Some by lia. f_equal. auto.
Qed.
