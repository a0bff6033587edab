(** * RoundMatvec: accumulated sums of the products, with rounding *)
From Coq Require Import QArith.Qcanon Field.
From Verif Require Import Base Alg Inst Rounding RoundFacts RoundSolve SRMatrix Nd KernelFacts TriSpec Matvec MatvecFacts.

Open Scope Qc_scope.

Section Acc.
  Variables (u : Qc) (Of : machine).
  Hypothesis H : rounds u Of.
  Notation close := (close u).
  Let Hu0 : 0 <= u := rd_nonneg u Of H.
  Let Hu1 : u < 1 := rd_lt u Of H.

  (** terms [g j] with factors close to 1, added from the left *)
  Lemma facc_fl (init : Qc) (f g tm : nat -> Qc) k lo hi : (lo <= hi)%nat ->
    (forall j, (lo <= j < hi)%nat -> close k (tm j) /\ f j = g j * tm j) ->
    exists ti t, close (hi - lo) ti /\ (forall j, (lo <= j < hi)%nat -> close (hi - lo + k) (t j)) /\
    @facc Qc Of init f lo hi = init * ti + lsum (fun j => g j * t j) (range lo hi).
  Proof.
    intros Hle Hf. induction Hle as [|m Hle IH].
    - exists 1, (fun _ => 1). split; [apply close_one; auto|]. split; [intros; lia|].
      rewrite facc_nil, range_same. change (init = init * 1 + 0). ring.
    - destruct IH as (ti & t & H1 & H2 & E); [intros; apply Hf; lia|].
      destruct (Hf m ltac:(lia)) as (Hm & Em).
      replace (S m) with (m + 1)%nat by lia. rewrite facc_snoc by lia. rewrite E, Em.
      match goal with |- context [@sadd _ _ ?a ?b] => destruct (fl_add u Of H a b) as (s & Hs & ->) end.
      exists (ti * s), (bump t m (tm m) s). split; [|split].
      + replace (m + 1 - lo)%nat with (m - lo + 1)%nat by lia. apply close_mul; auto.
      + intros j Hj. unfold bump. destruct (decide (j = m)) as [->|Hne].
        * apply (close_mono u Hu0 Hu1 (k + 1)); [lia|]. apply close_mul; auto.
        * replace (m + 1 - lo + k)%nat with (m - lo + k + 1)%nat by lia. apply close_mul; auto. apply H2. lia.
      + rewrite lsum_bump by lia. ring.
  Qed.

  Variable M : srmat Qc.
  Hypothesis (Hw : wf_pat M) (Hn : wf_nodup M).
  Notation n := (nbrows M).
  (** a row of a product *)
  Lemma row_fl (x : list Qc) (a : Qc) (t : nat -> Qc) k i : (i < n)%nat ->
    (forall j, (rp M i <= j < rp M (i + 1))%nat -> close k (t j)) ->
    exists row, (forall j, (j < n)%nat -> exists t, close k t /\ row j = dense M i j * t) /\
      lsum (fun j => a * (vat (vals M) j * vat x (col M j)) * t j) (range (rp M i) (rp M (i + 1))) =
      a * bsum n (fun j => row j * vat x j).
  Proof.
    intros Hi Ht.
    set (T := fun c => match pos M i c with Some j => if decide (rp M i <= j < rp M (i + 1))%nat then t j else 1 | None => 1 end).
    exists (fun c => dense M i c * T c). split.
    - intros c Hc. exists (T c). split; [|reflexivity]. unfold T. destruct (pos M i c) as [j|]; [|apply close_one; auto].
      destruct (decide _); [auto|apply close_one; auto].
    - rewrite (row_sum M i _ _ (fun _ => True)); auto.
      + change (@bsum Qc Qc_ops n (fun c => if decide True then match pos M i c with Some j => a * (vat (vals M) j * vat x (col M j)) * t j | None => s0 end else s0)
          = @smul Qc Qc_ops a (bsum n (fun j => dense M i j * T j * vat x j))).
        rewrite <- bsum_mul_l. apply bsum_ext. intros c Hc. rewrite decide_True by done.
        change (@smul Qc Qc_ops) with Qcmult. unfold dense, T. destruct (pos M i c) as [j|] eqn:E.
        * apply pos_Some in E as [[_ Hj] E]; [|done]. rewrite E, decide_True by lia. unfold vat at 1. ring.
        * change (@s0 Qc Qc_ops) with (0:Qc). ring.
      + intros j [_ Hj]. tauto.
  Qed.
End Acc.
