(** * MatvecMain: the products over a commutative ring *)
From Verif Require Import Base Alg SRMatrix Nd Matvec MatvecFacts KernelFacts TriSpec TriFacts IluFactorProofs.

Section Main.
  Context {F : Type} {O : SOps F} {R : CRing F}.
  Add Ring Fr : cring.
  Local Open Scope s_scope.

  Lemma facc_lsum (init : F) (t : nat -> F) lo hi : (lo <= hi)%nat -> facc init t lo hi = init + lsum t (range lo hi).
  Proof.
    intros H. unfold facc. generalize (range lo hi). intros l. revert init. induction l as [|j l IH]; intros init; simpl; [ring|].
    rewrite IH. ring.
  Qed.
  Lemma facc_bsum (init : F) (t : nat -> F) m : facc init t 0 m = init + bsum m t.
  Proof.
    induction m as [|m IH]; [rewrite facc_nil; simpl; ring|].
    replace (S m) with (m + 1)%nat at 1 by lia. rewrite facc_snoc, IH by lia. simpl. ring.
  Qed.
  (** sum over the entries of a block row = sum over all columns *)
  Lemma brow_sum so bs (M : srmat F) i p (f : nat -> F) : wf_pat M -> wf_nodup M -> (i < nbrows M)%nat -> (p < bs)%nat ->
    lsum (fun jj => bsum bs (fun q => bent so bs (vals M) jj p q * f (col M jj * bs + q)%nat)) (range (rp M i) (rp M (i + 1))) =
    bsum (nbrows M * bs) (fun J => bdense so bs M (i * bs + p) J * f J).
  Proof.
    intros Hw Hn Hi Hp. rewrite (row_sum M i _ _ (fun _ => True)); auto.
    - rewrite bsum_flat. apply bsum_ext. intros c Hc. rewrite decide_True by done.
      destruct (pos M i c) as [k|] eqn:E.
      + apply pos_Some in E as E'; [|exact Hi]. destruct E' as [_ E']. apply bsum_ext. intros q Hq. rewrite bdense_flat, E, E' by done. reflexivity.
      + symmetry. apply bsum_zero. intros q Hq. rewrite bdense_flat, E by done. ring.
    - intros j [_ Hj]. tauto.
  Qed.
  Lemma bterm_bsum so bs (M : srmat F) x (g : F -> F) a jj p : (forall v, g v = a * v) ->
    bterm so bs M x g jj p = a * bsum bs (fun q => bent so bs (vals M) jj p q * vat x (col M jj * bs + q)).
  Proof.
    intros Hg. unfold bterm. rewrite facc_bsum, <- bsum_mul_l.
    transitivity (bsum bs (fun q => g (bent so bs (vals M) jj p q) * vat x (col M jj * bs + q))); [ring|].
    apply bsum_ext. intros q _. rewrite Hg. ring.
  Qed.
  Lemma gemv3_value (a : F) (f : nat -> F) (A : nat -> F) n init : init + bsum n (fun c => A c * (a * f c)) = a * bsum n (fun c => A c * f c) + init.
  Proof. rewrite <- bsum_mul_l. rewrite (bsum_ext n _ (fun c => a * (A c * f c))); [ring|]. intros. ring. Qed.
  Lemma bsum_shift0 n (f : nat -> F) : s0 + bsum n f = bsum n f. Proof. ring. Qed.
  Lemma row_value (M : srmat F) x a init i : wf_pat M -> wf_nodup M -> (i < nbrows M)%nat ->
    facc init (fun jj => a * vat (vals M) jj * vat x (col M jj)) (rp M i) (rp M (i + 1)) =
    a * bsum (nbrows M) (fun c => dense M i c * vat x c) + init.
  Proof.
    intros Hw Hn Hi. rewrite facc_lsum by (apply rp_mono; auto; lia).
    rewrite (lsum_ext _ (fun jj => default s0 (vals M !! jj) * (a * vat x (col M jj)))) by (intros; unfold vat; ring).
    rewrite (row_sum_dense M i (fun c => a * vat x c)) by done. apply gemv3_value.
  Qed.
  Lemma row_value0 (M : srmat F) x i : wf_pat M -> wf_nodup M -> (i < nbrows M)%nat ->
    facc s0 (fun jj => vat (vals M) jj * vat x (col M jj)) (rp M i) (rp M (i + 1)) = bsum (nbrows M) (fun c => dense M i c * vat x c).
  Proof.
    intros Hw Hn Hi. rewrite facc_lsum by (apply rp_mono; auto; lia).
    rewrite <- (row_sum_dense M i (fun c => vat x c)) by done. unfold vat. ring.
  Qed.
  Lemma brow_value so bs (M : srmat F) x (g : F -> F) a init i p : (forall v, g v = a * v) -> wf_pat M -> wf_nodup M -> (i < nbrows M)%nat -> (p < bs)%nat ->
    facc init (fun jj => bterm so bs M x g jj p) (rp M i) (rp M (i + 1)) =
    a * bsum (nbrows M * bs) (fun J => bdense so bs M (i * bs + p) J * vat x J) + init.
  Proof.
    intros Hg Hw Hn Hi Hp. rewrite facc_lsum by (apply rp_mono; auto; lia).
    rewrite (lsum_ext _ (fun jj => a * bsum bs (fun q => bent so bs (vals M) jj p q * vat x (col M jj * bs + q)%nat))) by (intros; apply bterm_bsum, Hg).
    rewrite lsum_mul_l, (brow_sum so bs M i p (vat x)) by done. ring.
  Qed.
  Lemma one_plus_zero (v : F) : s1 * v + s0 = v. Proof. ring. Qed.
  Lemma one_mul (v : F) : v = s1 * v. Proof. ring. Qed.
End Main.

(** results given cell by cell *)
Lemma determinate {F} (m : nd (list F)) N (f : nat -> F) :
  nok m (fun y => length y = N /\ forall i, i < N -> y !! i = Some (f i)) -> nok m (fun y => y = f <$> seq 0 N).
Proof.
  intros H. eapply nok_mono; [exact H|]. intros y [Hl Hy]. apply list_eq_lt; [rewrite fmap_length, seq_length; exact Hl|].
  intros i Hi. rewrite list_lookup_fmap, lookup_seq_lt by lia. apply Hy. lia.
Qed.
Lemma determinate_blocks {F} (m : nd (list F)) n bs (f : nat -> nat -> F) :
  nok m (fun y => length y = n * bs /\ forall i p, i < n -> p < bs -> y !! (i * bs + p) = Some (f i p)) ->
  nok m (fun y => y = (fun I => f (I / bs) (I mod bs)) <$> seq 0 (n * bs)).
Proof.
  intros H. apply determinate. eapply nok_mono; [exact H|]. intros y [Hl Hy]. split; [exact Hl|]. intros I HI. assert (0 < bs) by nia.
  rewrite (Nat.div_mod I bs) at 1 by lia. rewrite (Nat.mul_comm bs). apply Hy; [apply Nat.div_lt_upper_bound; lia|apply Nat.mod_upper_bound; lia].
Qed.
