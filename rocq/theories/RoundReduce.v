(** * RoundReduce: the sums of the factorisation with rounding errors, in any order *)
From Coq Require Import QArith.Qcanon Field.
From Verif Require Import Base Alg Inst Rounding RoundFacts RoundDot RoundSolve SRMatrix Async AsyncTheory AsyncSystem Nd Kernels KernelFacts
  Helpers IluPattern IluPatternFacts IluApply IluApplyFacts TriSpec TriFacts IluApplyProofs Sgs SgsForms Chains IluApplyMain
  IluFactor IluFactorFacts IluFactorProofs Reduce ReduceFactor RoundFactor.

Open Scope Qc_scope.

Section Sum.
  Context (u : Qc) (Of : machine) (H : rounds u Of).
  Let Hu0 : 0 <= u := rd_nonneg u Of H.
  Let Hu1 : u < 1 := rd_lt u Of H.
  Notation close := (close u).
  Variables sfma sfnma : Qc -> Qc -> Qc -> Qc.
  Hypothesis HF : fused_rounds u sfma sfnma.
  Lemma suses_pos o : (1 <= length (suses o))%nat.
  Proof. induction o; simpl; rewrite ?app_length; lia. Qed.
  Definition sterm (v x : nat -> Qc) (init ti : Qc) (t : nat -> Qc) (w : option nat) : Qc :=
    match w with None => init * ti | Some j => - (v j * x j * t j) end.
  Lemma seval_fl v x init o : NoDup (suses o) ->
    exists ti t, close (length (suses o) - 1) ti /\ (forall j, close (length (suses o) + 1) (t j)) /\
      @seval Qc Of sfnma v x init o = lsum (sterm v x init ti t) (suses o).
  Proof.
    induction o as [|f k|f a IH k|a IHa b IHb]; intros Hnd.
    - exists 1, (fun _ => 1). split; [apply close_one; auto|]. split; [intros; apply close_one; auto|].
      change (init = init * 1 + 0). ring.
    - cbn [seval]. destruct (msub_fl u Of H sfma sfnma HF f (@s0 Qc Of) (v k) (x k)) as (t & s & Ht & Hs & ->).
      exists 1, (fun _ => t * s). split; [apply close_one; auto|].
      split; [intros; apply (close_mul u Hu1 1 1); auto|]. rewrite (rd_zero u Of H).
      change ((0 - v k * x k * t) * s = - (v k * x k * (t * s)) + 0). ring.
    - cbn [suses seval] in *. apply NoDup_cons in Hnd as [Nk Na].
      destruct (IH Na) as (tia & ta & A1 & A2 & ->).
      destruct (msub_fl u Of H sfma sfnma HF f (lsum (sterm v x init tia ta) (suses a)) (v k) (x k)) as (t & s & Ht & Hs & ->).
      pose proof (suses_pos a) as La. cbn [length].
      exists (tia * s), (fun j => (if decide (j = k) then t else ta j) * s). split; [|split].
      + eapply (close_mono u Hu0 Hu1); [|apply (close_mul u Hu1 _ _ _ _ A1 Hs)]. lia.
      + intros j. destruct (decide (j = k)).
        * eapply (close_mono u Hu0 Hu1); [|apply (close_mul u Hu1 _ _ _ _ Ht Hs)]. lia.
        * eapply (close_mono u Hu0 Hu1); [|apply (close_mul u Hu1 _ _ _ _ (A2 j) Hs)]. lia.
      + change (lsum ?f (Some k :: suses a)) with (f (Some k) + lsum f (suses a)).
        rewrite (lsum_ext (sterm v x init (tia * s) (fun j => (if decide (j = k) then t else ta j) * s)) (fun w => sterm v x init tia ta w * s)).
        * rewrite lsum_mul. cbn [sterm]. rewrite decide_True by done. ring.
        * intros [j|] Hj; simpl; [|ring]. rewrite decide_False by (intros ->; contradiction). ring.
    - cbn [suses seval] in *. apply NoDup_app in Hnd as (Na & Nab & Nb).
      destruct (IHa Na) as (tia & ta & A1 & A2 & ->). destruct (IHb Nb) as (tib & tb & B1 & B2 & ->).
      destruct (fl_add u Of H (lsum (sterm v x init tia ta) (suses a)) (lsum (sterm v x init tib tb) (suses b))) as (s & Hs & ->).
      pose proof (suses_pos a) as La. pose proof (suses_pos b) as Lb. rewrite app_length.
      exists ((if decide (None ∈ suses a) then tia else tib) * s), (fun k => (if decide (Some k ∈ suses a) then ta k else tb k) * s).
      split; [|split].
      + destruct (decide _).
        * eapply (close_mono u Hu0 Hu1); [|apply (close_mul u Hu1 _ _ _ _ A1 Hs)]. lia.
        * eapply (close_mono u Hu0 Hu1); [|apply (close_mul u Hu1 _ _ _ _ B1 Hs)]. lia.
      + intros k. destruct (decide _).
        * eapply (close_mono u Hu0 Hu1); [|apply (close_mul u Hu1 _ _ _ _ (A2 k) Hs)]. lia.
        * eapply (close_mono u Hu0 Hu1); [|apply (close_mul u Hu1 _ _ _ _ (B2 k) Hs)]. lia.
      + rewrite lsum_app. change (@sadd Qc Qc_ops) with Qcplus. rewrite Qcmult_plus_distr_l, <- !lsum_mul. f_equal; apply lsum_ext.
        * intros [k|] Hk; simpl; rewrite decide_True by exact Hk; ring.
        * intros [k|] Hk; simpl; rewrite decide_False by (intros E; apply (Nab _ E Hk)); ring.
  Qed.
  Lemma seval_covers_fl v x init o lo hi : scovers o lo hi ->
    exists ti t, close (hi - lo) ti /\ (forall j, close (hi - lo + 2) (t j)) /\
      @seval Qc Of sfnma v x init o = init * ti - lsum (fun k => v k * x k * t k) (range lo hi).
  Proof.
    intros Hcov. unfold scovers in Hcov.
    assert (NoDup (suses o)) as Hnd.
    { rewrite Hcov. apply NoDup_cons. split; [intros E; apply elem_of_list_fmap in E as (? & ? & _); discriminate|].
      apply NoDup_fmap; [intros ? ? E; injection E; auto|apply NoDup_seq]. }
    assert (length (suses o) = hi - lo + 1)%nat as Hlen.
    { rewrite Hcov. simpl. rewrite fmap_length. unfold range. rewrite seq_length. lia. }
    destruct (seval_fl v x init o Hnd) as (ti & t & H1 & H2 & ->). rewrite Hlen in H1, H2.
    exists ti, t. split; [replace (hi - lo)%nat with (hi - lo + 1 - 1)%nat by lia; exact H1|].
    split; [intros j; replace (hi - lo + 2)%nat with (hi - lo + 1 + 1)%nat by lia; apply H2|].
    rewrite (lsum_perm _ _ _ Hcov). change (lsum ?f (None :: ?l)) with (f None + lsum f l).
    cbn [sterm]. unfold Qcminus. f_equal.
    clear Hcov Hnd Hlen H1 H2. induction (range lo hi) as [|k l IH]; [reflexivity|].
    change (- (v k * x k * t k) + lsum (sterm v x init ti t) (Some <$> l) = - (v k * x k * t k + lsum (fun k => v k * x k * t k) l)).
    rewrite IH. ring.
  Qed.
  (** a sum over positions as a sum over a list *)
  Lemma lsum_zip_range {A} (f : A -> Qc) (g T : nat -> Qc) (l : list A) lo : (forall i a, l !! i = Some a -> g (lo + i)%nat = f a * T (lo + i)%nat) ->
    lsum g (range lo (lo + length l)) = lsum (fun x => f x.1 * x.2) (zip l (T <$> range lo (lo + length l))).
  Proof.
    revert lo. unfold range. induction l as [|a l IH]; intros lo Hg; cbn [length].
    - replace (lo + 0 - lo)%nat with 0%nat by lia. reflexivity.
    - replace (lo + S (length l) - lo)%nat with (S (length l)) by lia. cbn [seq fmap list_fmap zip_with].
      change (g lo + lsum g (seq (S lo) (length l)) = f a * T lo + lsum (fun x => f x.1 * x.2) (zip l (T <$> seq (S lo) (length l)))).
      f_equal.
      + specialize (Hg 0%nat a eq_refl). rewrite Nat.add_0_r in Hg. exact Hg.
      + specialize (IH (S lo)). replace (S lo + length l - S lo)%nat with (length l) in IH by lia. apply IH.
        intros i b Hi. specialize (Hg (S i) b Hi). replace (S lo + i)%nat with (lo + S i)%nat by lia. exact Hg.
  Qed.

  Variable (M : srmat Qc).
  Hypothesis (Hw : wf_pat M) (Hd : wf_diag M) (Hs : wf_sorted M).
  Notation n := (nbrows M).
  Notation N := (nnz M).
  Notation pl := (positions M).
  Variables (scale : option (list Qc)) (ilu : list Qc).
  Hypothesis (Hv : length (vals M) = N) (Hsc : scale_ok scale n) (Hl : length ilu = N).
  Notation A := (scaled_mat scale (dense M)).
  Notation B := (entry M ilu).
  Notation sr := (2 * scale_roundings scale)%nat.
  Lemma rsum_fl ord : valid_sorder ord -> sum_fl u M scale ilu (@entry_rsum Qc Of sfnma ord) (fun i => 2 * rowlen M i + sr)%nat.
  Proof.
    intros Hord j Hj. set (i := rowof M j). set (c := col M j). set (m := length (tms M j)).
    set (f := fun kp : nat * nat => vat ilu (fst kp) * vat ilu (snd kp)).
    destruct (exec_wp ilu (@entry_rsum Qc Of sfnma ord M pl scale i j) (fun s => exists tc ts, length ts = m /\
       close (m + sr) tc /\ (forall t, t ∈ ts -> close (2 * m + 2 + sr) t) /\
       A i c = s * tc + lsum (fun x => f x.1 * x.2) (zip (tms M j) ts))) as (s & He & tc & ts & Hts & Hc1 & Hc2 & E).
    - unfold entry_rsum. apply wp_bind, wp_plift. destruct (scaled_entry_fl u Of H M Hw Hs scale ilu Hv Hsc Hl j Hj) as (t0 & Ht0 & E0). fold i c in E0. rewrite E0. cbn [ok].
      apply wp_bind, wp_plift, ok_pl; [lia|].
      apply wp_bind, wp_plift, ok_pl; [lia|].
      set (base := length (allterms M j)).
      set (I := fun (k : nat) (vx : nat -> Qc * Qc) => forall i a b, (base + i < k)%nat -> tms M j !! i = Some (a, b) -> vx (base + i)%nat = (vat ilu a, vat ilu b)).
      apply wp_bind. apply (wp_pfor_post _ _ _ _ _ _ I).
      + rewrite (allterms_next M j). lia.
      + intros i' a b Hi'. lia.
      + intros k vx Hk HI. destruct (pl_loop M j k Hj Hk) as (a & b & Ha & Hb & Hab). fold base in Hab, Hk.
        destruct (tms_before M Hw Hs j a b Hj ltac:(eapply elem_of_list_lookup_2; eauto)) as [H1 H2].
        apply wp_bind, wp_plift. eapply ok_get; [exact Ha|].
        apply wp_bind, wp_plift. eapply ok_get; [exact Hb|].
        apply wp_bind, wp_pread; [eexists; apply vat_Some; lia|]. intros x Hx.
        apply wp_bind, wp_pread; [eexists; apply vat_Some; lia|]. intros y Hy.
        apply (vat_eq (O := Qc_ops)) in Hx, Hy. subst x y. simpl. intros i' a' b' Hi' Hab'.
        destruct (decide (base + i' = k)%nat) as [Ek|].
        * replace (k - base)%nat with i' in Hab by lia. rewrite Hab in Hab'. injection Hab' as <- <-. reflexivity.
        * apply HI; [lia|exact Hab'].
      + intros vx HI. cbn [wp]. pose proof (Hord base (length (allterms M (j + 1)))) as Hcov.
        assert (length (allterms M (j + 1)) = base + m)%nat as Ehi by (rewrite (allterms_next M j); reflexivity).
        rewrite Ehi in *.
        destruct (seval_covers_fl (fun k => (vx k).1) (fun k => (vx k).2) (A i c * t0) _ _ _ Hcov) as (ti & t & Hti & Ht & ->).
        replace (base + m - base)%nat with m in * by lia.
        pose proof (close_neq u Hu1 _ _ Hti) as Ni. pose proof (close_neq u Hu1 _ _ Ht0) as N0.
        set (w := / (t0 * ti)). assert (close (m + sr) w) as Hwc.
        { unfold w. apply close_inv; auto. rewrite Nat.add_comm. apply close_mul; auto. }
        exists w, ((fun k => t k * w) <$> range base (base + m)). split; [rewrite fmap_length, range_length; lia|].
        split; [exact Hwc|]. split.
        { intros x Hx. apply elem_of_list_fmap in Hx as (k & -> & _).
          eapply (close_mono u Hu0 Hu1); [|exact (close_mul u Hu1 _ _ _ _ (Ht k) Hwc)]. lia. }
        pose proof (lsum_zip_range f (fun k => (vx k).1 * (vx k).2 * t k * w) (fun k => t k * w) (tms M j) base) as Hz.
        fold m in Hz. rewrite <- Hz.
        * rewrite lsum_mul. unfold w. field. split; auto.
        * intros i' [a b] Hab. rewrite (HI i' a b); [|apply lookup_lt_Some in Hab; fold m in Hab; lia|exact Hab].
          unfold f. cbn [fst snd]. ring.
    - destruct (zip_factors f (close (2 * m + 2 + sr)) (tms M j) ts) as (T & HT & ET); auto.
      { apply close_one; auto. }
      { unfold tms, terms. apply term_nodup, NoDup_range. }
      pose proof (tms_short M Hw ilu Hv Hl j Hj) as Hlen. fold i m in Hlen.
      exists s, tc, (fun t => match pos M i t with Some k => T k | None => 1 end), (m + sr)%nat. split; [exact He|].
      split; [fold i; lia|]. split; [exact Hc1|]. split.
      { intros t. eapply (close_mono u Hu0 Hu1 (2 * m + 2 + sr)); [fold i; lia|]. destruct (pos M i t); [apply HT|apply close_one; auto]. }
      fold i c. rewrite E, ET. f_equal. unfold tms. rewrite terms_sum; auto; [|apply (inrow_rowof M j Hw Hj)]. fold i c.
      apply bsum_ext. intros t Ht. destruct (decide _); [|reflexivity].
      unfold entry. destruct (pos M i t), (pos M t c); unfold f; cbn [fst snd]; change (@s0 Qc Qc_ops) with (0:Qc); ring.
  Qed.
End Sum.
