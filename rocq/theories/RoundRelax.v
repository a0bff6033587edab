(** * RoundRelax: what the scalar relaxation kernel computes with rounding errors from
    values near the solution, even if every read returns another vector's entry *)
From Coq Require Import QArith.Qcanon QArith.Qcabs Field.
From Verif Require Import Base Alg Norms SRMatrix Async AsyncTheory AsyncSystem AsyncSweeps AsyncSets AsyncJacobi Nd Kernels KernelFacts
  IluApply IluApplyFacts TriSpec TriFacts IluApplyProofs IluApplyMain IluFactorMain IluApplyStall Sgs SgsFacts SgsProofs SgsForms SgsMain RelaxNear
  Inst Rounding RoundFacts RoundBounds RoundDot RoundSolve Reduce PropConverge PropConvergeEx.

Open Scope Qc_scope.

(** the most by which [k] roundings can enlarge a number: 1/(1-u)^k *)
Definition growth (u : Qc) (k : nat) : Qc := / (1 - u) ^ k.

Section Growth.
  Context (u : Qc) (Hu0 : 0 <= u) (Hu1 : u < 1).
  Notation growth := (growth u).
  Notation close := (close u).
  Lemma growth_inv k : growth k * (1 - u) ^ k = 1.
  Proof.
    unfold Verif.RoundRelax.growth. rewrite Qcmult_comm. apply Qcmult_inv_r. pose proof (pow_pos u Hu1 k) as H.
    intros E. rewrite E in H. discriminate.
  Qed.
  Lemma growth_pos k : 0 < growth k.
  Proof.
    apply Qcnot_le_lt. intros H. pose proof (pow_pos u Hu1 k) as Hp.
    assert (growth k * (1 - u) ^ k <= 0 * (1 - u) ^ k) as H1 by (apply Qcmult_le_compat_r; [exact H|apply Qclt_le_weak, Hp]).
    rewrite growth_inv, Qcmult_0_l in H1. apply H1. reflexivity.
  Qed.
  Lemma growth_ge1 k : 1 <= growth k.
  Proof.
    rewrite <- (growth_inv k). replace (growth k) with (growth k * 1) at 2 by ring.
    rewrite !(Qcmult_comm (growth k)). apply Qcmult_le_compat_r; [apply pow_le1; auto|apply Qclt_le_weak, growth_pos].
  Qed.
  Lemma growth_add j k : growth (j + k) = growth j * growth k.
  Proof.
    transitivity (growth (j + k) * ((growth j * (1 - u) ^ j) * (growth k * (1 - u) ^ k))).
    { rewrite !growth_inv. ring. }
    transitivity ((growth (j + k) * (1 - u) ^ (j + k)) * (growth j * growth k)).
    { rewrite pow_add. ring. }
    rewrite growth_inv. ring.
  Qed.
  Lemma close_growth k t : close k t -> t <= growth k.
  Proof.
    intros [_ H]. pose proof (pow_pos u Hu1 k) as Hp. rewrite <- (Qcmult_1_r t), <- (growth_inv k).
    replace (t * (growth k * (1 - u) ^ k)) with (t * (1 - u) ^ k * growth k) by ring.
    replace (growth k) with (1 * growth k) at 2 by ring. apply Qcmult_le_compat_r; [exact H|apply Qclt_le_weak, growth_pos].
  Qed.
  Lemma close_growth_abs k t : close k t -> Qcabs (t - 1) <= growth k - 1.
  Proof.
    intros H. apply Qcabs_Qcle_condition. split.
    - (* 1 - t <= 1 - (1-u)^k <= growth (1 - (1-u)^k) *)
      destruct H as [H _]. apply Qcle_minus_iff in H. apply Qcle_minus_iff.
      replace (t - 1 + - - (growth k - 1)) with ((t + - (1 - u) ^ k) + ((1 - u) ^ k + growth k - q 2)).
      2: { replace (q 2) with (1 + 1) by (apply Qc_is_canon; reflexivity). ring. }
      replace 0 with (0 + 0) by ring. apply Qcplus_le_compat; [exact H|].
      (* g + 1/g >= 2 *)
      replace ((1 - u) ^ k + growth k - q 2) with ((growth k - 1) * (1 - (1 - u) ^ k)).
      2: { replace (q 2) with (1 + 1) by (apply Qc_is_canon; reflexivity).
           replace ((growth k - 1) * (1 - (1 - u) ^ k)) with (growth k - growth k * (1 - u) ^ k - 1 + (1 - u) ^ k) by ring. rewrite growth_inv. ring. }
      apply Qcmul_nonneg.
      + pose proof (growth_ge1 k) as G. apply Qcle_minus_iff in G. exact G.
      + pose proof (pow_le1 u Hu0 Hu1 k) as G. apply Qcle_minus_iff in G. exact G.
    - apply Qcplus_le_compat; [apply close_growth, H|apply Qcle_refl].
  Qed.
  Lemma growth_mono j k : (j <= k)%nat -> growth j <= growth k.
  Proof.
    intros H. replace k with (j + (k - j))%nat by lia. rewrite growth_add.
    replace (growth j) with (growth j * 1) at 1 by ring. rewrite !(Qcmult_comm (growth j)).
    apply Qcmult_le_compat_r; [apply growth_ge1|apply Qclt_le_weak, growth_pos].
  Qed.
End Growth.

Section Kernel.
  Variables (u : Qc) (Of : machine).
  Hypothesis H : rounds u Of.
  Notation close := (close u).
  Notation growth := (growth u).
  Let Hu0 : 0 <= u := rd_nonneg u Of H.
  Let Hu1 : u < 1 := rd_lt u Of H.

  (** sums over lists *)
  Lemma lsum_abs_le {A} (f g : A -> Qc) l : (forall a, a ∈ l -> Qcabs (f a) <= g a) -> Qcabs (lsum f l) <= lsum g l.
  Proof.
    induction l as [|a l IH]; intros E.
    - simpl. change (@s0 Qc Qc_ops) with (0:Qc). rewrite Qcabs_pos by apply Qcle_refl. apply Qcle_refl.
    - change (Qcabs (f a + lsum f l) <= g a + lsum g l). eapply Qcle_trans; [apply Qcabs_triangle|].
      apply Qcplus_le_compat; [apply E; left|apply IH]. intros b Hb. apply E. right. exact Hb.
  Qed.
  Lemma lsum_scale {A} c (f : A -> Qc) l : lsum (fun a => c * f a) l = c * lsum f l.
  Proof.
    induction l as [|a l IH]; [change (0 = c * 0)|change (c * f a + lsum (fun a => c * f a) l = c * (f a + lsum f l)); rewrite IH]; ring.
  Qed.
  Lemma lsum_diff {A} (f g : A -> Qc) l : lsum f l - lsum g l = lsum (fun a => f a - g a) l.
  Proof.
    induction l as [|a l IH]; [change (0 - 0 = 0)|change ((f a + lsum f l) - (g a + lsum g l) = f a - g a + lsum (fun a => f a - g a) l); rewrite <- IH]; ring.
  Qed.

  (** ** One row *)
  Section Row.
    Variable dot : list Qc -> list nat -> nat -> nat -> Qc -> @P Qc Qc.
    Hypothesis Hdot : dot_rounds u dot.
    Variable M : srmat Qc.
    Notation n := (nbrows M).
    Hypothesis (Hw : wf_pat M) (Hd : wf_diag M) (Hs : wf_sorted M) (Hv : length (vals M) = nnz M).
    Hypothesis Hnz : forall i, (i < n)%nat -> dense M i i <> 0.
    Variables (b xs : list Qc) (W : nat -> Qc) (rho X : Qc) (m : nat).
    Hypothesis (Hb : length b = n) (Hsol : is_prod n (dense M) xs b).
    Hypothesis (HW : forall i, (i < n)%nat -> 0 <= W i) (Hr0 : 0 <= rho) (Hr1 : rho <= 1) (HX : 0 <= X).
    Hypothesis Hdom : dominant Qcabs Qcle n (dense M) W rho.
    Hypothesis Hsize : forall i, (i < n)%nat -> Qcabs (vat xs i) <= X * W i.
    Hypothesis Hrow : forall i, (i < n)%nat -> (rowlen M i <= m)%nat.
    Variable d : list Qc.
    Hypothesis (Hdl : length d = n) (Hdv : forall i, (i < n)%nat -> vat d i = @sdiv Qc Of (@s1 Qc Of) (vat (vals M) (dg M i))).
    Notation g := (growth (m + 3)).
    Definition rball (e : Qc) (l : nat) (v : Qc) : Prop := Qcabs (v - vat xs l) <= e * W l.

    Lemma dense_diag i : (i < n)%nat -> vat (vals M) (dg M i) = dense M i i.
    Proof. intros Hi. unfold dense. rewrite (pos_diag M i (sorted_nodup M Hs) Hd Hi). reflexivity. Qed.

    Lemma relax_fl_improves e i : 0 <= e -> (i < n)%nat ->
      improves 1 n (@relax_with Qc Of dot M d b) (rball e) (rball (rho * g * e + (g - 1) * X)) i.
    Proof.
      intros He Hi. split; [exact Hi|]. pose proof (row_bounds M Hw Hd i Hi) as Hbd. unfold relax_with.
      rewrite (proj2 (get_Some _ _ _) (wf_browptr M i Hw ltac:(lia))).
      rewrite (proj2 (get_Some _ _ _) (wf_diagind M i Hd Hi)).
      rewrite (proj2 (get_Some _ _ _) (wf_browptr M (i + 1) Hw ltac:(lia))).
      rewrite (vat_get d), (vat_get b) by lia. cbn [plift pbind].
      assert (forall j, (j < nnz M)%nat -> (bcolind M !!! j < n * 1)%nat) as Hcol.
      { intros j Hj. pose proof (wf_col M Hw j Hj) as Hc. unfold col in Hc. lia. }
      assert (forall l, (l < n * 1)%nat -> exists v, rball e l v) as Hex.
      { intros l Hl. exists (vat xs l). unfold rball. replace (vat xs l - vat xs l) with (0:Qc) by ring.
        rewrite Qcabs_pos by apply Qcle_refl. apply Qcmul_nonneg; [exact He|apply HW; lia]. }
      apply wp_bind, wp_bind. eapply wp_post.
      { apply Hdot; [lia|lia|rewrite (wf_clen M Hw); lia|]. intros j Hj.
        destruct (Hex (bcolind M !!! j)) as [v0 Hv0]; [apply Hcol; lia|]. exists v0. split; [apply Hcol; lia|exact Hv0]. }
      intros a (ti1 & y1 & t1 & _ & HB1 & ->). apply wp_bind. eapply wp_post.
      { apply Hdot; [lia|lia|rewrite (wf_clen M Hw); lia|]. intros j Hj.
        destruct (Hex (bcolind M !!! j)) as [v0 Hv0]; [apply Hcol; lia|]. exists v0. split; [apply Hcol; lia|exact Hv0]. }
      intros a (ti2 & y2 & t2 & Hti2 & HB2 & ->). cbn [wp]. split; [reflexivity|]. intros [|k] v Hvk; [|destruct k; discriminate].
      injection Hvk as <-. rewrite Nat.mul_1_r, Nat.add_0_r. unfold rball.
      change (@s0 Qc Of) with (@s0 Qc Of). rewrite (rd_zero u Of H).
      set (lo := range (rp M i) (dg M i)) in *. set (hi := range (dg M i + 1) (rp M (i + 1))) in *.
      set (sum := (0 * ti1 + lsum (fun j => vat (vals M) j * y1 j * t1 j) lo) * ti2 + lsum (fun j => vat (vals M) j * y2 j * t2 j) hi).
      destruct (fl_sub u Of H (vat b i) sum) as (ts & Hts & ->).
      destruct (fl_mul u Of H (vat d i) ((vat b i - sum) * ts)) as (tm & Htm & ->).
      rewrite (Hdv i Hi). rewrite dense_diag by exact Hi. pose proof (Hnz i Hi) as Hdi. set (D := dense M i i) in *.
      rewrite (rd_one u Of H). destruct (fl_div u Of H 1 D Hdi) as (td & Htd & ->).
      set (tau := td * ts * tm). assert (close 3 tau) as Htau.
      { unfold tau. change 3%nat with (1 + 1 + 1)%nat. apply close_mul; auto. apply close_mul; auto. }
      replace (1 / D * td * ((vat b i - sum) * ts) * tm) with (/ D * (vat b i - sum) * tau) by (unfold tau; field; exact Hdi).
      (* the terms of the two loops *)
      assert (forall j, j ∈ lo -> exists y t, rball e (bcolind M !!! j) y /\ close m t /\ t1 j * ti2 = t /\ y1 j = y) as HT1.
      { intros j Hj. apply elem_of_range in Hj. destruct (HB1 j Hj) as [[_ G1] G2]. exists (y1 j), (t1 j * ti2).
        split; [exact G1|]. split; [|auto]. pose proof (Hrow i Hi) as Hrl. unfold rowlen in Hrl.
        eapply (close_mono u Hu0 Hu1); [|apply (close_mul u Hu1 _ _ _ _ G2 Hti2)]. lia. }
      assert (forall j, j ∈ hi -> rball e (bcolind M !!! j) (y2 j) /\ close m (t2 j)) as HT2.
      { intros j Hj. apply elem_of_range in Hj. destruct (HB2 j Hj) as [[_ G1] G2]. split; [exact G1|].
        pose proof (Hrow i Hi) as Hrl. unfold rowlen in Hrl. eapply (close_mono u Hu0 Hu1); [|exact G2]. lia. }
      assert (sum = lsum (fun j => vat (vals M) j * (y1 j * (t1 j * ti2))) lo + lsum (fun j => vat (vals M) j * (y2 j * t2 j)) hi) as Esum.
      { unfold sum. rewrite (lsum_ext (fun j => vat (vals M) j * (y1 j * (t1 j * ti2))) (fun j => vat (vals M) j * y1 j * t1 j * ti2)) by (intros ? _; cbv beta; ring).
        rewrite lsum_mul. rewrite (lsum_ext (fun j => vat (vals M) j * (y2 j * t2 j)) (fun j => vat (vals M) j * y2 j * t2 j)) by (intros ? _; cbv beta; ring). ring. }
      (* the exact row *)
      assert (vat b i = D * vat xs i + (lsum (fun j => vat (vals M) j * vat xs (bcolind M !!! j)) lo + lsum (fun j => vat (vals M) j * vat xs (bcolind M !!! j)) hi)) as Eb.
      { rewrite <- (Hsol i Hi).
        pose proof (scalar_off M Hw Hd Hs i (fun J a => a * vat xs J) Hi) as E. cbv beta in E.
        assert (forall c : nat, (0:Qc) * vat xs c = 0) as E0 by (intros c; ring). specialize (E E0). clear E0.
        change (@sadd Qc Qc_ops) with Qcplus in E. unfold lo, hi. rewrite E. unfold off_sum.
        rewrite (bsum_ext n (fun c => if decide (c = i) then s0 else bsum 1 (fun q => dense M i (c * 1 + q)%nat * vat xs (c * 1 + q)%nat))
          (fun c => if decide (c = i) then 0 else dense M i c * vat xs c)).
        2: { intros c Hc. destruct (decide (c = i)); [reflexivity|]. cbn [bsum]. rewrite Nat.mul_1_r, Nat.add_0_r.
             change (@s0 Qc Qc_ops) with (0:Qc). change (@sadd Qc Qc_ops) with Qcplus. ring. }
        rewrite (bsum_ext n (fun j => (dense M i j * vat xs j)%s) (fun c => (if decide (c = i) then D * vat xs i else 0) + (if decide (c = i) then 0 else dense M i c * vat xs c))).
        2: { intros c Hc. change (@smul Qc Qc_ops) with Qcmult. unfold D. destruct (decide (c = i)) as [->|]; ring. }
        etransitivity; [exact (bsum_add n (fun c => if decide (c = i) then D * vat xs i else 0) (fun c => if decide (c = i) then 0 else dense M i c * vat xs c))|].
        change (@sadd Qc Qc_ops) with Qcplus. f_equal.
        etransitivity; [apply (bsum_single n i); [exact Hi|]|].
        - intros c Hc Hne. rewrite decide_False by exact Hne. reflexivity.
        - cbv beta. rewrite decide_True by reflexivity. reflexivity. }
      set (gm := growth m). set (g3 := growth 3).
      assert (g = gm * g3) as Eg by (unfold gm, g3; apply growth_add; auto).
      pose proof (growth_ge1 u Hu0 Hu1 m : 1 <= gm) as Hgm. pose proof (growth_ge1 u Hu0 Hu1 3 : 1 <= g3) as Hg3.
      set (c := gm * e + (gm - 1) * X).
      assert (0 <= c) as Hc0.
      { unfold c. replace 0 with (0 + 0) by ring. apply Qcplus_le_compat; apply Qcmul_nonneg; auto.
        - apply Qcle_trans with 1; [discriminate|exact Hgm].
        - apply Qcle_minus_iff in Hgm. exact Hgm. }
      (* one term *)
      assert (forall l y t, (l < n)%nat -> rball e l y -> close m t -> Qcabs (vat xs l - y * t) <= c * W l) as Hterm.
      { intros l y t Hl Hy Ht. pose proof (close_growth u Hu1 m t Ht : t <= gm) as Ht1. pose proof (close_growth_abs u Hu0 Hu1 m t Ht : Qcabs (t - 1) <= gm - 1) as Ht2.
        pose proof (close_pos u Hu1 m t Ht) as Ht0. unfold rball in Hy.
        replace (vat xs l - y * t) with ((vat xs l - y) * t + - (vat xs l * (t - 1))) by ring.
        eapply Qcle_trans; [apply Qcabs_triangle|]. rewrite Qcabs_opp, !Qcabs_Qcmult.
        replace (c * W l) with ((e * W l) * gm + (X * W l) * (gm - 1)) by (unfold c; ring). apply Qcplus_le_compat.
        - rewrite (Qcabs_pos t) by (apply Qclt_le_weak, Ht0). apply Qcmul_le2; [apply Qcabs_nonneg| | |exact Ht1].
          + apply Qcle_trans with 1; [discriminate|exact Hgm].
          + rewrite <- Qcabs_opp. replace (- (vat xs l - y)) with (y - vat xs l) by ring. exact Hy.
        - apply Qcmul_le2; [apply Qcabs_nonneg| |apply Hsize, Hl|exact Ht2]. apply Qcle_minus_iff in Hgm. exact Hgm. }
      (* all terms *)
      set (dev := vat b i - sum - D * vat xs i).
      assert (Qcabs dev <= c * (rho * Qcabs D * W i)) as Hdev.
      { assert (dev = lsum (fun j => vat (vals M) j * vat xs (bcolind M !!! j) - vat (vals M) j * (y1 j * (t1 j * ti2))) lo +
                      lsum (fun j => vat (vals M) j * vat xs (bcolind M !!! j) - vat (vals M) j * (y2 j * t2 j)) hi) as ->.
        { rewrite <- !lsum_diff. unfold dev. rewrite Esum, Eb. ring. }
        eapply Qcle_trans; [apply Qcabs_triangle|].
        assert (forall j, (j < nnz M)%nat -> (bcolind M !!! j < n)%nat) as Hcn by (intros j Hj; specialize (Hcol j Hj); lia).
        apply Qcle_trans with (c * (lsum (fun j => Qcabs (vat (vals M) j) * W (bcolind M !!! j)) lo + lsum (fun j => Qcabs (vat (vals M) j) * W (bcolind M !!! j)) hi)).
        - rewrite Qcmult_plus_distr_r, <- !lsum_scale. apply Qcplus_le_compat; apply lsum_abs_le; intros j Hj.
          + destruct (HT1 j Hj) as (y & t & G1 & G2 & <- & <-). apply elem_of_range in Hj.
            replace (vat (vals M) j * vat xs (bcolind M !!! j) - vat (vals M) j * (y1 j * (t1 j * ti2)))
              with (vat (vals M) j * (vat xs (bcolind M !!! j) - y1 j * (t1 j * ti2))) by ring.
            rewrite Qcabs_Qcmult. replace (c * (Qcabs (vat (vals M) j) * W (bcolind M !!! j))) with (c * W (bcolind M !!! j) * Qcabs (vat (vals M) j)) by ring.
            rewrite Qcmult_comm. apply Qcmult_le_compat_r; [|apply Qcabs_nonneg]. apply Hterm; auto. apply Hcn. lia.
          + destruct (HT2 j Hj) as [G1 G2]. apply elem_of_range in Hj.
            replace (vat (vals M) j * vat xs (bcolind M !!! j) - vat (vals M) j * (y2 j * t2 j))
              with (vat (vals M) j * (vat xs (bcolind M !!! j) - y2 j * t2 j)) by ring.
            rewrite Qcabs_Qcmult. replace (c * (Qcabs (vat (vals M) j) * W (bcolind M !!! j))) with (c * W (bcolind M !!! j) * Qcabs (vat (vals M) j)) by ring.
            rewrite Qcmult_comm. apply Qcmult_le_compat_r; [|apply Qcabs_nonneg]. apply Hterm; auto. apply Hcn. lia.
        - rewrite !(Qcmult_comm c). apply Qcmult_le_compat_r; [|exact Hc0]. eapply Qcle_trans; [|apply (Hdom i Hi)].
          pose proof (scalar_off M Hw Hd Hs i (fun J a => Qcabs a * W J) Hi) as E.
          change (@sadd Qc Qc_ops) with Qcplus in E. unfold lo, hi. rewrite E.
          2: { intros c0. change (@s0 Qc Qc_ops) with (0:Qc). rewrite Qcabs_pos by apply Qcle_refl. ring. }
          unfold off_sum. apply eq_ind with (P := fun z => z <= _) (x := bsum n (fun j => if decide (j = i) then s0 else (Qcabs (dense M i j) * W j)%s)); [apply Qcle_refl|].
          apply bsum_ext. intros c0 Hc. destruct (decide (c0 = i)); [reflexivity|]. cbn [bsum]. rewrite Nat.mul_1_r, Nat.add_0_r.
          change (@s0 Qc Qc_ops) with (0:Qc). change (@sadd Qc Qc_ops) with Qcplus. change (@smul Qc Qc_ops) with Qcmult. ring. }
      (* the entry *)
      replace (/ D * (vat b i - sum) * tau - vat xs i) with (vat xs i * (tau - 1) + / D * dev * tau).
      2: { unfold dev. field. exact Hdi. }
      pose proof (close_growth u Hu1 3 tau Htau : tau <= g3) as Ht1. pose proof (close_growth_abs u Hu0 Hu1 3 tau Htau : Qcabs (tau - 1) <= g3 - 1) as Ht2.
      pose proof (close_pos u Hu1 3 tau Htau) as Ht0.
      eapply Qcle_trans; [apply Qcabs_triangle|]. rewrite !Qcabs_Qcmult. rewrite (Qcabs_pos tau) by (apply Qclt_le_weak, Ht0).
      assert (Qcabs (/ D) * Qcabs D = 1) as Hinv.
      { rewrite <- Qcabs_Qcmult. replace (/ D * D) with (1:Qc) by (field; exact Hdi). apply Qcabs_pos. discriminate. }
      apply Qcle_trans with ((X * W i) * (g3 - 1) + (c * rho * W i) * g3).
      { apply Qcplus_le_compat.
        - apply Qcmul_le2; [apply Qcabs_nonneg| |apply Hsize, Hi|exact Ht2]. apply Qcle_minus_iff in Hg3. exact Hg3.
        - apply Qcmul_le2; [apply Qcmul_nonneg; apply Qcabs_nonneg| | |exact Ht1].
          + apply Qcle_trans with 1; [discriminate|exact Hg3].
          + replace (c * rho * W i) with (c * (rho * Qcabs D * W i) * Qcabs (/ D)).
            * rewrite Qcmult_comm. apply Qcmult_le_compat_r; [exact Hdev|apply Qcabs_nonneg].
            * transitivity (c * rho * W i * (Qcabs (/ D) * Qcabs D)); [ring|]. rewrite Hinv. ring. }
      (* rho <= 1 *)
      rewrite Eg. apply Qcle_minus_iff. unfold c.
      match goal with |- 0 <= ?z => replace z with ((1 - rho) * (g3 * (gm - 1) * X * W i)) by ring end.
      apply Qcmul_nonneg; [apply Qcle_minus_iff in Hr1; exact Hr1|].
      apply Qcle_minus_iff in Hgm. apply Qcmul_nonneg; [|apply HW, Hi]. apply Qcmul_nonneg; [|exact HX].
      apply Qcmul_nonneg; [|exact Hgm]. apply Qcle_trans with 1; [discriminate|exact Hg3].
    Qed.
  End Row.
End Kernel.
