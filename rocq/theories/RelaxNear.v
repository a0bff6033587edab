(** * RelaxNear: what relaxation kernels compute from vectors near a solution, even
    if every read returns a different vector's entry *)
From Verif Require Import Base Alg Norms SRMatrix Async AsyncTheory AsyncSystem AsyncSweeps AsyncSets Nd Kernels KernelFacts
  IluApply IluApplyFacts TriSpec TriFacts IluApplyProofs IluApplyMain Sgs SgsFacts SgsProofs SgsForms SgsMain.

Section Near.
  Context {F : Type} {O : SOps F} {R : CRing F} {mag : F -> F} {le : F -> F -> Prop} {HM : Magnitude F mag le}.
  Add Ring Fr : cring.
  Open Scope s_scope.
  Infix "<=" := le : s_scope.

  (** sums over the columns outside block row [i] *)
  Definition off_sum (w n i : nat) (f : nat -> F) : F :=
    bsum n (fun c => if decide (c = i) then s0 else bsum w (fun q => f (c * w + q)%nat)).
  Lemma off_split w n i f : off_sum w n i f =
    bsum n (fun c => if decide (c < i)%nat then bsum w (fun q => f (c * w + q)%nat) else s0) +
    bsum n (fun c => if decide (i < c)%nat then bsum w (fun q => f (c * w + q)%nat) else s0).
  Proof.
    unfold off_sum. rewrite <- bsum_add. apply bsum_ext. intros c Hc.
    destruct (decide (c = i)), (decide (c < i)%nat), (decide (i < c)%nat); try lia; ring.
  Qed.

  (** within [r l] of [xs l] *)
  Definition near (N : nat) (xs r : nat -> F) (l : nat) (v : F) : Prop := (l < N)%nat /\ mag (v - xs l) <= r l.

  Lemma wp_sdot_near N xs r (vals : list F) colind lo hi init a0 e0 :
    (lo <= hi)%nat -> (hi <= length vals)%nat -> (hi <= length colind)%nat ->
    (forall j, (lo <= j < hi)%nat -> (colind !!! j < N)%nat) -> (forall l, (l < N)%nat -> s0 <= r l) ->
    mag (init - a0) <= e0 ->
    wp (near N xs r) nowr (sdot vals colind lo hi init) (fun a =>
      mag (a - (a0 + lsum (fun j => vat vals j * xs (colind !!! j)) (range lo hi))) <=
      e0 + lsum (fun j => mag (vat vals j) * r (colind !!! j)) (range lo hi)).
  Proof.
    intros Hle Hv Hc HN Hr H0. unfold sdot.
    apply (wp_pfor_post _ _ _ _ _ _ (fun k a =>
      mag (a - (a0 + lsum (fun j => vat vals j * xs (colind !!! j)) (range lo k))) <=
      e0 + lsum (fun j => mag (vat vals j) * r (colind !!! j)) (range lo k))); [lia| | |auto].
    - rewrite range_same. simpl. replace (a0 + s0) with a0 by ring. replace (e0 + s0) with e0 by ring. exact H0.
    - intros j a Hj Ha. apply wp_bind, wp_plift. rewrite vat_get by lia. cbn [ok].
      apply wp_bind, wp_plift. eapply ok_get; [apply list_lookup_lookup_total_lt; lia|].
      pose proof (HN j Hj) as Hcj. apply wp_bind, wp_pread.
      { exists (xs (colind !!! j)). split; [exact Hcj|]. rewrite mag_self. auto. }
      intros v [_ Hv']. cbn [wp]. rewrite !lsum_snoc_range by lia.
      match goal with |- le (mag ?x) ?y =>
        replace x with ((a - (a0 + lsum (fun j => vat vals j * xs (colind !!! j)) (range lo j))) + vat vals j * (v - xs (colind !!! j))) by ring;
        replace y with ((e0 + lsum (fun j => mag (vat vals j) * r (colind !!! j)) (range lo j)) + mag (vat vals j) * r (colind !!! j)) by ring end.
      eapply sle_trans; [apply mag_add|]. apply sle_add; [exact Ha|]. rewrite mag_mul. apply sle_mul; [apply mag_pos|exact Hv'].
  Qed.

  Lemma wp_bdot_near so bs N xs r (vals : list F) colind lo hi init (a0 e0 : nat -> F) :
    (lo <= hi)%nat -> (hi * (bs * bs) <= length vals)%nat -> (hi <= length colind)%nat -> length init = bs ->
    (forall j q, (lo <= j < hi)%nat -> (q < bs)%nat -> (colind !!! j * bs + q < N)%nat) -> (forall l, (l < N)%nat -> s0 <= r l) ->
    (forall p, (p < bs)%nat -> mag (vat init p - a0 p) <= e0 p) ->
    wp (near N xs r) nowr (bdot so bs vals colind lo hi init) (fun u => length u = bs /\
      forall p, (p < bs)%nat ->
      mag (vat u p - (a0 p + lsum (fun j => bsum bs (fun q => bent so bs vals j p q * xs (colind !!! j * bs + q)%nat)) (range lo hi))) <=
      e0 p + lsum (fun j => bsum bs (fun q => mag (bent so bs vals j p q) * r (colind !!! j * bs + q)%nat)) (range lo hi)).
  Proof.
    intros Hle Hv Hc Hi HN Hr H0. unfold bdot.
    apply (wp_pfor_post _ _ _ _ _ _ (fun k u => length u = bs /\ forall p, (p < bs)%nat ->
      mag (vat u p - (a0 p + lsum (fun j => bsum bs (fun q => bent so bs vals j p q * xs (colind !!! j * bs + q)%nat)) (range lo k))) <=
      e0 p + lsum (fun j => bsum bs (fun q => mag (bent so bs vals j p q) * r (colind !!! j * bs + q)%nat)) (range lo k))); [lia| | |auto].
    - split; [exact Hi|]. intros p Hp. rewrite range_same. simpl.
      replace (a0 p + s0) with (a0 p) by ring. replace (e0 p + s0) with (e0 p) by ring. auto.
    - intros j u Hj [Hu Ha]. apply wp_bind, wp_plift. eapply ok_get; [apply list_lookup_lookup_total_lt; lia|].
      set (c := colind !!! j) in *.
      apply wp_bind. eapply wp_post.
      { apply (wp_pmap _ _ _ _ (fun p b => mag (b - bsum bs (fun q => bent so bs vals j p q * xs (c * bs + q)%nat)) <=
          bsum bs (fun q => mag (bent so bs vals j p q) * r (c * bs + q)%nat))).
        intros k p Hk. assert (p = k /\ (k < bs)%nat) as [-> Hkb] by (apply lookup_seq in Hk; lia).
        apply (wp_pfor_post _ _ _ _ _ _ (fun m b => mag (b - bsum m (fun q => bent so bs vals j k q * xs (c * bs + q)%nat)) <=
          bsum m (fun q => mag (bent so bs vals j k q) * r (c * bs + q)%nat))); [lia| | |auto].
        - simpl. rewrite mag_self. apply sle_refl.
        - intros q acc Hq Hacc. pose proof (lay_lt so bs k q ltac:(lia) ltac:(lia)).
          apply wp_bind, wp_plift. rewrite vat_get by nia. cbn [ok]. pose proof (HN j q Hj ltac:(lia)) as Hcj. fold c in Hcj.
          apply wp_bind, wp_pread.
          { exists (xs (c * bs + q)%nat). split; [exact Hcj|]. rewrite mag_self. auto. }
          intros v [_ Hv']. replace (q + 1)%nat with (S q) by lia. cbn [bsum].
          change (vat vals (j * (bs * bs) + lay so bs k q)) with (bent so bs vals j k q).
          cbn [wp]. match goal with |- le (mag ?x) _ =>
            replace x with ((acc - bsum q (fun q => bent so bs vals j k q * xs (c * bs + q)%nat)) + bent so bs vals j k q * (v - xs (c * bs + q)%nat)) by ring end.
          eapply sle_trans; [apply mag_add|]. apply sle_add; [exact Hacc|]. rewrite mag_mul. apply sle_mul; [apply mag_pos|exact Hv']. }
      intros prod [Hpl Hpv]. rewrite seq_length in Hpl. simpl. split; [apply vadd_length; auto|].
      intros p Hp. rewrite !lsum_snoc_range by lia. rewrite vat_vadd by lia.
      specialize (Ha p Hp). specialize (Hpv p (vat prod p) (vat_Some prod p ltac:(lia))). fold c.
      match type of Ha with le (mag ?x) ?y => match type of Hpv with le (mag ?x') ?y' => match goal with |- le (mag ?X) ?Y =>
        replace X with (x + x') by ring; replace Y with (y + y') by ring end end end.
      eapply sle_trans; [apply mag_add|]. apply sle_add; [exact Ha|exact Hpv].
  Qed.

  (** ** The kernels *)
  Section Kernels.
    Variables (so : storage) (bs : nat) (M : srmat F) (d : list F).
    Hypothesis (Hw : wf_pat M) (Hd : wf_diag M) (Hs : wf_sorted M).
    Notation n := (nbrows M).
    Definition relax_near (w n : nat) (A : nat -> nat -> F) (dinv : nat -> nat -> nat -> F) (relaxC : list F -> nat -> @P F (list F)) : Prop :=
      forall b i xs r, length b = (n * w)%nat -> (i < n)%nat -> (forall l, (l < n * w)%nat -> s0 <= r l) ->
      wp (near (n * w) xs r) nowr (relaxC b i) (fun seg => length seg = w /\ exists t : nat -> F,
        (forall p, (p < w)%nat -> vat seg p = bsum w (fun k => dinv i p k * (vat b (i * w + k) - t k))) /\
        forall k, (k < w)%nat -> mag (t k - off_sum w n i (fun J => A (i * w + k)%nat J * xs J)) <=
          off_sum w n i (fun J => mag (A (i * w + k)%nat J) * r J)).

    Lemma scalar_off i (g : nat -> F -> F) : (i < n)%nat -> (forall c, g c s0 = s0) ->
      lsum (fun j => g (bcolind M !!! j) (vat (vals M) j)) (range (rp M i) (dg M i)) +
      lsum (fun j => g (bcolind M !!! j) (vat (vals M) j)) (range (dg M i + 1) (rp M (i + 1))) =
      off_sum 1 n i (fun J => g J (dense M i J)).
    Proof.
      intros Hi Hg. rewrite off_split. rewrite (low_row_sum M Hw Hd Hs i _ Hi), (up_row_sum M Hw Hd Hs i _ Hi).
      f_equal; apply bsum_ext; intros c Hc; cbn [bsum]; rewrite Nat.mul_1_r, Nat.add_0_r; unfold dense;
        (destruct (decide _); [|reflexivity]); (destruct (pos M i c) as [j|] eqn:E; [|rewrite Hg; ring]);
        (assert (col M j = c) as Ec by (apply pos_Some in E as [_ E]; done)); unfold col in Ec; rewrite Ec; unfold vat; ring.
    Qed.
    Lemma scalar_relax_near : length (vals M) = nnz M -> length d = n ->
      relax_near 1 n (dense M) (sdinv d) (scalar_relaxC M d).
    Proof.
      intros Hl Hdl b i xs r Hb Hi Hr. pose proof (row_bounds M Hw Hd i Hi) as Hbd. unfold scalar_relaxC.
      rewrite (proj2 (get_Some _ _ _) (wf_browptr M i Hw ltac:(lia))).
      rewrite (proj2 (get_Some _ _ _) (wf_diagind M i Hd Hi)).
      rewrite (proj2 (get_Some _ _ _) (wf_browptr M (i + 1) Hw ltac:(lia))).
      rewrite (vat_get d), (vat_get b) by lia. cbn [plift pbind]. unfold scalar_relax.
      assert (forall j, (j < nnz M)%nat -> (bcolind M !!! j < n * 1)%nat) as Hcol.
      { intros j Hj. pose proof (wf_col M Hw j Hj) as H. unfold col in H. lia. }
      apply wp_bind, wp_bind. eapply wp_post.
      { apply (wp_sdot_near (n * 1) xs r _ _ _ _ _ s0 s0); [lia|lia|rewrite (wf_clen M Hw); lia| |exact Hr|].
        - intros j Hj. apply Hcol. lia.
        - rewrite mag_self. apply sle_refl. }
      intros a Ha. cbn beta in Ha. apply wp_bind. eapply wp_post.
      { eapply (wp_sdot_near (n * 1) xs r _ _ _ _ _); [lia|lia|rewrite (wf_clen M Hw); lia| |exact Hr|exact Ha].
        intros j Hj. apply Hcol. lia. }
      intros a' Ha'. cbn beta in Ha'. cbn [wp]. split; [reflexivity|]. exists (fun _ => a'). split.
      - intros p Hp. replace p with 0%nat by lia. simpl. unfold vat at 1. simpl. unfold sdinv.
        rewrite Nat.mul_1_r, Nat.add_0_r. ring.
      - intros k Hk. replace k with 0%nat by lia. rewrite Nat.mul_1_r, Nat.add_0_r.
        rewrite <- (scalar_off i (fun J a => a * xs J)) by (auto; intros; ring).
        rewrite <- (scalar_off i (fun J a => mag a * r J)) by (auto; intros; rewrite mag_0; ring).
        match type of Ha' with le (mag ?x) ?y => match goal with |- le (mag ?X) ?Y => replace X with x by ring; replace Y with y by ring end end.
        exact Ha'.
    Qed.

    Lemma block_off i k (g : nat -> F -> F) : (i < n)%nat -> (k < bs)%nat -> (forall c, g c s0 = s0) ->
      lsum (fun j => bsum bs (fun q => g (bcolind M !!! j * bs + q)%nat (bent so bs (vals M) j k q))) (range (rp M i) (dg M i)) +
      lsum (fun j => bsum bs (fun q => g (bcolind M !!! j * bs + q)%nat (bent so bs (vals M) j k q))) (range (dg M i + 1) (rp M (i + 1))) =
      off_sum bs n i (fun J => g J (bdense so bs M (i * bs + k) J)).
    Proof.
      intros Hi Hk Hg. rewrite off_split. rewrite (low_row_sum M Hw Hd Hs i _ Hi), (up_row_sum M Hw Hd Hs i _ Hi).
      f_equal; apply bsum_ext; intros c Hc; (destruct (decide _); [|reflexivity]);
        (destruct (pos M i c) as [j|] eqn:E;
          [assert (col M j = c) as Ec by (apply pos_Some in E as [_ E]; done); unfold col in Ec; rewrite Ec|symmetry; apply bsum_zero]);
        try apply bsum_ext; intros q Hq; change (bdense so bs M) with (bentry so bs M (vals M));
        rewrite bentry_flat by done; rewrite E; auto.
    Qed.
    Lemma block_relax_near : length (vals M) = (nnz M * (bs * bs))%nat -> length d = (n * (bs * bs))%nat ->
      relax_near bs n (bdense so bs M) (bdinv so bs d) (block_relaxC so bs M d).
    Proof.
      intros Hl Hdl b i xs r Hb Hi Hr. pose proof (row_bounds M Hw Hd i Hi) as Hbd. unfold block_relaxC.
      rewrite (proj2 (get_Some _ _ _) (wf_browptr M i Hw ltac:(lia))).
      rewrite (proj2 (get_Some _ _ _) (wf_diagind M i Hd Hi)).
      rewrite (proj2 (get_Some _ _ _) (wf_browptr M (i + 1) Hw ltac:(lia))).
      destruct (getseg_val bs b i) as (rhs & -> & Hrl & Hrv); [nia|].
      cbn [plift pbind]. unfold block_relax_kernel.
      assert (forall j q, (j < nnz M)%nat -> (q < bs)%nat -> (bcolind M !!! j * bs + q < n * bs)%nat) as Hcol.
      { intros j q Hj Hq. pose proof (wf_col M Hw j Hj) as H. unfold col in H. nia. }
      apply wp_bind. eapply wp_post.
      { apply (wp_bdot_near so bs (n * bs) xs r _ _ _ _ _ (fun _ => s0) (fun _ => s0)); [lia|nia|rewrite (wf_clen M Hw); lia| | |exact Hr|].
        - apply bzero_length.
        - intros j q Hj Hq. apply Hcol; lia.
        - intros p Hp. rewrite vat_bzero by done. rewrite mag_self. apply sle_refl. }
      intros a [Hal Ha]. apply wp_bind. eapply wp_post.
      { apply (wp_bdot_near so bs (n * bs) xs r _ _ _ _ _ 
          (fun p => s0 + lsum (fun j => bsum bs (fun q => bent so bs (vals M) j p q * xs (bcolind M !!! j * bs + q)%nat)) (range (rp M i) (dg M i)))
          (fun p => s0 + lsum (fun j => bsum bs (fun q => mag (bent so bs (vals M) j p q) * r (bcolind M !!! j * bs + q)%nat)) (range (rp M i) (dg M i)))); [lia|nia|rewrite (wf_clen M Hw); lia|exact Hal| |exact Hr|exact Ha].
        intros j q Hj Hq. apply Hcol; lia. }
      intros a' [Hal' Ha'].
      destruct (ok_bmatvec_val so bs d (i * (bs * bs)) (vsub rhs a')) as (u & -> & Hul & Huv); [nia|apply vsub_length; auto|].
      cbn [plift wp]. split; [exact Hul|]. exists (fun k => vat a' k). split.
      - intros p Hp. rewrite Huv by done. apply bsum_ext. intros k Hk. unfold bdinv, bent, vat at 1. f_equal.
        rewrite vat_vsub by lia. rewrite Hrv by done. reflexivity.
      - intros k Hk. rewrite <- (block_off i k (fun J a => a * xs J)) by (auto; intros; ring).
        rewrite <- (block_off i k (fun J a => mag a * r J)) by (auto; intros; rewrite mag_0; ring).
        specialize (Ha' k Hk).
        match type of Ha' with le (mag ?x) ?y => match goal with |- le (mag ?X) ?Y => replace X with x by ring; replace Y with y by ring end end.
        exact Ha'.
    Qed.
  End Kernels.
End Near.
