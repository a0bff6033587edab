(** * PropPattern: sorting, scanning and the positions of the ILU products *)
From Verif Require Import Base Alg SRMatrix Helpers IluPattern IluPatternFacts Inst.

(** ** C23: sorting a block row *)
(** block [k] (of [bb] values) of an array *)
Definition block {V} (bb : nat) (vals : list V) (k : nat) : list V := take bb (drop (k * bb) vals).
(** the N index-block pairs of the row that starts at position [base] *)
Definition row_pairs {V} (bb N base : nat) (colind : list nat) (vals : list V) : list (nat * list V) :=
  (fun k => (colind !!! (base + k), block bb vals (base + k))) <$> seq 0 N.

Theorem C23_sort_row {V} (bb N base : nat) (colind : list nat) (vals : list V) :
  base + N <= length colind -> (base + N) * bb <= length vals ->
  exists colind' vals', sort_inner bb N base (colind, vals) = Ok (colind', vals') /\
    (* the row's indices increase *)
    (forall k k', k <= k' -> k' < N -> colind' !!! (base + k) <= colind' !!! (base + k')) /\
    (* the row has the same index-block pairs *)
    row_pairs bb N base colind' vals' ≡ₚ row_pairs bb N base colind vals /\
    (* the rest of the arrays is untouched *)
    length colind' = length colind /\ length vals' = length vals /\
    (forall x, x < base \/ base + N <= x -> colind' !! x = colind !! x) /\
    (forall x, x < base * bb \/ (base + N) * bb <= x -> vals' !! x = vals !! x).
Proof.
  intros Hc Hv. pose proof (sort_inner_spec bb N base colind vals Hc Hv) as H.
  apply ok_inv in H as ([c' v'] & E & f & Hf & Hinj & (Hc1 & Hc2 & Hc3) & (Hv1 & Hv2 & Hv3) & Hs).
  exists c', v'. split; [exact E|]. split; [exact Hs|]. split; [|split; [exact Hc1|split; [exact Hv1|split; [|exact Hv3]]]].
  2: { intros x Hx. apply Hc3. lia. }
  assert (row_pairs bb N base c' v' = (fun k => (colind !!! (base + k), block bb vals (base + k))) <$> (f <$> seq 0 N)) as ->.
  { unfold row_pairs. rewrite <- list_fmap_compose. apply list_fmap_ext. intros i k Hk. apply lookup_seq in Hk as [-> Hk].
    simpl. f_equal.
    - specialize (Hc2 i 0 Hk ltac:(lia)). rewrite !Nat.mul_1_r, !Nat.add_0_r in Hc2.
      rewrite !list_lookup_total_alt, Hc2. reflexivity.
    - unfold block. apply list_eq. intros e. specialize (Hf i Hk). destruct (decide (e < bb)) as [He|He].
      + rewrite !lookup_take, !lookup_drop by lia. apply Hv2; auto.
      + rewrite !lookup_take_ge by lia. reflexivity. }
  unfold row_pairs. apply fmap_Permutation.
  apply submseteq_Permutation_length_eq; [rewrite fmap_length, seq_length; lia|].
  apply NoDup_submseteq.
  - apply NoDup_fmap_2_strong; [|apply NoDup_seq]. intros x y Hx Hy. apply elem_of_seq in Hx, Hy. apply Hinj; lia.
  - intros x Hx. apply elem_of_list_fmap in Hx as (y & -> & Hy). apply elem_of_seq in Hy. apply elem_of_seq.
    specialize (Hf y ltac:(lia)). lia.
Qed.
(** example: the middle three entries of a row array are sorted with their 2-blocks *)
Example C23_case : sort_inner 2 3 1 ([9; 7; 2; 5; 0], [0; 0; 1; 2; 3; 4; 5; 6; 0; 0]) =
  Ok ([9; 2; 5; 7; 0], [0; 0; 3; 4; 5; 6; 1; 2; 0; 0]).
Proof. reflexivity. Qed.

(** ** C24: running sums *)
Theorem C24_inclusive_scan (v : list nat) :
  exists v', inclusive_scan v = Ok v' /\ length v' = length v /\
    forall i, i < length v -> v' !! i = Some (foldr Nat.add 0 (take (i + 1) v)).
Proof. pose proof (inclusive_scan_spec v) as H. apply ok_inv in H as (v' & E & H1 & H2). eauto. Qed.
Theorem C24_inclusive_scan_copy (v : list nat) :
  exists v', inclusive_scan_copy v = Ok v' /\ length v' = length v /\
    forall i, i < length v -> v' !! i = Some (foldr Nat.add 0 (take (i + 1) v)).
Proof. exact (C24_inclusive_scan v). Qed.
Example C24_case : inclusive_scan [0; 3; 1; 0; 2] = Ok [0; 3; 4; 4; 6]. Proof. reflexivity. Qed.

(** ** C27: the ILU positions
    For the entry at position [j], in row [i] and column [c], the pairs
    (lowerp[e], upperp[e]), posptr[j] <= e < posptr[j+1], are the positions of
    (i,t), (t,c) for the t < min(i,c) such that both are stored, by increasing t. *)
Theorem C27_ILU_positions {A} (M : srmat A) : wf_pat M -> wf_diag M -> wf_sorted M ->
  exists P, compute_ILU_positions M = Ok P /\
    length (posptr P) = nnz M + 1 /\ posptr P !! 0 = Some 0 /\
    posptr P !! nnz M = Some (length (lowerp P)) /\ length (upperp P) = length (lowerp P) /\
    forall i j, inrow M i j -> exists b e,
      posptr P !! j = Some b /\ posptr P !! (j + 1) = Some e /\ b <= e <= length (lowerp P) /\
      (forall k p, (exists x, b <= x < e /\ lowerp P !! x = Some k /\ upperp P !! x = Some p) <->
                   (exists t, t < i /\ t < col M j /\ pos M i t = Some k /\ pos M t (col M j) = Some p)) /\
      (forall x x' k k', b <= x -> x < x' -> x' < e -> lowerp P !! x = Some k -> lowerp P !! x' = Some k' ->
         col M k < col M k').
Proof.
  intros Hw Hd Hs. exists (positions M). split; [apply compute_ILU_positions_spec; auto|].
  split; [simpl; rewrite fmap_length, seq_length; reflexivity|].
  split; [rewrite positions_ptr by lia; reflexivity|].
  split; [rewrite positions_ptr by lia; simpl; rewrite fmap_length; reflexivity|].
  split; [simpl; rewrite !fmap_length; reflexivity|].
  intros i j Hj. pose proof (inrow_lt M i j Hw Hj) as Hjl.
  exists (length (allterms M j)), (length (allterms M (j + 1))).
  assert (rowof M j = i) as Hrow by (apply rowof_inrow; auto).
  assert (forall x, length (allterms M j) <= x < length (allterms M (j + 1)) ->
    exists k p, tms M j !! (x - length (allterms M j)) = Some (k, p) /\
      lowerp (positions M) !! x = Some k /\ upperp (positions M) !! x = Some p) as Hseg.
  { intros x Hx. rewrite allterms_next in Hx.
    destruct (lookup_lt_is_Some_2 (tms M j) (x - length (allterms M j))) as [[k p] Hkp]; [lia|].
    destruct (positions_lookup M j _ k p Hjl Hkp) as [H1 H2].
    replace (length (allterms M j) + (x - length (allterms M j))) with x in H1, H2 by lia. eauto. }
  split; [apply positions_ptr; lia|]. split; [apply positions_ptr; lia|].
  split.
  { split; [rewrite allterms_next; lia|]. simpl. rewrite fmap_length.
    replace (nnz M) with (j + 1 + (nnz M - (j + 1))) by lia. apply allterms_mono. }
  split.
  - intros k p. split.
    + intros (x & Hx & Hk & Hp). destruct (Hseg x Hx) as (k' & p' & Ht & Hk' & Hp').
      assert (k' = k) by congruence. assert (p' = p) by congruence. subst.
      apply elem_of_list_lookup_2, (elem_tms M Hw Hs) in Ht; auto.
    + rewrite <- Hrow. intros H. apply (elem_tms M Hw Hs) in H; auto.
      apply elem_of_list_lookup in H as (e & He). exists (length (allterms M j) + e).
      split; [rewrite allterms_next; apply lookup_lt_Some in He; lia|]. apply positions_lookup; auto.
  - intros x x' k k' Hx Hxx Hx' Hk Hk'.
    destruct (Hseg x ltac:(lia)) as (k1 & p1 & Ht & Hk1 & _). destruct (Hseg x' ltac:(lia)) as (k2 & p2 & Ht' & Hk2 & _).
    assert (k1 = k) by congruence. assert (k2 = k') by congruence. subst.
    assert (k < k') as Hlt by (eapply (tms_sorted M j); [|exact Ht|exact Ht']; lia).
    assert (forall a b, (a, b) ∈ tms M j -> inrow M (rowof M j) a) as Hin.
    { intros a b H. apply (elem_tms M Hw Hs) in H as (t & _ & _ & Hp & _); auto.
      apply pos_Some in Hp as [Hp _]; [exact Hp|apply Hj]. }
    apply elem_of_list_lookup_2, Hin in Ht. apply elem_of_list_lookup_2, Hin in Ht'.
    apply (Hs (rowof M j)); [apply Ht|apply Ht|exact Hlt|apply Ht'].
Qed.
(** a dense 3x3 pattern: entry (2,2) (position 8) needs (2,0),(0,2) and (2,1),(1,2) *)
Definition dense3 : srmat nat :=
  SR [0; 3; 6; 9] [0; 1; 2; 0; 1; 2; 0; 1; 2] [] [0; 4; 8] [3; 6; 9] 3 9 9.
Example C27_case :
  wf_pat dense3 /\ wf_diag dense3 /\ wf_sorted dense3 /\
  compute_ILU_positions dense3 = Ok (IluPos [0; 0; 0; 0; 0; 1; 2; 2; 3; 5] [3; 3; 6; 6; 7] [1; 2; 1; 2; 5]).
Proof.
  split; [apply wfb_pat_ok; reflexivity|]. split; [apply wfb_diag_ok; reflexivity|].
  split; [apply wfb_sorted_ok; reflexivity|]. reflexivity.
Qed.

Print Assumptions C23_sort_row.
Print Assumptions C24_inclusive_scan.
Print Assumptions C24_inclusive_scan_copy.
Print Assumptions C27_ILU_positions.
