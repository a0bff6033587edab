(** * IntRangeFacts: lemmas for IntRange.v *)
From Coq Require Import ZArith.
From Verif Require Import Base SRMatrix Helpers IluPattern IluPatternFacts IntRange TripleSpec.
Open Scope nat_scope.

(** ** Lists *)
Lemma nodup_bind {A B} (f : A -> list B) (l : list A) :
  NoDup l -> (forall x, x ∈ l -> NoDup (f x)) ->
  (forall x y z, x ∈ l -> y ∈ l -> z ∈ f x -> z ∈ f y -> x = y) -> NoDup (l ≫= f).
Proof.
  induction l as [|a l IH]; intros Hl Hf Hi; [constructor|]. apply NoDup_cons in Hl as [Ha Hl].
  change ((a :: l) ≫= f) with (f a ++ (l ≫= f)). apply NoDup_app. split; [|split].
  - apply Hf. left.
  - intros z Hz Hz'. apply elem_of_list_bind in Hz' as (y & Hzy & Hy).
    rewrite (Hi a y z) in Ha; auto; [left|right; exact Hy].
  - apply IH; auto.
    + intros x Hx. apply Hf. right; exact Hx.
    + intros x y z Hx Hy. apply Hi; right; auto.
Qed.
Lemma length_bind {A B} (f : A -> list B) (l : list A) : length (l ≫= f) = sum_list_with (fun x => length (f x)) l.
Proof. induction l as [|a l IH]; [reflexivity|]. change ((a :: l) ≫= f) with (f a ++ (l ≫= f)). rewrite app_length, IH. reflexivity. Qed.
Lemma sum_list_ext {A} (f g : A -> nat) (l : list A) : (forall x, x ∈ l -> f x = g x) -> sum_list_with f l = sum_list_with g l.
Proof. induction l as [|a l IH]; intros H; simpl; [reflexivity|]. rewrite (H a) by left. rewrite IH; auto. intros x Hx. apply H. right; exact Hx. Qed.
Lemma sum_list_le {A} (f : A -> nat) b (l : list A) : (forall x, x ∈ l -> f x <= b) -> sum_list_with f l <= length l * b.
Proof. induction l as [|a l IH]; intros H; simpl; [lia|]. pose proof (H a ltac:(left)). specialize (IH ltac:(intros x Hx; apply H; right; exact Hx)). lia. Qed.

(** ** The number of pairs is the number of triples *)
Section Count.
  Context {A : Type} (M : srmat A).
  Hypotheses (Hw : wf_pat M) (Hd : wf_diag M) (Hs : wf_sorted M).
  Let Hn : wf_nodup M := sorted_nodup M Hs.

  Lemma stored_pos i c : i < nbrows M -> stored M i c <-> exists j, inrow M i j /\ col M j = c.
  Proof.
    intros Hi. unfold stored. rewrite elem_of_list_fmap. split.
    - intros (j & -> & Hj). apply elem_of_range in Hj. exists j. split; [split; auto|reflexivity].
    - intros (j & [_ Hj] & <-). exists j. split; [reflexivity|]. apply elem_of_range. exact Hj.
  Qed.
  Definition tagged : list (nat * (nat * nat)) := j ← seq 0 (nnz M); (fun kp => (j, kp)) <$> tms M j.
  Lemma elem_tagged j k p : (j, (k, p)) ∈ tagged <-> j < nnz M /\ (k, p) ∈ tms M j.
  Proof.
    unfold tagged. rewrite elem_of_list_bind. split.
    - intros (j' & Hx & Hj). apply elem_of_list_fmap in Hx as (kp & [= -> <-] & Hkp). apply elem_of_seq in Hj.
      split; [lia|exact Hkp].
    - intros [Hj H]. exists j. split; [apply elem_of_list_fmap; eauto|apply elem_of_seq; lia].
  Qed.
  Lemma length_tagged : length tagged = length (allterms M (nnz M)).
  Proof.
    unfold tagged. rewrite length_bind. rewrite <- foldr_lengths.
    induction (seq 0 (nnz M)) as [|a l IH]; [reflexivity|]. simpl. rewrite fmap_length, IH. reflexivity.
  Qed.
  Lemma nodup_tagged : NoDup tagged.
  Proof.
    apply nodup_bind; [apply NoDup_seq| |].
    - intros j Hj. apply elem_of_seq in Hj. apply NoDup_fmap_2; [intros x y [= ->]; reflexivity|].
      apply (NoDup_fmap_1 fst). apply (terms_keys M Hs). apply (inrow_rowof M j Hw). lia.
    - intros x y z _ _ Hx Hy. apply elem_of_list_fmap in Hx as (a & -> & _), Hy as (b & [= -> _] & _). reflexivity.
  Qed.
  Definition triple_of (x : nat * (nat * nat)) : nat * nat * nat := (rowof M x.1, col M x.2.1, col M x.1).
  Lemma elem_all_triples n i t c : (i, t, c) ∈ all_triples n <-> t < i < n /\ t < c < n.
  Proof.
    unfold all_triples. rewrite elem_of_list_bind. split.
    - intros (t' & Hx & Ht). apply elem_of_list_bind in Hx as (i' & Hx & Hi). apply elem_of_list_bind in Hx as (c' & Hx & Hc).
      apply elem_of_list_singleton in Hx as [= -> -> ->]. apply elem_of_range in Hi, Hc. lia.
    - intros [Hi Hc]. exists t. split; [|apply elem_of_seq; lia].
      apply elem_of_list_bind. exists i. split; [|apply elem_of_range; lia].
      apply elem_of_list_bind. exists c. split; [apply elem_of_list_singleton; reflexivity|apply elem_of_range; lia].
  Qed.
  Lemma nodup_all_triples n : NoDup (all_triples n).
  Proof.
    unfold all_triples. apply nodup_bind; [apply NoDup_seq| |].
    - intros t _. apply nodup_bind; [apply NoDup_range| |].
      + intros i _. apply nodup_bind; [apply NoDup_range| |].
        * intros c _. apply NoDup_singleton.
        * intros x y z _ _ Hx Hy. apply elem_of_list_singleton in Hx, Hy. subst z. congruence.
      + intros x y z _ _ Hx Hy. apply elem_of_list_bind in Hx as (? & Hx & _), Hy as (? & Hy & _).
        apply elem_of_list_singleton in Hx, Hy. subst z. congruence.
    - intros x y z _ _ Hx Hy. apply elem_of_list_bind in Hx as (? & Hx & _), Hy as (? & Hy & _).
      apply elem_of_list_bind in Hx as (? & Hx & _), Hy as (? & Hy & _).
      apply elem_of_list_singleton in Hx, Hy. subst z. congruence.
  Qed.
  Lemma elem_triples i t c : (i, t, c) ∈ triples M <->
    t < i < nbrows M /\ t < c < nbrows M /\ stored M i t /\ stored M t c /\ stored M i c.
  Proof. unfold triples. rewrite elem_of_list_filter, elem_all_triples. simpl. tauto. Qed.
  Lemma count_triples : length (allterms M (nnz M)) = ntriples M.
  Proof.
    rewrite <- length_tagged. unfold ntriples. rewrite <- (fmap_length triple_of). apply Permutation_length.
    apply NoDup_Permutation.
    - apply NoDup_fmap_2_strong; [|apply nodup_tagged]. intros [j [k p]] [j' [k' p']] H H' [= E1 E2 E3].
      apply elem_tagged in H as [Hj H], H' as [Hj' H']. simpl in *.
      apply (elem_tms M Hw Hs) in H as (t & _ & _ & Hk & Hp); [|exact Hj].
      apply (elem_tms M Hw Hs) in H' as (t' & _ & _ & Hk' & Hp'); [|exact Hj'].
      pose proof (inrow_rowof M j Hw Hj) as Hr. pose proof (inrow_rowof M j' Hw Hj') as Hr'.
      apply pos_Some in Hk as Hk2; [|apply Hr]. apply pos_Some in Hk' as Hk2'; [|apply Hr'].
      destruct Hk2 as [_ <-], Hk2' as [_ <-].
      assert (j = j') as <-. { apply (Hn (rowof M j)); auto; [apply Hr|]. rewrite E1. exact Hr'. }
      rewrite <- E2 in Hk', Hp'. congruence.
    - apply NoDup_filter, nodup_all_triples.
    - intros [[i t] c]. rewrite elem_triples, elem_of_list_fmap. split.
      + intros ([j [k p]] & [= -> -> ->] & H). apply elem_tagged in H as [Hj H].
        apply (elem_tms M Hw Hs) in H as (t & Ht1 & Ht2 & Hk & Hp); [|exact Hj].
        pose proof (inrow_rowof M j Hw Hj) as Hr. pose proof (wf_col M Hw j Hj).
        pose proof (proj1 Hr).
        apply pos_Some in Hk as [Hk Ek]; [|apply Hr]. apply pos_Some in Hp as [Hp Ep]; [|lia].
        simpl. rewrite Ek. rewrite !stored_pos by lia. repeat split; try lia; eauto.
      + intros (H1 & H2 & S1 & S2 & S3). rewrite stored_pos in S1, S2, S3 by lia.
        destruct S1 as (k & Hk & Ek), S2 as (p & Hp & Ep), S3 as (j & Hj & Ej).
        exists (j, (k, p)). unfold triple_of. simpl. rewrite (rowof_inrow M i j Hw Hj), Ek, Ej. split; [reflexivity|].
        pose proof (inrow_lt M i j Hw Hj) as Hjl. apply elem_tagged. split; [exact Hjl|].
        apply (elem_tms M Hw Hs); [exact Hjl|]. exists t. rewrite (rowof_inrow M i j Hw Hj), Ej.
        split; [lia|]. split; [lia|]. split.
        * rewrite <- Ek. apply pos_of; auto.
        * rewrite <- Ep. apply pos_of; auto.
  Qed.
  (** a row with [w] entries has at most [w - 1] before the diagonal *)
  Lemma length_tms j w : j < nnz M -> (forall i, i < nbrows M -> rp M (i + 1) - rp M i <= w) -> length (tms M j) <= w - 1.
  Proof.
    intros Hj Hwd. pose proof (inrow_rowof M j Hw Hj) as Hr. pose proof (proj1 Hr) as Hi.
    destruct (terms_keys M Hs (rowof M j) (col M j) Hi) as [Hnd _].
    assert ((terms M (rowof M j) (col M j)).*1 ⊆ range (rp M (rowof M j)) (dg M (rowof M j))) as Hsub.
    { intros k Hk. apply elem_of_list_fmap in Hk as ([k' p] & -> & H). simpl.
      apply (elem_terms M Hs) in H as (t & Ht & _ & Hk & _); [|exact Hi|apply (wf_col M Hw); exact Hj].
      apply pos_Some in Hk as [Hk Ek]; [|exact Hi]. apply elem_of_range. split; [apply Hk|].
      destruct (decide (k' < dg M (rowof M j))); [auto|]. exfalso.
      destruct Hd as [_ Hd']. destruct (Hd' (rowof M j) Hi) as [Hd1 Hd2].
      destruct (decide (k' = dg M (rowof M j))) as [->|]; [lia|].
      pose proof (Hs (rowof M j) (dg M (rowof M j)) k' Hi (proj1 Hd1) ltac:(lia) (proj2 (proj2 Hk))). lia. }
    apply NoDup_submseteq in Hsub; [|exact Hnd]. apply submseteq_length in Hsub.
    unfold range in Hsub. rewrite fmap_length, seq_length in Hsub. unfold tms.
    destruct Hd as [_ Hd']. destruct (Hd' (rowof M j) Hi) as [Hd1 Hd2].
    specialize (Hwd (rowof M j) Hi). lia.
  Qed.
  Lemma triples_bound w : (forall i, i < nbrows M -> rp M (i + 1) - rp M i <= w) -> ntriples M <= nnz M * (w - 1).
  Proof.
    intros Hwd. rewrite <- count_triples, <- foldr_lengths.
    transitivity (length (seq 0 (nnz M)) * (w - 1)); [|rewrite seq_length; lia].
    assert (forall l, (forall j, j ∈ l -> j < nnz M) -> foldr Nat.add 0 ((fun j => length (tms M j)) <$> l) <= length l * (w - 1)) as H.
    { induction l as [|a l IH]; intros Hl; [simpl; lia|]. rewrite fmap_cons. cbn [foldr length].
      pose proof (length_tms a w (Hl a ltac:(left)) Hwd). specialize (IH ltac:(intros j Hj; apply Hl; right; exact Hj)). lia. }
    apply H. intros j Hj. apply elem_of_seq in Hj. lia.
  Qed.
  Lemma length_tms_nnz j : j < nnz M -> length (tms M j) <= nnz M.
  Proof.
    intros Hj. etransitivity; [apply (length_tms j (nnz M)); [exact Hj|]|lia].
    intros i Hi. pose proof (rp_mono M (i + 1) (nbrows M) Hw ltac:(lia) ltac:(lia)). unfold nnz. lia.
  Qed.
End Count.

(** ** Arithmetic *)
Lemma to_int_id (z : Z) : (0 <= z <= INT_MAX)%Z -> to_int z = z.
Proof. intros H. unfold to_int, INT_MAX, INT_MIN in *. rewrite Z.mod_small by lia. lia. Qed.
Lemma to_size_id (z : Z) : (0 <= z < 2 ^ 64)%Z -> to_size z = z.
Proof. intros H. unfold to_size. apply Z.mod_small. exact H. Qed.
Lemma int_add_ok (a b : Z) : (0 <= a + b <= INT_MAX)%Z -> int_add a b = Ok (a + b)%Z.
Proof.
  intros H. unfold int_add, fits. rewrite (proj2 (Z.leb_le INT_MIN (a + b))), (proj2 (Z.leb_le (a + b) INT_MAX)); [reflexivity|lia|].
  unfold INT_MIN. lia.
Qed.
Lemma int_add_ub (a b : Z) : (INT_MAX < a + b)%Z -> int_add a b = UB.
Proof. intros H. unfold int_add, fits. rewrite (proj2 (Z.leb_gt (a + b) INT_MAX)) by lia. rewrite andb_false_r. reflexivity. Qed.
Lemma accumulate_int_spec (l : list nat) : (Z.of_nat (foldr Nat.add 0%nat l) <= INT_MAX)%Z -> accumulate_int l = Z.of_nat (foldr Nat.add 0%nat l).
Proof.
  unfold accumulate_int. intros H.
  assert (forall (l : list nat) (a : nat), (Z.of_nat (a + foldr Nat.add 0%nat l) <= INT_MAX)%Z ->
    foldl (fun acc x => to_int (to_size (to_size acc + Z.of_nat x))) (Z.of_nat a) l = Z.of_nat (a + foldr Nat.add 0%nat l)) as HH.
  { clear. induction l as [|x l IH]; intros a H; cbn [foldl foldr] in *.
    - f_equal. lia.
    - assert (2 ^ 64 = 18446744073709551616)%Z as E64 by reflexivity.
      unfold INT_MAX in H. rewrite (to_size_id (Z.of_nat a)) by lia. rewrite to_size_id by lia.
      rewrite to_int_id by (unfold INT_MAX; lia). rewrite <- Nat2Z.inj_add. rewrite IH; [f_equal; lia|unfold INT_MAX; lia]. }
  apply (HH l 0). exact H.
Qed.

Definition scan_body (i : nat) (v : list Z) : res (list Z) :=
  let! a := get v i in
  let! b := get v (i - 1) in
  let! c := int_add a b in
  set v i c.
Lemma scan_prefix (v : list nat) m : 1 <= m -> m <= length v -> (Z.of_nat (psum v m) <= INT_MAX)%Z ->
  ok (for_ 1 m scan_body (Z.of_nat <$> v)) (fun v' => length v' = length v /\
    (forall k, k < m -> v' !! k = Some (Z.of_nat (psum v (k + 1)))) /\ forall k, m <= k -> v' !! k = Z.of_nat <$> v !! k).
Proof.
  intros H1 Hm Hp.
  apply ok_for_post with (I := fun i v' => length v' = length v /\
    (forall k, k < i -> v' !! k = Some (Z.of_nat (psum v (k + 1)))) /\ forall k, i <= k -> v' !! k = Z.of_nat <$> v !! k);
    [exact H1| | |auto].
  - split; [apply fmap_length|]. split.
    + intros k Hk. replace k with 0 by lia. destruct (lookup_lt_is_Some_2 v 0) as [a Ha]; [lia|].
      rewrite (psum_S v 0 a Ha), list_lookup_fmap, Ha. reflexivity.
    + intros k Hk. apply list_lookup_fmap.
  - intros i v' Hi (L & Hlo & Hhi). destruct (lookup_lt_is_Some_2 v i) as [a Ha]; [lia|].
    unfold scan_body.
    eapply ok_bind; [eapply ok_get; [rewrite Hhi, Ha by lia; reflexivity|exact eq_refl]|]. intros ? <-.
    eapply ok_bind; [eapply ok_get; [apply Hlo; lia|exact eq_refl]|]. intros ? <-.
    replace (i - 1 + 1) with i by lia.
    pose proof (psum_S v i a Ha) as HS. pose proof (psum_mono v (i + 1) m ltac:(lia)) as Hmo.
    rewrite int_add_ok by lia. cbn [bind].
    apply ok_set; [lia|]. split; [rewrite insert_length; exact L|]. split.
    + intros k Hk. destruct (decide (k = i)) as [->|].
      * rewrite list_lookup_insert by lia. f_equal. rewrite HS. lia.
      * rewrite list_lookup_insert_ne by lia. apply Hlo. lia.
    + intros k Hk. rewrite list_lookup_insert_ne by lia. apply Hhi. lia.
Qed.
Lemma psum_all (v : list nat) m : length v <= m -> psum v m = foldr Nat.add 0%nat v.
Proof. intros H. unfold psum. rewrite take_ge by lia. reflexivity. Qed.
Lemma scan_int_ok (v : list nat) : (Z.of_nat (foldr Nat.add 0%nat v) <= INT_MAX)%Z ->
  inclusive_scan_int (Z.of_nat <$> v) = Ok ((fun i => Z.of_nat (psum v (i + 1))) <$> seq 0 (length v)).
Proof.
  intros H. unfold inclusive_scan_int. fold scan_body. rewrite fmap_length.
  destruct (decide (length v = 0)) as [E|Hne].
  { rewrite for_empty by lia. apply nil_length_inv in E. subst v. reflexivity. }
  pose proof (scan_prefix v (length v) ltac:(lia) ltac:(lia)) as HS.
  rewrite psum_all in HS by lia. specialize (HS H). apply ok_inv in HS as (v' & E & L & HS & _).
  change (for_ 1 (length v) scan_body (Z.of_nat <$> v) = Ok ((fun i => Z.of_nat (psum v (i + 1))) <$> seq 0 (length v))).
  rewrite E. f_equal. apply list_eq_lt; [rewrite fmap_length, seq_length; lia|]. intros i Hi. rewrite HS by lia.
  rewrite list_lookup_fmap, lookup_seq_lt by lia. reflexivity.
Qed.
Lemma for_split {St} lo m hi (b : nat -> St -> res St) s s' : lo <= m -> m < hi ->
  for_ lo m b s = Ok s' -> b m s' = UB -> for_ lo hi b s = UB.
Proof.
  intros H1 H2 E Hb. unfold for_ in *. replace (hi - lo) with ((m - lo) + (hi - m)) by lia. rewrite for_n_app, E. cbn [bind].
  replace (lo + (m - lo)) with m by lia. destruct (hi - m) as [|d] eqn:Ed; [lia|]. cbn [for_n]. rewrite Hb. reflexivity.
Qed.
Lemma scan_int_ub (v : list nat) : v !! 0 = Some 0 -> (INT_MAX < Z.of_nat (foldr Nat.add 0%nat v))%Z ->
  inclusive_scan_int (Z.of_nat <$> v) = UB.
Proof.
  intros H0 H. unfold inclusive_scan_int. rewrite fmap_length.
  change (for_ 1 (length v) scan_body (Z.of_nat <$> v) = UB).
  assert (exists m, 1 <= m < length v /\ (Z.of_nat (psum v m) <= INT_MAX < Z.of_nat (psum v (m + 1)))%Z) as (m & Hm & Hlo & Hhi).
  { assert (psum v 1 = 0) as E1. { exact (psum_S v 0 0 H0). }
    assert (1 <= length v) as Hl. { apply lookup_lt_Some in H0. lia. }
    assert (forall d, 1 + d <= length v -> (INT_MAX < Z.of_nat (psum v (1 + d)))%Z ->
      exists m, 1 <= m < 1 + d /\ (Z.of_nat (psum v m) <= INT_MAX < Z.of_nat (psum v (m + 1)))%Z) as Hd.
    { induction d as [|d IH]; intros Hd1 Hd2.
      - simpl in Hd2. rewrite E1 in Hd2. unfold INT_MAX in Hd2. lia.
      - destruct (Z_lt_le_dec INT_MAX (Z.of_nat (psum v (1 + d)))) as [Hlt|Hle].
        + destruct (IH ltac:(lia) Hlt) as (m & Hm & Hm'). exists m. split; [lia|exact Hm'].
        + exists (1 + d). split; [lia|]. split; [exact Hle|]. replace (1 + d + 1) with (1 + S d) by lia. exact Hd2. }
    destruct (Hd (length v - 1) ltac:(lia)) as (m & Hm & Hm').
    - rewrite psum_all by lia. exact H.
    - exists m. split; [lia|exact Hm']. }
  pose proof (scan_prefix v m ltac:(lia) ltac:(lia) Hlo) as HS. apply ok_inv in HS as (v' & E & L & Hk & Hr).
  apply (for_split 1 m (length v) scan_body _ v'); [lia|lia|exact E|].
  destruct (lookup_lt_is_Some_2 v m) as [a Ha]; [lia|].
  unfold scan_body.
  assert (get v' m = Ok (Z.of_nat a)) as -> by (apply get_Some; rewrite Hr, Ha by lia; reflexivity). cbn [bind].
  assert (get v' (m - 1) = Ok (Z.of_nat (psum v (m - 1 + 1)))) as -> by (apply get_Some, Hk; lia). cbn [bind].
  replace (m - 1 + 1) with m by lia. rewrite (psum_S v m a Ha) in Hhi. rewrite int_add_ub by lia. reflexivity.
Qed.
Lemma set_at_nat {T} (v : list T) (i : nat) x : set_at v (Z.of_nat i) x = set v i x.
Proof. unfold set_at. rewrite (proj2 (Z.ltb_ge (Z.of_nat i) 0)) by lia. rewrite Nat2Z.id. reflexivity. Qed.

(** ** The whole function *)
Section Run.
  Context {A : Type} (M : srmat A).
  Hypotheses (Hw : wf_pat M) (Hd : wf_diag M) (Hs : wf_sorted M).
  Hypothesis Hnz : (Z.of_nat (nnz M) < INT_MAX)%Z.

  Lemma write_fold_int base (l : list (nat * nat)) : forall (done : list (nat * nat)) (lo up rl ru : list nat),
    forall off, length done = base + off -> (Z.of_nat (base + off + length l) <= INT_MAX)%Z ->
    lo = done.*1 ++ rl -> up = done.*2 ++ ru -> length l <= length rl -> length l <= length ru ->
    ffold (fun k ipos '(offset, lowerp, upperp) =>
        let! p := Ok (Z.of_nat base) in
        let! a := int_add p offset in
        let! lowerp := set_at lowerp a k in
        let! upperp := set_at upperp a ipos in
        let! offset := int_add offset 1 in
        Ok (offset, lowerp, upperp)) l (Z.of_nat off, lo, up) =
    Ok (Z.of_nat (off + length l), (done ++ l).*1 ++ drop (length l) rl, (done ++ l).*2 ++ drop (length l) ru).
  Proof.
    induction l as [|[k p] l IH]; intros done lo up rl ru off Hoff Hmax -> -> Hrl Hru; cbn [ffold length] in *.
    - rewrite !Nat.add_0_r, !app_nil_r, !drop_0. reflexivity.
    - destruct rl as [|x rl]; [simpl in Hrl; lia|]. destruct ru as [|y ru]; [simpl in Hru; lia|].
      cbn [bind]. rewrite int_add_ok by lia. cbn [bind]. rewrite <- Nat2Z.inj_add, !set_at_nat.
      rewrite set_Ok by (rewrite app_length, fmap_length; simpl; lia). cbn [bind].
      rewrite set_Ok by (rewrite app_length, fmap_length; simpl; lia). cbn [bind].
      rewrite int_add_ok by lia. cbn [bind]. replace (Z.of_nat off + 1)%Z with (Z.of_nat (off + 1)) by lia.
      rewrite (IH (done ++ [(k, p)]) _ _ rl ru); auto; try (simpl in *; lia).
      + rewrite <- app_assoc. replace (off + S (length l)) with (off + 1 + length l) by lia. reflexivity.
      + rewrite app_length. simpl. lia.
      + rewrite fmap_app, <- app_assoc. simpl.
        rewrite <- Hoff. replace (length done) with (length done.*1 + 0) by (rewrite fmap_length; lia).
        rewrite insert_app_r. reflexivity.
      + rewrite fmap_app, <- app_assoc. simpl.
        rewrite <- Hoff. replace (length done) with (length done.*2 + 0) by (rewrite fmap_length; lia).
        rewrite insert_app_r. reflexivity.
  Qed.

  Let cnt (j : nat) : nat := length (tms M j).
  (** after the first loop *)
  Lemma run_first :
    compute_ILU_positions_int M =
      let totallen := to_size (accumulate_int (cnt <$> seq 0 (nnz M))) in
      let! posptr := inclusive_scan_int (Z.of_nat <$> (0 :: (cnt <$> seq 0 (nnz M)))) in
      let! lowerp := vector_of totallen in
      let! upperp := vector_of totallen in
      let! (lowerp, upperp) := for_rows M (fun irow j '(lowerp, upperp) =>
          let! (_, lowerp, upperp) := scan_entry M irow j (fun k ipos '(offset, lowerp, upperp) =>
            let! p := get posptr j in
            let! a := int_add p offset in
            let! lowerp := set_at lowerp a k in
            let! upperp := set_at upperp a ipos in
            let! offset := int_add offset 1%Z in
            Ok (offset, lowerp, upperp)) (0%Z, lowerp, upperp) in
          Ok (lowerp, upperp)) (lowerp, upperp) in
      Ok (IluPosInt posptr lowerp upperp).
  Proof.
    unfold compute_ILU_positions_int.
    assert (get (browptr M) (nbrows M) = Ok (nnz M)) as -> by (apply get_Some, wf_browptr; [auto|lia]).
    cbn [bind]. cbv zeta. rewrite int_add_ok by lia. cbn [bind].
    replace (Z.to_nat (Z.of_nat (nnz M) + 1)) with (S (nnz M)) by lia. cbn [replicate].
    rewrite set_Ok by (simpl; lia). cbn [bind].
    match goal with |- bind ?m _ = _ =>
      assert (ok m (fun s => s = (cnt <$> seq 0 (nnz M), Z.of_nat <$> (0 :: (cnt <$> seq 0 (nnz M)))))) as H end.
    2: { apply ok_inv in H as (s & -> & ->). reflexivity. }
    apply (ok_for_rows M _ _ (fun j (s : list nat * list Z) =>
        s = ((cnt <$> seq 0 j) ++ replicate (nnz M - j) 0, 0%Z :: (Z.of_nat <$> (cnt <$> seq 0 j)) ++ replicate (nnz M - j) 0%Z))); auto.
    - simpl. rewrite Nat.sub_0_r. reflexivity.
    - intros i j s Hj ->. pose proof (inrow_lt M i j Hw Hj) as Hjl.
      rewrite (scan_entry_spec M Hw Hd Hs i j _ _ Hj).
      replace (nnz M - j) with (S (nnz M - (j + 1))) by lia. cbn [replicate].
      rewrite (count_fold j (tms M j) _ 0).
      2: { rewrite lookup_app_r by (rewrite fmap_length, seq_length; lia).
           rewrite fmap_length, seq_length, Nat.sub_diag. reflexivity. }
      cbn [bind]. rewrite (insert_app_r_alt _ _ j) by (rewrite fmap_length, seq_length; lia).
      rewrite fmap_length, seq_length, Nat.sub_diag. simpl.
      assert ((cnt <$> seq 0 (j + 1)) = (cnt <$> seq 0 j) ++ [cnt j]) as Hsn.
      { rewrite seq_app, fmap_app. reflexivity. }
      assert (get ((cnt <$> seq 0 j) ++ length (tms M j) :: replicate (nnz M - (j + 1)) 0) j = Ok (cnt j)) as ->.
      { apply get_Some. rewrite lookup_app_r by (rewrite fmap_length, seq_length; lia).
        rewrite fmap_length, seq_length, Nat.sub_diag. reflexivity. }
      cbn [bind]. rewrite set_Ok.
      2: { simpl. rewrite app_length, !fmap_length, seq_length. simpl. lia. }
      simpl. rewrite to_int_id.
      2: { unfold cnt. pose proof (length_tms_nnz M Hw Hd Hs j Hjl). lia. }
      rewrite Hsn, fmap_app, <- !app_assoc. simpl. f_equal.
      replace (j + 1) with (S j) by lia. simpl. f_equal.
      rewrite (insert_app_r_alt _ _ j) by (rewrite !fmap_length, seq_length; lia).
      rewrite !fmap_length, seq_length, Nat.sub_diag. reflexivity.
    - intros s ->. rewrite Nat.sub_diag, !app_nil_r. reflexivity.
  Qed.
  Lemma run_sum : foldr Nat.add 0%nat (0 :: (cnt <$> seq 0 (nnz M))) = ntriples M.
  Proof. simpl. unfold cnt. rewrite foldr_lengths. apply count_triples; auto. Qed.

  Lemma run_ub : (INT_MAX < Z.of_nat (ntriples M))%Z -> compute_ILU_positions_int M = UB.
  Proof.
    intros H. rewrite run_first. cbv zeta. rewrite scan_int_ub; [reflexivity|reflexivity|]. rewrite run_sum. exact H.
  Qed.
  Lemma run_ok : (Z.of_nat (ntriples M) <= INT_MAX)%Z ->
    compute_ILU_positions_int M = Ok (IluPosInt (Z.of_nat <$> posptr (positions M)) (lowerp (positions M)) (upperp (positions M))).
  Proof.
    intros H. rewrite run_first. cbv zeta. rewrite <- run_sum in H.
    rewrite scan_int_ok by exact H. cbn [bind].
    simpl in H. unfold cnt in H. rewrite foldr_lengths in H.
    set (tot := length (allterms M (nnz M))) in *.
    assert (to_size (accumulate_int (cnt <$> seq 0 (nnz M))) = Z.of_nat tot) as ->.
    { assert (2 ^ 64 = 18446744073709551616)%Z as E64 by reflexivity.
      rewrite accumulate_int_spec; unfold cnt; rewrite foldr_lengths; [|exact H]. fold tot.
      unfold INT_MAX in H. apply to_size_id. lia. }
    assert (2 ^ 61 = 2305843009213693952)%Z as E61 by reflexivity.
    unfold INT_MAX in H.
    unfold vector_of. rewrite (proj2 (Z.leb_le (Z.of_nat tot) _)) by lia. cbn [bind].
    rewrite Nat2Z.id.
    set (pp := (fun i => Z.of_nat (psum (0 :: (cnt <$> seq 0 (nnz M))) (i + 1))) <$> seq 0 (length (0 :: (cnt <$> seq 0 (nnz M))))).
    assert (pp = Z.of_nat <$> posptr (positions M)) as Epp.
    { unfold pp. simpl length. rewrite fmap_length, seq_length.
      apply list_eq_lt; [simpl; rewrite !fmap_length, !seq_length; lia|]. intros i Hi.
      rewrite fmap_length, seq_length in Hi.
      rewrite !list_lookup_fmap, (positions_ptr M i), lookup_seq_lt by lia. simpl. do 2 f_equal.
      unfold psum. rewrite Nat.add_comm. simpl. rewrite <- fmap_take.
      assert (take i (seq 0 (nnz M)) = seq 0 i) as ->.
      { replace (nnz M) with (i + (nnz M - i)) by lia. rewrite seq_app, take_app_alt by (rewrite seq_length; reflexivity). reflexivity. }
      apply foldr_lengths. }
    rewrite Epp. clear Epp pp.
    match goal with |- bind ?m _ = _ =>
      assert (ok m (fun s => s = ((allterms M (nnz M)).*1, (allterms M (nnz M)).*2))) as HH end.
    2: { apply ok_inv in HH as (s & -> & ->). reflexivity. }
    apply (ok_for_rows M _ _ (fun j (s : list nat * list nat) =>
      s = ((allterms M j).*1 ++ replicate (tot - length (allterms M j)) 0,
           (allterms M j).*2 ++ replicate (tot - length (allterms M j)) 0))); auto.
    - unfold allterms. simpl. rewrite Nat.sub_0_r. reflexivity.
    - intros i j s Hj ->. pose proof (inrow_lt M i j Hw Hj) as Hjl.
      rewrite (scan_entry_spec M Hw Hd Hs i j _ _ Hj).
      assert (get (Z.of_nat <$> posptr (positions M)) j = Ok (Z.of_nat (length (allterms M j)))) as ->.
      { apply get_Some. simpl. rewrite !list_lookup_fmap, lookup_seq_lt by lia. reflexivity. }
      assert (length (allterms M (j + 1)) <= tot) as Hle.
      { unfold tot. replace (nnz M) with ((j + 1) + (nnz M - (j + 1))) by lia.
        apply allterms_mono. }
      rewrite allterms_S, app_length in Hle.
      change 0%Z with (Z.of_nat 0) at 1.
      rewrite (write_fold_int (length (allterms M j)) (tms M j) (allterms M j) _ _
        (replicate (tot - length (allterms M j)) 0) (replicate (tot - length (allterms M j)) 0) 0); auto;
        try (rewrite replicate_length; lia); try (unfold INT_MAX; lia).
      simpl. rewrite allterms_S, drop_replicate. rewrite app_length.
      replace (tot - length (allterms M j) - length (tms M j)) with (tot - (length (allterms M j) + length (tms M j))) by lia.
      reflexivity.
    - intros s ->. unfold tot. rewrite Nat.sub_diag. simpl. rewrite !app_nil_r. reflexivity.
  Qed.
End Run.

(** ** Dense matrices *)
Section Dense.
  Context {A : Type} (n : nat) (v : list A).
  Hypothesis Hn0 : 0 < n.
  Lemma dense_rp i : i <= n -> rp (dense n v) i = i * n.
  Proof. intros H. unfold rp. apply list_lookup_total_correct. simpl. rewrite list_lookup_fmap, lookup_seq_lt by lia. reflexivity. Qed.
  Lemma dense_nnz : nnz (dense n v) = n * n.
  Proof. unfold nnz. simpl nbrows. apply dense_rp. lia. Qed.
  Lemma dense_col j : j < n * n -> col (dense n v) j = j mod n.
  Proof. intros H. unfold col. apply list_lookup_total_correct. simpl. rewrite list_lookup_fmap, lookup_seq_lt by lia. reflexivity. Qed.
  Lemma dense_col_row i c : i < n -> c < n -> i * n + c < n * n /\ col (dense n v) (i * n + c) = c.
  Proof.
    intros Hi Hc. assert (i * n + c < n * n) as H by nia. split; [exact H|]. rewrite dense_col by exact H.
    rewrite Nat.add_comm, Nat.mod_add by lia. apply Nat.mod_small. exact Hc.
  Qed.
  Lemma dense_pat : wf_pat (dense n v).
  Proof.
    constructor.
    - simpl. rewrite fmap_length, seq_length. reflexivity.
    - apply dense_rp. lia.
    - intros i Hi. simpl in Hi. rewrite !dense_rp by lia. nia.
    - rewrite dense_nnz. simpl. rewrite fmap_length, seq_length. reflexivity.
    - intros j Hj. rewrite dense_nnz in Hj. rewrite dense_col by exact Hj. simpl. apply Nat.mod_upper_bound. lia.
  Qed.
  Lemma dense_diag : wf_diag (dense n v).
  Proof.
    split; [simpl; rewrite fmap_length, seq_length; reflexivity|]. intros i Hi. simpl in Hi.
    assert (dg (dense n v) i = i * n + i) as ->.
    { unfold dg. apply list_lookup_total_correct. simpl. rewrite list_lookup_fmap, lookup_seq_lt by lia. reflexivity. }
    rewrite !dense_rp by lia. split; [nia|]. apply dense_col_row; auto.
  Qed.
  Lemma dense_sorted : wf_sorted (dense n v).
  Proof.
    intros i j1 j2 Hi H1 H12 H2. simpl in Hi. rewrite dense_rp in H1, H2 by lia.
    replace j1 with (i * n + (j1 - i * n)) by lia. replace j2 with (i * n + (j2 - i * n)) by lia.
    rewrite !(fun c H => proj2 (dense_col_row i c Hi H)); lia.
  Qed.
  Lemma dense_stored i c : i < n -> c < n -> stored (dense n v) i c.
  Proof.
    intros Hi Hc. unfold stored. apply elem_of_list_fmap. exists (i * n + c).
    split; [symmetry; apply dense_col_row; auto|]. apply elem_of_range. rewrite !dense_rp by lia. nia.
  Qed.
  Lemma length_all_triples m : length (all_triples m) = sum_list_with (fun t => (m - (t + 1)) * (m - (t + 1))) (seq 0 m).
  Proof.
    unfold all_triples. rewrite length_bind. apply sum_list_ext. intros t _. rewrite length_bind.
    assert (forall (l : list nat) k, (forall x, x ∈ l -> length (c ← range (t + 1) m; [(x, t, c)]) = k) ->
      sum_list_with (fun x => length (c ← range (t + 1) m; [(x, t, c)])) l = length l * k) as HH.
    { induction l as [|a l IH]; intros k Hk; [reflexivity|]. cbn [sum_list_with length]. rewrite (Hk a) by left.
      rewrite (IH k); [lia|]. intros x Hx. apply Hk. right; exact Hx. }
    rewrite (HH _ (m - (t + 1))).
    - unfold range. rewrite seq_length. reflexivity.
    - intros x _. rewrite length_bind. unfold range.
      transitivity (length (seq (t + 1) (m - (t + 1)))); [|apply seq_length].
      clear. induction (seq (t + 1) (m - (t + 1))) as [|a l IH]; [reflexivity|]. cbn [sum_list_with length]. simpl in IH. rewrite IH. reflexivity.
  Qed.
  Lemma sum_squares m : 6 * sum_list_with (fun t => (m - (t + 1)) * (m - (t + 1))) (seq 0 m) = m * (m - 1) * (2 * m - 1).
  Proof.
    induction m as [|m IH]; [reflexivity|].
    cbn [seq sum_list_with]. rewrite <- fmap_S_seq.
    assert (forall l : list nat, sum_list_with (fun t => (S m - (t + 1)) * (S m - (t + 1))) (S <$> l) =
      sum_list_with (fun t => (m - (t + 1)) * (m - (t + 1))) l) as ->.
    { induction l as [|a l IHl]; [reflexivity|]. rewrite fmap_cons. cbn [sum_list_with]. rewrite IHl. f_equal. }
    rewrite Nat.mul_add_distr_l, IH. destruct m as [|m]; [reflexivity|].
    replace (S (S m) - (0 + 1)) with (S m) by lia. replace (S (S m) - 1) with (S m) by lia. replace (S m - 1) with m by lia.
    replace (2 * S m - 1) with (2 * m + 1) by lia. replace (2 * S (S m) - 1) with (2 * m + 3) by lia. ring.
  Qed.
  Lemma dense_ntriples : 6 * ntriples (dense n v) = n * (n - 1) * (2 * n - 1).
  Proof.
    rewrite <- sum_squares, <- length_all_triples. unfold ntriples, triples. f_equal.
    assert (forall l : list (nat * nat * nat), (forall x, x ∈ l -> x ∈ all_triples n) ->
      length (filter (fun x => stored (dense n v) x.1.1 x.1.2 /\ stored (dense n v) x.1.2 x.2 /\ stored (dense n v) x.1.1 x.2) l) = length l) as HH.
    { induction l as [|x l IH]; intros Hx; [reflexivity|]. rewrite filter_cons_True.
      - simpl. rewrite IH; [reflexivity|]. intros y Hy. apply Hx. right; exact Hy.
      - specialize (Hx x ltac:(left)). destruct x as [[i t] c]. apply elem_all_triples in Hx. simpl.
        repeat split; apply dense_stored; lia. }
    apply HH. auto.
  Qed.
End Dense.
