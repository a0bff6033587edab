(** * ReorderFacts: what the reordering routines compute *)
From Verif Require Import Base Alg SRMatrix Async Nd Helpers IluApply IluApplyFacts Reorder.

(** ** Permutations of 0, ..., n-1 *)
Lemma perm_length n (p : list nat) : p ≡ₚ seq 0 n -> length p = n.
Proof. intros H. rewrite H. apply seq_length. Qed.
Lemma perm_lt n (p : list nat) i v : p ≡ₚ seq 0 n -> p !! i = Some v -> v < n.
Proof. intros H Hi. apply elem_of_list_lookup_2 in Hi. rewrite H in Hi. apply elem_of_seq in Hi. lia. Qed.
Lemma perm_inj n (p : list nat) i j v : p ≡ₚ seq 0 n -> p !! i = Some v -> p !! j = Some v -> i = j.
Proof. intros H. assert (NoDup p) as Hn by (rewrite H; apply NoDup_seq). apply (NoDup_lookup p); auto. Qed.
Lemma perm_surj n (p : list nat) v : p ≡ₚ seq 0 n -> v < n -> exists i, i < n /\ p !! i = Some v.
Proof.
  intros H Hv. assert (v ∈ p) as Hin by (rewrite H; apply elem_of_seq; lia).
  apply elem_of_list_lookup in Hin as (i & Hi). exists i. split; [|exact Hi].
  apply lookup_lt_Some in Hi. rewrite (perm_length n p H) in Hi. exact Hi.
Qed.
Lemma perm_get n (p : list nat) i : p ≡ₚ seq 0 n -> i < n -> p !! i = Some (p !!! i).
Proof. intros H Hi. apply list_lookup_lookup_total_lt. rewrite (perm_length n p H). exact Hi. Qed.
Lemma perm_get_lt n (p : list nat) i : p ≡ₚ seq 0 n -> i < n -> p !!! i < n.
Proof. intros H Hi. eapply perm_lt; eauto. eapply perm_get; eauto. Qed.
Lemma nodup_perm n (l : list nat) : NoDup l -> length l = n -> (forall x, x ∈ l -> x < n) -> l ≡ₚ seq 0 n.
Proof.
  intros H1 H2 H3. apply submseteq_Permutation_length_eq; [rewrite seq_length; lia|].
  apply NoDup_submseteq; [exact H1|]. intros x Hx. apply elem_of_seq. specialize (H3 x Hx). lia.
Qed.
(** [ip] is the inverse of [p] *)
Definition inverse_perm (n : nat) (p ip : list nat) : Prop :=
  length ip = n /\ forall i, i < n -> ip !! (p !!! i) = Some i.
Lemma inverse_perm_r n p ip v : p ≡ₚ seq 0 n -> inverse_perm n p ip -> v < n -> exists i, ip !! v = Some i /\ i < n /\ p !! i = Some v.
Proof.
  intros H [_ Hi] Hv. destruct (perm_surj n p v H Hv) as (i & Hl & Hp). exists i.
  split; [|auto]. rewrite <- (Hi i Hl). f_equal. symmetry. apply list_lookup_total_correct. exact Hp.
Qed.
Lemma inverse_perm_perm n p ip : p ≡ₚ seq 0 n -> inverse_perm n p ip -> ip ≡ₚ seq 0 n.
Proof.
  intros H Hip. assert (length ip = n) as Hl by apply Hip.
  apply nodup_perm.
  - apply NoDup_alt. intros v v' i Hv Hv'.
    assert (v < n) as Hvn by (apply lookup_lt_Some in Hv; lia).
    assert (v' < n) as Hvn' by (apply lookup_lt_Some in Hv'; lia).
    destruct (inverse_perm_r n p ip v H Hip Hvn) as (k & E1 & _ & E2).
    destruct (inverse_perm_r n p ip v' H Hip Hvn') as (k' & E3 & _ & E4). congruence.
  - exact Hl.
  - intros i Hi. apply elem_of_list_lookup in Hi as (v & Hv).
    assert (v < n) as Hvn by (apply lookup_lt_Some in Hv; lia).
    destruct (inverse_perm_r n p ip v H Hip Hvn) as (k & E1 & E2 & _). assert (i = k) by congruence. lia.
Qed.
Lemma inverse_perm_sym n p ip : p ≡ₚ seq 0 n -> inverse_perm n p ip -> inverse_perm n ip p.
Proof.
  intros H Hip. split; [apply perm_length, H|]. intros v Hv.
  destruct (inverse_perm_r n p ip v H Hip Hv) as (i & E1 & _ & E2).
  rewrite (list_lookup_total_correct _ _ _ E1). exact E2.
Qed.

(** the loop writing an inverse permutation over any array of the right length *)
Lemma invert_loop n p (g : list nat) : p ≡ₚ seq 0 n -> length g = n ->
  ok (for_ 0 n (fun i ip => let! a := get p i in set ip a i) g) (inverse_perm n p).
Proof.
  intros H Hg.
  eapply ok_for_post with (I := fun k ip => length ip = n /\ forall i, i < k -> ip !! (p !!! i) = Some i).
  - lia.
  - split; [exact Hg|]. intros; lia.
  - intros j ip Hj [Hl Hi].
    eapply ok_bind; [eapply ok_get; [apply (perm_get n); [exact H|lia]|exact eq_refl]|]. intros ? <-.
    pose proof (perm_get_lt n p j H ltac:(lia)) as Hlt.
    apply ok_set; [lia|]. split; [rewrite insert_length; exact Hl|].
    intros i Hij. destruct (decide (i = j)) as [->|Hne]; [apply list_lookup_insert; lia|].
    rewrite list_lookup_insert_ne; [apply Hi; lia|]. intros E.
    apply Hne. eapply (perm_inj n p); [exact H| |]; [apply (perm_get n); [exact H|lia]|].
    rewrite <- E. apply (perm_get n); [exact H|lia].
  - auto.
Qed.
Lemma copy_loop {A} n (src g : list A) : length src = n -> length g = n ->
  ok (for_ 0 n (fun i p => let! a := get src i in set p i a) g) (eq src).
Proof.
  intros Hs Hg.
  eapply ok_for_post with (I := fun k l => length l = n /\ forall i, i < k -> l !! i = src !! i).
  - lia.
  - split; [exact Hg|]. intros; lia.
  - intros j l Hj [Hl Hi]. destruct (lookup_lt_is_Some_2 src j) as [a Ha]; [lia|].
    eapply ok_bind; [eapply ok_get; [exact Ha|exact eq_refl]|]. intros ? <-.
    apply ok_set; [lia|]. split; [rewrite insert_length; exact Hl|]. intros i Hij.
    destruct (decide (i = j)) as [->|]; [rewrite list_lookup_insert; [congruence|lia]|].
    rewrite list_lookup_insert_ne by lia. apply Hi. lia.
  - intros l [Hl Hi]. apply list_eq_lt; [lia|]. intros i Hi'. symmetry. apply Hi. lia.
Qed.
Lemma vresize_length n v : length (vresize n v) = n.
Proof. unfold vresize. rewrite app_length, take_length, replicate_length. lia. Qed.
Lemma set_half_spec n p g ig : p ≡ₚ seq 0 n ->
  ok (set_half p g ig n) (fun '(p', ip) => p' = p /\ inverse_perm n p ip).
Proof.
  intros H. unfold set_half.
  eapply ok_bind; [apply copy_loop; [apply perm_length, H|apply vresize_length]|]. intros ? <-.
  eapply ok_bind; [apply invert_loop; [exact H|apply vresize_length]|]. intros ip Hip. simpl. auto.
Qed.
Lemma invertPermutationVector_spec n p : p ≡ₚ seq 0 n -> ok (invertPermutationVector p) (inverse_perm n p).
Proof.
  intros H. unfold invertPermutationVector. rewrite (perm_length n p H).
  apply invert_loop; [exact H|apply replicate_length].
Qed.

(** ** Moving rows *)
Section Rows.
  Context {F : Type} {O : SOps F}.
  Implicit Type M : srmat F.
  Variable bs : nat.
  Notation bb := (bs * bs).

  Definition rowlen M i := rp M (i + 1) - rp M i.
  (** row [i] of [M'] is row [rho i] of [M], its columns renamed by [kap], its entries
      possibly in another order *)
  Definition row_mapped (kap : nat -> nat) M M' (i0 i : nat) : Prop :=
    rowlen M' i = rowlen M i0 /\ exists f,
      (forall k, k < rowlen M i0 -> f k < rowlen M i0) /\
      (forall k k', k < rowlen M i0 -> k' < rowlen M i0 -> f k = f k' -> k = k') /\
      forall k, k < rowlen M i0 ->
        col M' (rp M' i + k) = kap (col M (rp M i0 + f k)) /\
        forall e, e < bb -> vals M' !! ((rp M' i + k) * bb + e) = vals M !! ((rp M i0 + f k) * bb + e).
  Record mapped (rho kap : nat -> nat) M M' : Prop := {
    mp_n : nbrows M' = nbrows M;
    mp_pat : wf_pat M';
    mp_vals : length (vals M') = length (vals M);
    mp_nnz : nnz M' = nnz M;
    mp_dg : diagind M' = diagind M;
    mp_end : browendptr M' = browendptr M;
    mp_meta : nnzb M' = nnzb M /\ nbstored M' = nbstored M;
    mp_row : forall i, i < nbrows M -> row_mapped kap M M' (rho i) i
  }.

  Lemma mapped_id M : wf_pat M -> mapped id id M M.
  Proof.
    intros H. split; auto. intros i Hi. split; [reflexivity|]. exists id. auto.
  Qed.
  Lemma mapped_ext rho rho' kap kap' M M' : wf_pat M -> mapped rho kap M M' ->
    (forall i, i < nbrows M -> rho i < nbrows M) ->
    (forall i, i < nbrows M -> rho i = rho' i) -> (forall c, c < nbrows M -> kap c = kap' c) ->
    mapped rho' kap' M M'.
  Proof.
    intros Hw [H1 H2 H3 H4 H4' H4'' H6 H5] Hr Hrr Hk. split; auto. intros i Hi. destruct (H5 i Hi) as (Hl & f & Hf & Hinj & Hc).
    rewrite <- (Hrr i Hi). split; [exact Hl|]. exists f. split; [exact Hf|]. split; [exact Hinj|].
    intros k Hk'. destruct (Hc k Hk') as [E1 E2]. split; [|exact E2].
    rewrite E1. apply Hk. apply (wf_col M Hw). apply (inrow_lt M (rho i)); [exact Hw|]. split; [apply Hr, Hi|].
    specialize (Hf k Hk'). unfold rowlen in Hf. lia.
  Qed.
  Lemma mapped_trans rho1 kap1 rho2 kap2 M M1 M2 :
    mapped rho1 kap1 M M1 -> mapped rho2 kap2 M1 M2 ->
    (forall i, i < nbrows M -> rho2 i < nbrows M) ->
    mapped (fun i => rho1 (rho2 i)) (fun c => kap2 (kap1 c)) M M2.
  Proof.
    intros [A1 A2 A3 A4 A4' A4'' A6 A5] [B1 B2 B3 B4 B4' B4'' B6 B5] Hr. split; try congruence; [destruct A6, B6; split; congruence|].
    intros i Hi. rewrite A1 in B5. destruct (B5 i Hi) as (Hl & f & Hf & Hinj & Hc).
    destruct (A5 (rho2 i) (Hr i Hi)) as (Hl' & f' & Hf' & Hinj' & Hc').
    rewrite Hl' in *. split; [congruence|]. exists (fun k => f' (f k)).
    split; [auto|]. split; [auto|]. intros k Hk. destruct (Hc k Hk) as [E1 E2].
    destruct (Hc' (f k) (Hf k Hk)) as [E3 E4]. split; [congruence|].
    intros e He. rewrite E2, E4 by exact He. reflexivity.
  Qed.

  (** an injective map of [0,N) into itself is onto *)
  Lemma inj_surj N (f : nat -> nat) : (forall k, k < N -> f k < N) ->
    (forall k k', k < N -> k' < N -> f k = f k' -> k = k') -> forall k, k < N -> exists k', k' < N /\ f k' = k.
  Proof.
    intros Hf Hinj k Hk.
    assert (f <$> seq 0 N ≡ₚ seq 0 N) as Hp.
    { apply nodup_perm.
      - apply NoDup_fmap_2_strong; [|apply NoDup_seq]. intros x y Hx Hy. apply elem_of_seq in Hx, Hy. apply Hinj; lia.
      - rewrite fmap_length, seq_length. reflexivity.
      - intros x Hx. apply elem_of_list_fmap in Hx as (y & -> & Hy). apply elem_of_seq in Hy. apply Hf. lia. }
    assert (k ∈ f <$> seq 0 N) as Hin by (rewrite Hp; apply elem_of_seq; lia).
    apply elem_of_list_fmap in Hin as (y & -> & Hy). apply elem_of_seq in Hy. exists y. split; [lia|reflexivity].
  Qed.

  (** the block stored for (i,c) *)
  Definition stored M (i c : nat) : option (list F) :=
    (fun j => take bb (drop (j * bb) (vals M))) <$> pos M i c.

  Lemma mapped_nodup rho kap M M' : wf_pat M -> wf_nodup M -> mapped rho kap M M' ->
    (forall i, i < nbrows M -> rho i < nbrows M) ->
    (forall c c', c < nbrows M -> c' < nbrows M -> kap c = kap c' -> c = c') -> wf_nodup M'.
  Proof.
    intros Hw Hn Hm Hr Hk i j1 j2 Hi [_ Hj1] [_ Hj2] E. rewrite (mp_n _ _ _ _ Hm) in Hi.
    destruct (mp_row _ _ _ _ Hm i Hi) as (Hl & f & Hf & Hinj & Hc). unfold rowlen in *.
    destruct (Hc (j1 - rp M' i) ltac:(lia)) as [E1 _]. destruct (Hc (j2 - rp M' i) ltac:(lia)) as [E2 _].
    replace (rp M' i + (j1 - rp M' i)) with j1 in E1 by lia. replace (rp M' i + (j2 - rp M' i)) with j2 in E2 by lia.
    rewrite E1, E2 in E.
    pose proof (Hf (j1 - rp M' i) ltac:(lia)) as F1. pose proof (Hf (j2 - rp M' i) ltac:(lia)) as F2.
    assert (inrow M (rho i) (rp M (rho i) + f (j1 - rp M' i))) as I1 by (split; [auto|lia]).
    assert (inrow M (rho i) (rp M (rho i) + f (j2 - rp M' i))) as I2 by (split; [auto|lia]).
    apply Hk in E; [|apply (wf_col M Hw); eapply inrow_lt; eauto..].
    apply (Hn (rho i)) in E; auto. assert (j1 - rp M' i = j2 - rp M' i); [|lia].
    apply Hinj; lia.
  Qed.
  Lemma mapped_stored rho kap M M' i c : wf_pat M -> wf_nodup M -> mapped rho kap M M' ->
    (forall i, i < nbrows M -> rho i < nbrows M) ->
    (forall c c', c < nbrows M -> c' < nbrows M -> kap c = kap c' -> c = c') ->
    i < nbrows M -> c < nbrows M -> stored M' i (kap c) = stored M (rho i) c.
  Proof.
    intros Hw Hn Hm Hr Hk Hi Hcn. pose proof (mapped_nodup _ _ _ _ Hw Hn Hm Hr Hk) as Hn'.
    destruct (mp_row _ _ _ _ Hm i Hi) as (Hl & f & Hf & Hinj & Hc). unfold stored.
    destruct (pos M (rho i) c) as [j|] eqn:E.
    - apply pos_Some in E as [[_ Hj] Hcol]; [|auto]. unfold rowlen in *.
      destruct (inj_surj _ f Hf Hinj (j - rp M (rho i))) as (k & Hk1 & Hk2); [lia|].
      destruct (Hc k Hk1) as [E1 E2]. rewrite Hk2 in E1, E2. replace (rp M (rho i) + (j - rp M (rho i))) with j in E1, E2 by lia.
      rewrite Hcol in E1.
      assert (pos M' i (kap c) = Some (rp M' i + k)) as ->.
      { rewrite <- E1. apply pos_of; [exact Hn'|]. split; [rewrite (mp_n _ _ _ _ Hm); exact Hi|lia]. }
      simpl. f_equal. apply list_eq. intros e. destruct (decide (e < bb)) as [He|He].
      + rewrite !lookup_take, !lookup_drop by exact He. apply E2, He.
      + rewrite !lookup_take_ge by lia. reflexivity.
    - assert (pos M' i (kap c) = None) as ->; [|reflexivity].
      apply pos_None; [rewrite (mp_n _ _ _ _ Hm); exact Hi|]. intros j [_ Hj] E'.
      unfold rowlen in *. destruct (Hc (j - rp M' i) ltac:(lia)) as [E1 _].
      replace (rp M' i + (j - rp M' i)) with j in E1 by lia. rewrite E1 in E'.
      pose proof (Hf (j - rp M' i) ltac:(lia)) as F1.
      assert (inrow M (rho i) (rp M (rho i) + f (j - rp M' i))) as I1 by (split; [auto|lia]).
      apply Hk in E'; [|apply (wf_col M Hw); eapply inrow_lt; eauto|exact Hcn].
      rewrite pos_None in E by auto. exact (E _ I1 E').
  Qed.

  (** ** Copying rows in the order [p] *)
  (** the positions of rows p(0), ..., p(k-1), in this order *)
  Definition src M (p : list nat) (k : nat) : list nat :=
    concat ((fun i => range (rp M (p !!! i)) (rp M (p !!! i + 1))) <$> seq 0 k).
  Lemma src_S M p k : src M p (k + 1) = src M p k ++ range (rp M (p !!! k)) (rp M (p !!! k + 1)).
  Proof. unfold src. rewrite seq_app, fmap_app, concat_app. simpl. rewrite app_nil_r. reflexivity. Qed.
  Lemma src_prefix M p k k' : k <= k' -> exists l, src M p k' = src M p k ++ l.
  Proof.
    intros H. induction k' as [|k' IH].
    - assert (k = 0) as -> by lia. exists []. rewrite app_nil_r. reflexivity.
    - destruct (decide (k = S k')) as [->|]; [exists []; rewrite app_nil_r; reflexivity|].
      destruct (IH ltac:(lia)) as (l & E). replace (S k') with (k' + 1) by lia. rewrite src_S, E, <- app_assoc. eauto.
  Qed.
  Lemma src_perm M p : wf_pat M -> p ≡ₚ seq 0 (nbrows M) -> src M p (nbrows M) ≡ₚ range 0 (nnz M).
  Proof.
    intros Hw Hp.
    assert (src M p (nbrows M) = concat ((fun i => range (rp M i) (rp M (i + 1))) <$> p)) as ->.
    { unfold src. f_equal. apply list_eq_lt; rewrite !fmap_length, seq_length; [symmetry; apply perm_length, Hp|].
      intros i Hi. rewrite !list_lookup_fmap, lookup_seq_lt by exact Hi. simpl.
      rewrite (perm_get _ p i Hp Hi). reflexivity. }
    transitivity (concat ((fun i => range (rp M i) (rp M (i + 1))) <$> seq 0 (nbrows M))).
    { rewrite Hp. reflexivity. }
    assert (forall k, k <= nbrows M -> concat ((fun i => range (rp M i) (rp M (i + 1))) <$> seq 0 k) = range 0 (rp M k)) as H.
    { induction k as [|k IH]; intros Hk.
      - simpl. rewrite (wf_0 M Hw). reflexivity.
      - replace (S k) with (k + 1) by lia. rewrite seq_app, fmap_app, concat_app, IH by lia. simpl. rewrite app_nil_r.
        rewrite (range_app 0 (rp M k) (rp M (k + 1))); [reflexivity|]. pose proof (wf_mono M Hw k). lia. }
    rewrite H by lia. reflexivity.
  Qed.
  Lemma src_length M p : wf_pat M -> p ≡ₚ seq 0 (nbrows M) -> length (src M p (nbrows M)) = nnz M.
  Proof. intros Hw Hp. rewrite (src_perm M p Hw Hp), range_length. lia. Qed.
  Lemma src_le M p k : wf_pat M -> p ≡ₚ seq 0 (nbrows M) -> k <= nbrows M -> length (src M p k) <= nnz M.
  Proof.
    intros Hw Hp Hk. destruct (src_prefix M p k (nbrows M) Hk) as (l & E).
    rewrite <- (src_length M p Hw Hp), E, app_length. lia.
  Qed.
  Lemma src_lookup M p k e : k < nbrows M -> e < rowlen M (p !!! k) ->
    src M p (nbrows M) !! (length (src M p k) + e) = Some (rp M (p !!! k) + e).
  Proof.
    intros Hk He. destruct (src_prefix M p (k + 1) (nbrows M) ltac:(lia)) as (l & E).
    rewrite E, src_S, <- app_assoc. rewrite lookup_app_r by lia. rewrite lookup_app_l by (rewrite range_length; unfold rowlen in He; lia).
    replace (length (src M p k) + e - length (src M p k)) with e by lia. apply range_lookup. exact He.
  Qed.

  (** arrays holding the entries at positions [l], in this order *)
  Definition copied M (l cind : list nat) (v : list F) : Prop :=
    forall x j, l !! x = Some j -> cind !! x = bcolind M !! j /\
      forall e, e < bb -> v !! (x * bb + e) = vals M !! (j * bb + e).

  Lemma copyblk_spec (s d : nat) (v w : list F) :
    (s + 1) * bb <= length v -> (d + 1) * bb <= length w ->
    ok (copyblk bs v w s d) (fun w' => length w' = length w /\
      (forall e, e < bb -> w' !! (d * bb + e) = v !! (s * bb + e)) /\
      (forall x, x < d * bb \/ (d + 1) * bb <= x -> w' !! x = w !! x)).
  Proof.
    intros Hv Hw. unfold copyblk.
    eapply ok_for_post with (I := fun k w' => length w' = length w /\
      (forall e, e < k -> w' !! (d * bb + e) = v !! (s * bb + e)) /\
      (forall x, x < d * bb \/ d * bb + k <= x -> w' !! x = w !! x)).
    - lia.
    - split; [reflexivity|]. split; [intros; lia|reflexivity].
    - intros k w' Hk (H1 & H2 & H3). destruct (lookup_lt_is_Some_2 v (s * bb + k)) as [a Ha]; [nia|].
      eapply ok_bind; [eapply ok_get; [exact Ha|exact eq_refl]|]. intros ? <-.
      apply ok_set; [nia|]. split; [rewrite insert_length; exact H1|]. split.
      + intros e He. destruct (decide (e = k)) as [->|]; [rewrite list_lookup_insert; [congruence|nia]|].
        rewrite list_lookup_insert_ne by lia. apply H2. lia.
      + intros x Hx. rewrite list_lookup_insert_ne by lia. apply H3. lia.
    - intros w' (H1 & H2 & H3). split; [exact H1|]. split; [exact H2|]. intros x Hx. apply H3. nia.
  Qed.

  (** arrays that hold the rows in the order [p] make a mapped matrix *)
  Lemma copied_mapped M p rptr cind v : wf_pat M -> p ≡ₚ seq 0 (nbrows M) -> length (vals M) = nnz M * bb ->
    length rptr = nbrows M + 1 -> (forall k, k <= nbrows M -> rptr !! k = Some (length (src M p k))) ->
    length cind = nnz M -> length v = nnz M * bb -> copied M (src M p (nbrows M)) cind v ->
    mapped (fun i => p !!! i) id M (with_arrays M rptr cind v).
  Proof.
    intros Hw Hp Hvl Hrl Hr Hcl Hvl' Hc. set (M' := with_arrays M rptr cind v).
    assert (forall k, k <= nbrows M -> rp M' k = length (src M p k)) as Hrp.
    { intros k Hk. unfold rp, M'. simpl. apply list_lookup_total_correct, Hr, Hk. }
    assert (nnz M' = nnz M) as Hnz.
    { unfold nnz at 1. simpl nbrows. rewrite Hrp by lia. apply src_length; auto. }
    assert (forall i, i < nbrows M -> rowlen M' i = rowlen M (p !!! i)) as Hlen.
    { intros i Hi. unfold rowlen. rewrite !Hrp by lia. rewrite src_S, app_length, range_length. lia. }
    assert (forall k e, k < nbrows M -> e < rowlen M (p !!! k) ->
      cind !! (rp M' k + e) = bcolind M !! (rp M (p !!! k) + e) /\
      forall q, q < bb -> v !! ((rp M' k + e) * bb + q) = vals M !! ((rp M (p !!! k) + e) * bb + q)) as Hat.
    { intros k e Hk He. rewrite Hrp by lia. apply Hc. apply src_lookup; auto. }
    split; auto.
    - split; simpl.
      + exact Hrl.
      + apply Hrp. lia.
      + intros i Hi. rewrite !Hrp by lia. rewrite src_S, app_length. lia.
      + unfold M'. simpl. fold M'. rewrite Hnz. exact Hcl.
      + intros j Hj. destruct (lookup_lt_is_Some_2 (src M p (nbrows M)) j) as [j0 Hj0].
        { rewrite src_length; auto. lia. }
        destruct (Hc j j0 Hj0) as [E _].
        assert (j0 < nnz M) as Hj0n.
        { apply elem_of_list_lookup_2 in Hj0. rewrite (src_perm M p Hw Hp) in Hj0. apply elem_of_range in Hj0. lia. }
        unfold col, M'. simpl. rewrite list_lookup_total_alt, E, (wf_bcolind M j0 Hw Hj0n). simpl. apply (wf_col M Hw), Hj0n.
    - unfold M'. simpl. lia.
    - intros i Hi. split; [apply Hlen, Hi|]. exists id. split; [auto|]. split; [auto|]. intros k Hk.
      destruct (Hat i k Hi Hk) as [E1 E2]. split; [|exact E2].
      unfold id, col. change (bcolind M') with cind. rewrite (list_lookup_total_alt cind), E1, <- list_lookup_total_alt. reflexivity.
  Qed.

  Lemma copied_sorted M p rptr cind v : wf_pat M -> p ≡ₚ seq 0 (nbrows M) ->
    (forall k, k <= nbrows M -> rptr !! k = Some (length (src M p k))) ->
    copied M (src M p (nbrows M)) cind v -> wf_sorted M -> wf_sorted (with_arrays M rptr cind v).
  Proof.
    intros Hw Hp Hr Hc Hs i j1 j2 Hi H1 H2 H3. simpl in Hi.
    assert (forall k, k <= nbrows M -> rp (with_arrays M rptr cind v) k = length (src M p k)) as Hrp.
    { intros k Hk. unfold rp. simpl. apply list_lookup_total_correct, Hr, Hk. }
    rewrite Hrp in H1, H3 by lia. rewrite src_S, app_length, range_length in H3.
    set (L := length (src M p i)) in *. pose proof (perm_get_lt _ p i Hp Hi) as Hpi.
    assert (forall j, L <= j -> j < L + rowlen M (p !!! i) ->
      col (with_arrays M rptr cind v) j = col M (rp M (p !!! i) + (j - L))) as Hcol.
    { intros j Ha Hb. destruct (Hc j (rp M (p !!! i) + (j - L))) as [E _].
      - replace j with (L + (j - L)) at 1 by lia. apply src_lookup; [exact Hi|lia].
      - unfold col. simpl. rewrite (list_lookup_total_alt cind j), E. symmetry. apply list_lookup_total_alt. }
    unfold rowlen in Hcol. rewrite !Hcol by lia. apply (Hs (p !!! i)); lia.
  Qed.

  Lemma forward_rows_spec p M : wf_pat M -> length (vals M) = nnz M * bb -> p ≡ₚ seq 0 (nbrows M) ->
    ok (forward_rows bs p M) (fun M' => mapped (fun i => p !!! i) id M M' /\ (wf_sorted M -> wf_sorted M')).
  Proof.
    intros Hw Hv Hp. unfold forward_rows.
    eapply ok_bind; [eapply ok_get; [apply (wf_browptr M (nbrows M) Hw); lia|exact eq_refl]|]. intros ? <-.
    change (rp M (nbrows M)) with (nnz M).
    rewrite set_Ok by (rewrite replicate_length; lia). cbn [bind].
    eapply ok_bind with (P := fun '(tempval, tempcind, temprptr, pos) =>
      pos = nnz M /\ length tempval = nnz M * bb /\ length tempcind = nnz M /\ length temprptr = nbrows M + 1 /\
      (forall k, k < nbrows M -> temprptr !! k = Some (length (src M p k))) /\ copied M (src M p (nbrows M)) tempcind tempval).
    { eapply ok_for_post with (I := fun i '(tempval, tempcind, temprptr, pos) =>
        pos = length (src M p i) /\ length tempval = nnz M * bb /\ length tempcind = nnz M /\ length temprptr = nbrows M + 1 /\
        (forall k, k < i -> temprptr !! k = Some (length (src M p k))) /\ copied M (src M p i) tempcind tempval).
      - lia.
      - split; [reflexivity|]. rewrite !replicate_length, insert_length, replicate_length.
        repeat split; auto; try (intros; lia). all: destruct x; discriminate.
      - intros i [[[tv tc] tr] pos] Hi (E1 & E2 & E3 & E4 & E5 & E6).
        eapply ok_bind; [eapply ok_get; [apply (perm_get _ _ _ Hp); lia|exact eq_refl]|]. intros ? <-.
        pose proof (perm_get_lt _ p i Hp ltac:(lia)) as Hni. set (ni := p !!! i) in *.
        rewrite set_Ok by lia. cbn [bind].
        eapply ok_bind; [eapply ok_get; [apply (wf_browptr M _ Hw); lia|exact eq_refl]|]. intros ? <-.
        eapply ok_bind; [eapply ok_get; [apply (wf_browptr M _ Hw); lia|exact eq_refl]|]. intros ? <-.
        pose proof (wf_mono M Hw ni Hni) as Hmono.
        pose proof (src_le M p (i + 1) Hw Hp ltac:(lia)) as Hle. rewrite src_S in Hle. fold ni in Hle.
        rewrite app_length, range_length in Hle.
        eapply ok_bind with (P := fun '(tv, tc, pos) => pos = length (src M p (i + 1)) /\ length tv = nnz M * bb /\
          length tc = nnz M /\ copied M (src M p (i + 1)) tc tv).
        { eapply ok_for_post with (I := fun jj '(tv, tc, pos) => let l := src M p i ++ range (rp M ni) jj in
            pos = length l /\ length tv = nnz M * bb /\ length tc = nnz M /\ copied M l tc tv).
          - lia.
          - rewrite range_nil by lia. rewrite app_nil_r. auto.
          - clear tv tc pos E1 E2 E3 E6. intros jj [[tv tc] pos] Hjj (E1 & E2 & E3 & E6).
            assert (jj < nnz M) as Hjn by (apply (inrow_lt M ni); [exact Hw|]; split; lia).
            eapply ok_bind; [eapply ok_get; [apply (wf_bcolind M jj Hw Hjn)|exact eq_refl]|]. intros ? <-.
            assert (pos < nnz M) as Hpos by (rewrite E1, app_length, range_length; lia).
            rewrite set_Ok by lia. cbn [bind].
            eapply ok_bind; [apply copyblk_spec; nia|]. intros tv' (C1 & C2 & C3). simpl.
            rewrite (range_snoc (rp M ni) jj) by lia. rewrite app_assoc.
            split; [rewrite E1, (app_length (_ ++ _)); simpl; lia|]. split; [lia|]. split; [rewrite insert_length; exact E3|].
            intros x j Hx. apply lookup_app_Some in Hx as [Hx|[Hx1 Hx2]].
            + assert (x < pos) by (rewrite E1; eapply lookup_lt_Some; eauto). destruct (E6 x j Hx) as [D1 D2]. split.
              * rewrite list_lookup_insert_ne by lia. exact D1.
              * intros e He. rewrite C3 by nia. apply D2, He.
            + apply list_lookup_singleton_Some in Hx2 as [Hx2 <-]. assert (x = pos) as -> by lia. split.
              * rewrite list_lookup_insert by lia. symmetry. apply wf_bcolind; auto.
              * exact C2.
          - intros [[tv' tc'] pos']. rewrite src_S. auto. }
        intros [[tv' tc'] pos'] (C1 & C2 & C3 & C4). simpl. split; [exact C1|]. split; [exact C2|]. split; [exact C3|].
        split; [rewrite insert_length; exact E4|]. split; [|exact C4]. intros k Hk.
        destruct (decide (k = i)) as [->|]; [rewrite list_lookup_insert by lia; congruence|].
        rewrite list_lookup_insert_ne by lia. apply E5. lia.
      - intros [[[tv tc] tr] pos] (E1 & E2). rewrite src_length in E1 by auto. auto. }
    intros [[[tv tc] tr] pos] (-> & E2 & E3 & E4 & E5 & E6).
    eapply ok_bind with (P := fun rptr => length rptr = nbrows M + 1 /\ forall k, k <= nbrows M -> rptr !! k = Some (length (src M p k))).
    { eapply ok_for_post with (I := fun i rptr => length rptr = nbrows M + 1 /\ (forall k, k < i -> rptr !! k = Some (length (src M p k))) /\
        rptr !! nbrows M = Some (nnz M)).
      - lia.
      - split; [apply (wf_len M Hw)|]. split; [intros; lia|]. apply (wf_browptr M _ Hw). lia.
      - intros i rptr Hi (H1 & H2 & H3).
        eapply ok_bind; [eapply ok_get; [apply E5; lia|exact eq_refl]|]. intros ? <-.
        apply ok_set; [lia|]. split; [rewrite insert_length; exact H1|]. split.
        + intros k Hk. destruct (decide (k = i)) as [->|]; [rewrite list_lookup_insert by lia; congruence|].
          rewrite list_lookup_insert_ne by lia. apply H2. lia.
        + rewrite list_lookup_insert_ne by lia. exact H3.
      - intros rptr (H1 & H2 & H3). split; [exact H1|]. intros k Hk. destruct (decide (k = nbrows M)) as [->|]; [|apply H2; lia].
        rewrite H3, src_length; auto. }
    intros rptr (H1 & H2).
    eapply ok_bind with (P := fun '(cind, v) => cind = tc /\ v = tv).
    { eapply ok_for_post with (I := fun jj '(cind, v) => length cind = nnz M /\ length v = nnz M * bb /\
        (forall x, x < jj -> cind !! x = tc !! x) /\ (forall x, x < jj * bb -> v !! x = tv !! x)).
      - lia.
      - split; [apply (wf_clen M Hw)|]. split; [exact Hv|]. split; intros; lia.
      - intros jj [cind v] Hj (C1 & C2 & C3 & C4). destruct (lookup_lt_is_Some_2 tc jj) as [c Hc]; [lia|].
        eapply ok_bind; [eapply ok_get; [exact Hc|exact eq_refl]|]. intros ? <-.
        rewrite set_Ok by lia. cbn [bind]. eapply ok_bind; [apply copyblk_spec; nia|]. intros v' (D1 & D2 & D3). simpl.
        split; [rewrite insert_length; exact C1|]. split; [lia|]. split.
        + intros x Hx. destruct (decide (x = jj)) as [->|]; [rewrite list_lookup_insert by lia; congruence|].
          rewrite list_lookup_insert_ne by lia. apply C3. lia.
        + intros x Hx. destruct (decide (x < jj * bb)); [rewrite D3 by lia; apply C4; lia|].
          replace x with (jj * bb + (x - jj * bb)) by lia. apply D2. nia.
      - intros [cind v] (C1 & C2 & C3 & C4). split; apply list_eq_lt; try lia.
        + intros x Hx. apply C3. lia.
        + intros x Hx. apply C4. lia. }
    intros [cind v] [-> ->]. simpl. split; [apply copied_mapped; auto|]. intros Hs. eapply copied_sorted; eauto.
  Qed.

  Lemma inverse_rows_spec p ip M : wf_pat M -> length (vals M) = nnz M * bb -> p ≡ₚ seq 0 (nbrows M) ->
    inverse_perm (nbrows M) p ip ->
    ok (inverse_rows bs p M) (fun M' => mapped (fun i => ip !!! i) id M M' /\ (wf_sorted M -> wf_sorted M')).
  Proof.
    intros Hw Hv Hp Hip. unfold inverse_rows.
    set (isrow := fun (i : nat) (row : list (nat * list F)) => length row = rowlen M i /\ forall e c b, row !! e = Some (c, b) ->
      bcolind M !! (rp M i + e) = Some c /\ length b = bb /\ forall k, k < bb -> b !! k = vals M !! ((rp M i + e) * bb + k)).
    eapply ok_bind with (P := fun brows => length brows = nbrows M /\ forall i, i < nbrows M -> exists row, brows !! i = Some row /\ isrow (ip !!! i) row).
    { eapply ok_for_post with (I := fun i brows => length brows = nbrows M /\ forall k, k < i -> exists row, brows !! (p !!! k) = Some row /\ isrow k row).
      - lia.
      - rewrite replicate_length. split; [reflexivity|]. intros; lia.
      - intros i brows Hi [H1 H2].
        eapply ok_bind; [eapply ok_get; [apply (perm_get _ _ _ Hp); lia|exact eq_refl]|]. intros ? <-.
        eapply ok_bind; [eapply ok_get; [apply (wf_browptr M _ Hw); lia|exact eq_refl]|]. intros ? <-.
        eapply ok_bind; [eapply ok_get; [apply (wf_browptr M _ Hw); lia|exact eq_refl]|]. intros ? <-.
        eapply ok_bind.
        { apply (ok_mapr _ _ (fun e (cb : nat * list F) => bcolind M !! (rp M i + e) = Some (fst cb) /\ length (snd cb) = bb /\
            forall k, k < bb -> snd cb !! k = vals M !! ((rp M i + e) * bb + k))).
          intros e jj Hjj. apply lookup_seq in Hjj as [-> He].
          assert (rp M i + e < nnz M) as Hjn by (apply (inrow_lt M i); [exact Hw|]; split; lia).
          eapply ok_bind; [eapply ok_get; [apply (wf_bcolind M _ Hw Hjn)|exact eq_refl]|]. intros ? <-.
          eapply ok_bind.
          { apply (ok_mapr _ _ (fun k x => vals M !! ((rp M i + e) * bb + k) = Some x)).
            intros k a Ha. apply lookup_seq in Ha as [-> Hk]. apply ok_get_lt; [nia|]. intros x E. exact E. }
          intros b [Hbl Hb]. rewrite seq_length in Hbl. simpl. split; [apply wf_bcolind; auto|]. split; [exact Hbl|].
          intros k Hk. destruct (lookup_lt_is_Some_2 b k) as [x Hx]; [lia|]. rewrite Hx. symmetry. apply Hb, Hx. }
        intros row [Hrl Hrow]. rewrite range_length in Hrl.
        pose proof (perm_get_lt _ p i Hp ltac:(lia)) as Hlt. apply ok_set; [lia|].
        split; [rewrite insert_length; exact H1|]. intros k Hk. destruct (decide (k = i)) as [->|Hne].
        + exists row. split; [apply list_lookup_insert; lia|]. split; [exact Hrl|]. intros e c b E. apply (Hrow e (c, b) E).
        + rewrite list_lookup_insert_ne; [apply H2; lia|]. intros E. apply Hne.
          eapply (perm_inj _ p); [exact Hp| |]; [apply (perm_get _ _ _ Hp); lia|]. rewrite <- E. apply (perm_get _ _ _ Hp); lia.
      - intros brows [H1 H2]. split; [exact H1|]. intros i Hi.
        destruct (inverse_perm_r _ p ip i Hp Hip Hi) as (k & E1 & E2 & E3).
        destruct (H2 k E2) as (row & Hr1 & Hr2). exists row.
        rewrite (list_lookup_total_correct _ _ _ E3) in Hr1. rewrite (list_lookup_total_correct _ _ _ E1). auto. }
    intros brows [Hbl Hbr]. pose proof (inverse_perm_perm _ p ip Hp Hip) as Hipp.
    rewrite set_Ok by (rewrite (wf_len M Hw); lia). cbn [bind].
    eapply ok_bind with (P := fun '(rptr, cind, v) => length rptr = nbrows M + 1 /\ length cind = nnz M /\ length v = nnz M * bb /\
      (forall k, k <= nbrows M -> rptr !! k = Some (length (src M ip k))) /\ copied M (src M ip (nbrows M)) cind v).
    { eapply ok_for_post with (I := fun i '(rptr, cind, v) => length rptr = nbrows M + 1 /\ length cind = nnz M /\ length v = nnz M * bb /\
        (forall k, k <= i -> rptr !! k = Some (length (src M ip k))) /\ copied M (src M ip i) cind v).
      - lia.
      - rewrite insert_length. split; [apply (wf_len M Hw)|]. split; [apply (wf_clen M Hw)|]. split; [exact Hv|]. split.
        + intros k Hk. replace k with 0 by lia. rewrite list_lookup_insert by (rewrite (wf_len M Hw); lia). reflexivity.
        + intros x j Hx. destruct x; discriminate.
      - intros i [[rptr cind] v] Hi (H1 & H2 & H3 & H4 & H5).
        destruct (Hbr i ltac:(lia)) as (row & Hrow & Hrl & Hre).
        eapply ok_bind; [eapply ok_get; [exact Hrow|exact eq_refl]|]. intros ? <-.
        eapply ok_bind; [eapply ok_get; [apply H4; lia|exact eq_refl]|]. intros ? <-.
        rewrite set_Ok by lia. cbn [bind].
        pose proof (perm_get_lt _ ip i Hipp ltac:(lia)) as Hni.
        pose proof (src_le M ip (i + 1) Hw Hipp ltac:(lia)) as Hle. rewrite src_S in Hle.
        rewrite app_length, range_length in Hle. unfold rowlen in Hrl.
        pose proof (wf_mono M Hw _ Hni) as Hmono. set (ni := ip !!! i) in *. set (L := length (src M ip i)) in *.
        eapply ok_bind with (P := fun '(cind, v) => length cind = nnz M /\ length v = nnz M * bb /\ copied M (src M ip (i + 1)) cind v).
        { eapply ok_for_post with (I := fun jj '(cind, v) => length cind = nnz M /\ length v = nnz M * bb /\
            copied M (src M ip i ++ range (rp M ni) (rp M ni + (jj - L))) cind v).
          - lia.
          - split; [exact H2|]. split; [exact H3|]. rewrite range_nil by lia. rewrite app_nil_r. exact H5.
          - clear cind v H2 H3 H5. intros jj [cind v] Hjj (H2 & H3 & H5).
            destruct (lookup_lt_is_Some_2 row (jj - L)) as [[c b] Hcb]; [lia|].
            destruct (Hre _ _ _ Hcb) as (R1 & R2 & R3).
            eapply ok_bind; [eapply ok_get; [exact Hcb|exact eq_refl]|]. intros ? <-. cbn beta iota.
            rewrite set_Ok by lia. cbn [bind].
            eapply ok_bind with (P := fun v' => length v' = length v /\ (forall e, e < bb -> v' !! (jj * bb + e) = b !! e) /\
              (forall x, x < jj * bb -> v' !! x = v !! x)).
            { eapply ok_for_post with (I := fun k v' => length v' = length v /\ (forall e, e < k -> v' !! (jj * bb + e) = b !! e) /\
                (forall x, x < jj * bb -> v' !! x = v !! x)).
              - lia.
              - split; [reflexivity|]. split; [intros; lia|reflexivity].
              - intros k v' Hk (V1 & V2 & V3). destruct (lookup_lt_is_Some_2 b k) as [a Ha]; [lia|].
                eapply ok_bind; [eapply ok_get; [exact Ha|exact eq_refl]|]. intros ? <-.
                apply ok_set; [nia|]. split; [rewrite insert_length; exact V1|]. split.
                + intros e He. destruct (decide (e = k)) as [->|]; [rewrite list_lookup_insert; [congruence|nia]|].
                  rewrite list_lookup_insert_ne by lia. apply V2. lia.
                + intros x Hx. rewrite list_lookup_insert_ne by lia. apply V3. lia.
              - auto. }
            intros v' (V1 & V2 & V3). simpl. split; [rewrite insert_length; exact H2|]. split; [lia|].
            replace (rp M ni + (jj + 1 - L)) with (rp M ni + (jj - L) + 1) by lia. rewrite range_snoc by lia. rewrite app_assoc.
            assert (length (src M ip i ++ range (rp M ni) (rp M ni + (jj - L))) = jj) as Hlen.
            { rewrite app_length, range_length. fold L. lia. }
            intros x j Hx. apply lookup_app_Some in Hx as [Hx|[Hx1 Hx2]].
            + assert (x < jj) by (rewrite <- Hlen; eapply lookup_lt_Some; eauto). destruct (H5 x j Hx) as [D1 D2]. split.
              * rewrite list_lookup_insert_ne by lia. exact D1.
              * intros e He. rewrite V3 by nia. apply D2, He.
            + rewrite Hlen in Hx1, Hx2. apply list_lookup_singleton_Some in Hx2 as [Hx2 <-]. assert (x = jj) as -> by lia. split.
              * rewrite list_lookup_insert by lia. symmetry. exact R1.
              * intros e He. rewrite V2, R3 by lia. reflexivity.
          - intros [cind' v'] (V1 & V2 & V3). split; [exact V1|]. split; [exact V2|]. rewrite src_S. fold ni.
            replace (rp M ni + (length row + L - L)) with (rp M (ni + 1)) in V3 by lia. exact V3. }
        intros [cind' v'] (C1 & C2 & C3). simpl. split; [rewrite insert_length; exact H1|]. split; [exact C1|]. split; [exact C2|].
        split; [|exact C3]. intros k Hk. destruct (decide (k = i + 1)) as [->|].
        + rewrite list_lookup_insert by lia. f_equal. rewrite src_S, app_length, range_length. fold ni L. lia.
        + rewrite list_lookup_insert_ne by lia. apply H4. lia.
      - auto. }
    intros [[rptr cind] v] (H1 & H2 & H3 & H4 & H5). simpl. split; [apply copied_mapped; auto|]. intros Hs. eapply copied_sorted; eauto.
  Qed.

  (** ** Renaming columns *)
  Lemma rename_cols_spec (ip : list nat) M : wf_pat M -> length (vals M) = nnz M * bb -> ip ≡ₚ seq 0 (nbrows M) ->
    nok (rename_cols bs ip M) (fun M' => mapped id (fun c => ip !!! c) M M' /\ 
      forall i j1 j2, i < nbrows M -> rp M i <= j1 -> j1 <= j2 -> j2 < rp M (i + 1) -> col M' j1 <= col M' j2).
  Proof.
    intros Hw Hv Hp. unfold rename_cols.
    set (rowok := fun (cind : list nat) (v : list F) i => exists f,
      (forall k, k < rowlen M i -> f k < rowlen M i) /\
      (forall k k', k < rowlen M i -> k' < rowlen M i -> f k = f k' -> k = k') /\
      (forall k, k < rowlen M i -> cind !! (rp M i + k) = Some (ip !!! (col M (rp M i + f k))) /\
        forall e, e < bb -> v !! ((rp M i + k) * bb + e) = vals M !! ((rp M i + f k) * bb + e)) /\
      forall k k', k <= k' -> k' < rowlen M i -> cind !!! (rp M i + k) <= cind !!! (rp M i + k')).
    set (same := fun (cind : list nat) (v : list F) i => forall k, k < rowlen M i -> cind !! (rp M i + k) = bcolind M !! (rp M i + k) /\
        forall e, e < bb -> v !! ((rp M i + k) * bb + e) = vals M !! ((rp M i + k) * bb + e)).
    eapply nok_bind with (P := fun '(cind, v) => length cind = nnz M /\ length v = nnz M * bb /\ forall i, i < nbrows M -> rowok cind v i).
    { apply (nok_par_for 0 (nbrows M) _ _ (fun dn '(cind, v) => length cind = nnz M /\ length v = nnz M * bb /\
        (forall i, i ∈ dn -> rowok cind v i) /\ forall i, i < nbrows M -> i ∉ dn -> same cind v i)).
      - split; [apply (wf_clen M Hw)|]. split; [exact Hv|]. split; [intros i Hi; apply elem_of_nil in Hi as []|].
        intros i _ _ k _. auto.
      - intros dn i [cind v] Hdn Hi Hnin (H1 & H2 & H3 & H4).
        eapply ok_bind; [eapply ok_get; [apply (wf_browptr M _ Hw); lia|exact eq_refl]|]. intros ? <-.
        eapply ok_bind; [eapply ok_get; [apply (wf_browptr M _ Hw); lia|exact eq_refl]|]. intros ? <-. cbv zeta.
        pose proof (wf_mono M Hw i ltac:(lia)) as Hmono.
        pose proof (rp_mono M (i + 1) (nbrows M) Hw ltac:(lia) ltac:(lia)) as Hend. change (rp M (nbrows M)) with (nnz M) in Hend.
        set (N := rp M (i + 1) - rp M i) in *. assert (rowlen M i = N) as HN by reflexivity.
        eapply ok_bind.
        { apply (ok_mapr _ _ (fun e c => c = col M (rp M i + e))).
          intros e jj Hjj. apply lookup_seq in Hjj as [-> He].
          destruct (H4 i ltac:(lia) Hnin e ltac:(lia)) as [E _]. eapply ok_get; [rewrite E; apply wf_bcolind; [exact Hw|lia]|reflexivity]. }
        intros ocinds [Hol Ho]. rewrite range_length in Hol. fold N in Hol.
        eapply ok_bind with (P := fun cind' => length cind' = nnz M /\
          (forall k, k < N -> cind' !! (rp M i + k) = Some (ip !!! (col M (rp M i + k)))) /\
          forall x, x < rp M i \/ rp M i + N <= x -> cind' !! x = cind !! x).
        { eapply ok_for_post with (I := fun jj cind' => length cind' = nnz M /\
            (forall k, k < jj -> cind' !! (rp M i + k) = Some (ip !!! (col M (rp M i + k)))) /\
            forall x, x < rp M i \/ rp M i + N <= x -> cind' !! x = cind !! x).
          - lia.
          - split; [exact H1|]. split; [intros; lia|reflexivity].
          - intros jj cind' Hjj (C1 & C2 & C3). destruct (lookup_lt_is_Some_2 ocinds jj) as [oc Hoc]; [lia|].
            eapply ok_bind; [eapply ok_get; [exact Hoc|exact eq_refl]|]. intros ? <-.
            pose proof (Ho _ _ Hoc) as ->.
            assert (col M (rp M i + jj) < nbrows M) as Hcl by (apply (wf_col M Hw); lia).
            eapply ok_bind; [eapply ok_get; [apply (perm_get _ _ _ Hp Hcl)|exact eq_refl]|]. intros ? <-.
            apply ok_set; [lia|]. split; [rewrite insert_length; exact C1|]. split.
            + intros k Hk. destruct (decide (k = jj)) as [->|]; [apply list_lookup_insert; lia|].
              rewrite list_lookup_insert_ne by lia. apply C2. lia.
            + intros x Hx. rewrite list_lookup_insert_ne by lia. apply C3, Hx.
          - auto. }
        intros cind' (C1 & C2 & C3).
        eapply ok_mono; [apply sort_inner_spec; [lia|nia]|]. intros [cind2 v2] (f & Hf & Hinj & (P1 & P2 & P3) & (Q1 & Q2 & Q3) & Hs).
        assert (forall i', i' < nbrows M -> i' <> i -> forall k, k < rowlen M i' -> rp M i' + k < rp M i \/ rp M i + N <= rp M i' + k) as Hsep.
        { intros i' Hi' Hne k Hk. unfold rowlen in Hk. destruct (decide (i' < i)).
          - pose proof (rp_mono M (i' + 1) i Hw ltac:(lia) ltac:(lia)). lia.
          - pose proof (rp_mono M (i + 1) i' Hw ltac:(lia) ltac:(lia)). lia. }
        split; [lia|]. split; [lia|]. split.
        + intros i' Hi'. apply elem_of_app in Hi' as [Hi'|Hi'].
          * assert (i' <> i) as Hne by congruence. destruct (Hdn i' Hi') as [_ Hlt].
            destruct (H3 i' Hi') as (g & G1 & G2 & G3 & G4). exists g. split; [exact G1|]. split; [exact G2|].
            assert (forall k, k < rowlen M i' -> cind2 !! (rp M i' + k) = cind !! (rp M i' + k)) as Hc2.
            { intros k Hk. specialize (Hsep i' Hlt Hne k Hk). rewrite P3 by lia. apply C3, Hsep. }
            split.
            -- intros k Hk. destruct (G3 k Hk) as [G5 G6]. rewrite Hc2 by exact Hk. split; [exact G5|].
               intros e He. specialize (Hsep i' Hlt Hne k Hk). rewrite Q3; [apply G6, He|]. nia.
            -- intros k k' Hk Hk'. rewrite !list_lookup_total_alt, !Hc2 by lia. rewrite <- !list_lookup_total_alt. apply G4; lia.
          * apply elem_of_list_singleton in Hi' as ->. exists f. rewrite HN. split; [exact Hf|]. split; [exact Hinj|]. split; [|exact Hs].
            intros k Hk. split.
            -- specialize (P2 k 0 Hk ltac:(lia)). rewrite !Nat.mul_1_r, !Nat.add_0_r in P2. rewrite P2. apply C2, Hf, Hk.
            -- intros e He. rewrite Q2 by auto. destruct (H4 i ltac:(lia) Hnin (f k)) as [_ E]; [rewrite HN; apply Hf, Hk|]. apply E, He.
        + intros i' Hi' Hn'. rewrite elem_of_app, elem_of_list_singleton in Hn'.
          assert (i' <> i) as Hne by tauto. intros k Hk. specialize (Hsep i' Hi' Hne k Hk).
          destruct (H4 i' Hi' ltac:(tauto) k Hk) as [E1 E2]. split.
          * rewrite P3 by lia. rewrite C3 by exact Hsep. exact E1.
          * intros e He. rewrite Q3 by nia. apply E2, He.
      - intros l [cind v] Hl (H1 & H2 & H3 & _). split; [exact H1|]. split; [exact H2|]. intros i Hi. apply H3.
        rewrite Hl. apply elem_of_range. lia. }
    intros [cind v] (H1 & H2 & H3). apply nok_ret. set (M' := with_arrays M (browptr M) cind v).
    assert (forall i, rp M' i = rp M i) as Hrp by reflexivity.
    assert (forall j, j < nnz M -> col M' j < nbrows M) as Hcl.
    { intros j Hj. destruct (inrow_exists M j Hw Hj) as (i & Hi & Hij). destruct (H3 i Hi) as (f & Hf & _ & Hc & _).
      unfold rowlen in *. destruct (Hc (j - rp M i) ltac:(lia)) as [E _]. replace (rp M i + (j - rp M i)) with j in E by lia.
      unfold col, M'. simpl. rewrite (list_lookup_total_correct _ _ _ E). apply (perm_get_lt _ _ _ Hp).
      apply (wf_col M Hw). apply (inrow_lt M i); [exact Hw|]. split; [exact Hi|]. specialize (Hf (j - rp M i)). lia. }
    split.
    - split; auto.
      + split; simpl; auto; [apply (wf_len M Hw)|apply (wf_0 M Hw)|apply (wf_mono M Hw)].
      + unfold M'. simpl. lia.
      + intros i Hi. split; [reflexivity|]. destruct (H3 i Hi) as (f & Hf & Hinj & Hc & _). exists f.
        split; [exact Hf|]. split; [exact Hinj|]. intros k Hk. destruct (Hc k Hk) as [E1 E2]. split; [|exact E2].
        unfold col at 1, M'. simpl. change (rp (with_arrays M (browptr M) cind v) i) with (rp M i). apply list_lookup_total_correct, E1.
    - intros i j1 j2 Hi Hj1 Hj Hj2. destruct (H3 i Hi) as (_ & _ & _ & _ & Hs). unfold rowlen in Hs.
      specialize (Hs (j1 - rp M i) (j2 - rp M i) ltac:(lia) ltac:(lia)).
      replace (rp M i + (j1 - rp M i)) with j1 in Hs by lia. replace (rp M i + (j2 - rp M i)) with j2 in Hs by lia. exact Hs.
  Qed.
End Rows.
