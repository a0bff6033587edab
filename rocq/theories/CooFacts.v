From Verif Require Import Base Alg SRMatrix KernelFacts Nd Reorder Coo CooSpec.
From Coq Require Import ZArith.
Open Scope nat_scope.

Lemma alloc_length {A} (g : nat -> A) n : length (alloc g n) = n.
Proof. unfold alloc. rewrite fmap_length, seq_length. reflexivity. Qed.

(** filling an array from the front *)
Lemma ok_fill {A} (l : list A) n (f : nat -> res A) (h : nat -> A) (Q : list A -> Prop) :
  length l = n -> (forall i, i < n -> f i = Ok (h i)) -> Q (h <$> seq 0 n) ->
  ok (for_ 0 n (fun i l => let! x := f i in set l i x) l) Q.
Proof.
  intros Hl Hf HQ. eapply ok_for_post with (I := fun k (l' : list A) => length l' = n /\ forall i, i < k -> l' !! i = Some (h i)).
  - lia.
  - split; [exact Hl|]. intros; lia.
  - intros i l' Hi [Hl' H]. rewrite Hf by lia. cbn [bind]. apply ok_set; [lia|]. split; [rewrite insert_length; exact Hl'|].
    intros k Hk. destruct (decide (i = k)) as [<-|]; [apply list_lookup_insert; lia|].
    rewrite list_lookup_insert_ne by assumption. apply H. lia.
  - intros l' [Hl' H]. replace l' with (h <$> seq 0 n); [exact HQ|]. apply list_eq_lt; [rewrite fmap_length, seq_length; auto|].
    intros k Hk. rewrite fmap_length, seq_length in Hk. rewrite list_lookup_fmap, lookup_seq_lt by exact Hk. rewrite H by exact Hk. reflexivity.
Qed.

Section Rows.
  Context {F : Type}.
  Variable c : coo F.
  Hypothesis Hc : coo_ok c.
  Definition crp (i : nat) : nat := rowptr c !!! i.
  Lemma crp_get i : i <= nrows c -> rowptr c !! i = Some (crp i).
  Proof. intros Hi. destruct (lookup_lt_is_Some_2 (rowptr c) i) as [x Ex]; [rewrite (co_len c Hc); lia|]. unfold crp. rewrite Ex. f_equal. symmetry. apply list_lookup_total_correct, Ex. Qed.
  Lemma crp_0 : crp 0 = 0.
  Proof. pose proof (crp_get 0 ltac:(lia)) as H. rewrite (co_0 c Hc) in H. congruence. Qed.
  Lemma crp_last : crp (nrows c) = length (entries c).
  Proof. pose proof (crp_get (nrows c) ltac:(lia)) as H. rewrite (co_last c Hc) in H. rewrite <- (co_nnz c Hc). congruence. Qed.
  Lemma crp_step i : i < nrows c -> crp i <= crp (i + 1).
  Proof. intros Hi. apply (co_mono c Hc i); apply crp_get; lia. Qed.
  Lemma crp_mono i k : i <= k -> k <= nrows c -> crp i <= crp k.
  Proof. intros Hik Hk. induction Hik as [|k Hik IH]; [lia|]. pose proof (crp_step k ltac:(lia)). rewrite Nat.add_1_r in *. lia. Qed.
  Lemma crp_delim i k e : i < nrows c -> entries c !! k = Some e -> (rowind e = i <-> crp i <= k < crp (i + 1)).
  Proof. intros Hi He. apply (co_delim c Hc i (crp i) (crp (i + 1))); [apply crp_get; lia|apply crp_get; lia|exact He]. Qed.
  (** running over all entries row by row is running over the list *)
  Lemma ok_entries {St} (body : nat -> nat -> entry F -> St -> res St) s (I : nat -> St -> Prop) (Q : St -> Prop) :
    I 0 s ->
    (forall k e s', entries c !! k = Some e -> rowind e < nrows c -> colind e < ncols c -> I k s' -> ok (body (rowind e) k e s') (I (k + 1))) ->
    (forall s', I (length (entries c)) s' -> Q s') ->
    ok (for_ 0 (nrows c) (fun irow s => let! lo := get (rowptr c) irow in let! hi := get (rowptr c) (irow + 1) in
      for_ lo hi (fun j s => let! e := get (entries c) j in body irow j e s) s) s) Q.
  Proof.
    intros H0 Hb HQ. eapply ok_for_post with (I := fun i s => I (crp i) s).
    - lia.
    - rewrite crp_0. exact H0.
    - intros i s' Hi HI.
      eapply ok_bind; [eapply ok_get; [apply crp_get; lia|exact eq_refl]|]. intros ? <-.
      eapply ok_bind; [eapply ok_get; [apply crp_get; lia|exact eq_refl]|]. intros ? <-.
      pose proof (crp_step i ltac:(lia)). pose proof (crp_mono (i + 1) (nrows c) ltac:(lia) ltac:(lia)). pose proof crp_last.
      apply ok_for; [lia|exact HI|]. intros j s'' Hj HI'.
      destruct (lookup_lt_is_Some_2 (entries c) j) as [e He]; [lia|].
      eapply ok_bind; [eapply ok_get; [exact He|exact eq_refl]|]. intros ? <-.
      pose proof (co_row c Hc _ _ He) as [Hr Hcol]. pose proof (proj2 (crp_delim i j e ltac:(lia) He) ltac:(lia)) as <-.
      apply Hb; auto.
    - intros s' HI. apply HQ. rewrite <- crp_last. exact HI.
  Qed.
End Rows.

Section CSR.
  Context {F : Type} {O : SOps F}.
  Variable c : coo F.
  Hypothesis Hc : coo_ok c.
  Lemma convertToCSR_spec gp gi gv gd :
    ok (convertToCSR gp gi gv gd c) (fun M => nbrows M = nrows c /\ browptr M = rowptr c /\ bcolind M = colind <$> entries c /\
      vals M = value <$> entries c /\ wf_end M /\ nnzb M = coo_nnz c /\ nbstored M = coo_nnz c /\
      length (diagind M) = nrows c /\
      forall i k e, entries c !! k = Some e -> rowind e = i -> colind e = i ->
        exists d e', diagind M !! i = Some d /\ entries c !! d = Some e' /\ rowind e' = i /\ colind e' = i).
  Proof.
    unfold convertToCSR. pose proof (crp_last c Hc) as Hlast. pose proof (co_nnz c Hc) as Hnnz.
    eapply ok_bind with (P := fun s => s = (colind <$> entries c, value <$> entries c)).
    { eapply ok_for_post with (I := fun k '(bi, v) => length bi = coo_nnz c /\ length v = coo_nnz c /\
        forall i e, i < k -> entries c !! i = Some e -> bi !! i = Some (colind e) /\ v !! i = Some (value e)).
      - lia.
      - rewrite !alloc_length. split; [reflexivity|]. split; [reflexivity|]. intros; lia.
      - intros i [bi v] Hi (L1 & L2 & H). destruct (lookup_lt_is_Some_2 (entries c) i) as [e He]; [lia|].
        eapply ok_bind; [eapply ok_get; [exact He|exact eq_refl]|]. intros ? <-.
        rewrite set_Ok by lia. cbn [bind]. rewrite set_Ok by lia. cbn [bind]. simpl.
        rewrite !insert_length. split; [exact L1|]. split; [exact L2|]. intros k e' Hk He'.
        destruct (decide (i = k)) as [<-|Hne].
        + rewrite !list_lookup_insert by lia. assert (e = e') as -> by congruence. auto.
        + rewrite !list_lookup_insert_ne by exact Hne. apply H; [lia|exact He'].
      - intros [bi v] (L1 & L2 & H). f_equal; (apply list_eq_lt; [rewrite fmap_length; lia|]); intros k Hk;
          (destruct (lookup_lt_is_Some_2 (entries c) k) as [e He]; [lia|]); rewrite list_lookup_fmap, He; simpl; apply (H k e ltac:(lia) He). }
    intros ? ->.
    eapply ok_bind with (P := fun p => p = rowptr c).
    { eapply ok_fill with (h := crp c).
      - apply alloc_length.
      - intros i Hi. apply get_Some, crp_get; [exact Hc|lia].
      - apply list_eq_lt; [rewrite fmap_length, seq_length; symmetry; apply (co_len c Hc)|]. intros k Hk.
        rewrite fmap_length, seq_length in Hk. rewrite list_lookup_fmap, lookup_seq_lt by exact Hk. simpl. symmetry. apply crp_get; [exact Hc|lia]. }
    intros ? ->.
    eapply ok_bind with (P := fun d => length d = nrows c /\ forall i k e, entries c !! k = Some e -> rowind e = i -> colind e = i ->
      exists d' e', d !! i = Some d' /\ entries c !! d' = Some e' /\ rowind e' = i /\ colind e' = i).
    { eapply (ok_entries c Hc) with (I := fun m d => length d = nrows c /\ forall i k e, k < m -> entries c !! k = Some e -> rowind e = i -> colind e = i ->
        exists d' e', d !! i = Some d' /\ entries c !! d' = Some e' /\ rowind e' = i /\ colind e' = i).
      - split; [apply alloc_length|]. intros; lia.
      - intros k e d He Hr Hcol [Ld H]. destruct (Nat.eqb_spec (colind e) (rowind e)) as [Heq|Hne].
        + apply ok_set; [lia|]. split; [rewrite insert_length; exact Ld|]. intros i k' e' Hk' He' H1 H2.
          destruct (decide (rowind e = i)) as [<-|Hni].
          * exists k, e. rewrite list_lookup_insert by lia. auto.
          * rewrite list_lookup_insert_ne by exact Hni. apply (H i k' e'); auto.
            destruct (decide (k' = k)) as [->|]; [congruence|lia].
        + simpl. split; [exact Ld|]. intros i k' e' Hk' He' H1 H2. apply (H i k' e'); auto.
          destruct (decide (k' = k)) as [->|]; [congruence|lia].
      - intros d [Ld H]. split; [exact Ld|]. intros i k e He. apply (H i k e); [|exact He]. apply lookup_lt_Some in He. exact He. }
    intros d [Ld Hd].
    eapply ok_bind; [eapply ok_get; [apply (co_last c Hc)|exact eq_refl]|]. intros ? <-. simpl.
    split; [reflexivity|]. split; [reflexivity|]. split; [reflexivity|]. split; [reflexivity|]. split.
    { split; simpl.
      - rewrite take_length, drop_length, (co_len c Hc). lia.
      - intros i Hi. rewrite lookup_take, lookup_drop by exact Hi. unfold rp. cbn [browptr]. rewrite (Nat.add_comm i 1).
        apply (crp_get c Hc (1 + i)). simpl in Hi. lia. }
    split; [reflexivity|]. split; [reflexivity|]. split; [exact Ld|].
    exact Hd.
  Qed.
End CSR.
