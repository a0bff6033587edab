(** * IluPatternFacts: what compute_ILU_positions returns *)
From Verif Require Import Base SRMatrix Helpers IluPattern.

Lemma ok_for_rows {A St} (M : srmat A) (body : nat -> nat -> St -> res St) (s : St) (I : nat -> St -> Prop) (Q : St -> Prop) :
  wf_pat M -> I 0 s ->
  (forall i j s', inrow M i j -> I j s' -> ok (body i j s') (I (j + 1))) ->
  (forall s', I (nnz M) s' -> Q s') -> ok (for_rows M body s) Q.
Proof.
  intros Hw H0 Hs HQ. unfold for_rows.
  eapply ok_for_post with (I := fun i s => I (rp M i) s); [lia| | |exact HQ].
  - rewrite (wf_0 M Hw). exact H0.
  - intros i s' Hi HI.
    eapply ok_bind; [eapply ok_get; [apply (wf_browptr M i Hw); lia|exact eq_refl]|]. intros ? <-.
    eapply ok_bind; [eapply ok_get; [apply (wf_browptr M (i + 1) Hw); lia|exact eq_refl]|]. intros ? <-.
    apply ok_for; [apply (wf_mono M Hw); lia|exact HI|].
    intros j s'' Hj. apply Hs. split; [lia|exact Hj].
Qed.

(** run [f] over a list of pairs *)
Fixpoint ffold {St} (f : nat -> nat -> St -> res St) (l : list (nat * nat)) (s : St) : res St :=
  match l with [] => Ok s | (k, p) :: l' => let! s' := f k p s in ffold f l' s' end.

Section Facts.
  Context {A : Type} (M : srmat A).
  Hypotheses (Hw : wf_pat M) (Hd : wf_diag M) (Hs : wf_sorted M).
  Let Hn : wf_nodup M := sorted_nodup M Hs.

  Definition term (b c k : nat) : option (nat * nat) :=
    if decide (col M k < b) then (fun p => (k, p)) <$> pos M (col M k) c else None.
  (** the pairs of positions (i,t), (t,c), t < min i c, in the order of t *)
  Definition terms (i c : nat) : list (nat * nat) :=
    omap (term (Nat.min i c) c) (range (rp M i) (rp M (i + 1))).
  Definition tms (j : nat) : list (nat * nat) := terms (rowof M j) (col M j).

  Lemma term_none b c k : b <= col M k -> term b c k = None.
  Proof. intros H. unfold term. rewrite decide_False by lia. reflexivity. Qed.
  Lemma search_pos t c : t < nbrows M -> t < c ->
    inner_search (bcolind M) (dg M t) (rp M (t + 1)) c = Ok (pos M t c).
  Proof.
    intros Ht Hc. pose proof (rp_mono M (t + 1) (nbrows M) Hw ltac:(lia) ltac:(lia)) as Hle.
    assert (rp M (t + 1) <= length (bcolind M)) as Hlen by (rewrite (wf_clen M Hw); exact Hle).
    pose proof (inner_search_spec (bcolind M) (dg M t) (rp M (t + 1)) c Hlen) as H.
    apply ok_inv in H as (r & E & H). rewrite E. f_equal.
    destruct Hd as [_ Hd']. destruct (Hd' t Ht) as [Hd1 Hd2].
    assert (forall j, j < rp M (t + 1) -> bcolind M !! j = Some (col M j)) as Hcol.
    { intros j Hj. apply wf_bcolind; [auto|]. unfold nnz. lia. }
    destruct r as [j|].
    - destruct H as (Hj & Hcj & _). rewrite Hcol in Hcj by lia. injection Hcj as Hcj.
      symmetry. rewrite <- Hcj. apply pos_of; [exact Hn|]. split; [auto|lia].
    - symmetry. apply pos_None; [auto|]. intros j Hj E'. apply (H j).
      + split; [|apply Hj]. apply Nat.lt_le_incl, (after_diag M t j Hs Hd Hj). lia.
      + rewrite Hcol by apply Hj. congruence.
  Qed.
  Lemma kscan_spec {St} i b c (f : nat -> nat -> St -> res St) : i < nbrows M -> b <= c -> b <= nbrows M ->
    forall n k s, rp M i <= k -> k + n = rp M (i + 1) ->
    kscan M b c f n k s = ffold f (omap (term b c) (range k (rp M (i + 1)))) s.
  Proof.
    intros Hi Hbc Hb. induction n as [|n IH]; intros k s Hk Hkn; cbn [kscan].
    - rewrite range_nil by lia. reflexivity.
    - assert (inrow M i k) as Hin by (split; [auto|lia]).
      pose proof (inrow_lt M i k Hw Hin) as Hkl.
      assert (get (bcolind M) k = Ok (col M k)) as -> by (apply get_Some, wf_bcolind; auto). cbn [bind].
      rewrite range_cons by lia. cbn [omap list_omap].
      destruct (Nat.ltb_spec (col M k) b) as [Hlt|Hge].
      + assert (get (diagind M) (col M k) = Ok (dg M (col M k))) as -> by (apply get_Some, wf_diagind; [auto|lia]). cbn [bind].
        assert (get (browptr M) (col M k + 1) = Ok (rp M (col M k + 1))) as -> by (apply get_Some, wf_browptr; [auto|lia]). cbn [bind].
        rewrite search_pos by lia. cbn [bind].
        unfold term at 1. rewrite decide_True by lia.
        destruct (pos M (col M k) c) as [p|]; simpl.
        * destruct (f k p s); simpl; auto. apply IH; lia.
        * apply IH; lia.
      + rewrite (term_none b c k Hge).
        assert (forall l : list nat, (forall x, x ∈ l -> k < x < rp M (i + 1)) -> omap (term b c) l = []) as Hnil.
        { induction l as [|x l IHl]; intros Hx; [reflexivity|]. cbn [omap list_omap]. rewrite term_none.
          - apply IHl. intros y Hy. apply Hx. right; auto.
          - specialize (Hx x ltac:(left)). pose proof (Hs i k x Hi Hk ltac:(lia) ltac:(lia)). lia. }
        simpl in Hnil. rewrite Hnil; [reflexivity|]. intros x Hx. apply elem_of_range in Hx. lia.
  Qed.
  Lemma scan_entry_spec {St} i j (f : nat -> nat -> St -> res St) s : inrow M i j ->
    scan_entry M i j f s = ffold f (tms j) s.
  Proof.
    intros Hj. pose proof (inrow_lt M i j Hw Hj) as Hjl. destruct Hj as [Hi Hj].
    unfold scan_entry, tms, terms. rewrite (rowof_inrow M i j Hw) by (split; auto).
    assert (get (bcolind M) j = Ok (col M j)) as -> by (apply get_Some, wf_bcolind; auto). cbn [bind].
    assert (get (browptr M) i = Ok (rp M i)) as -> by (apply get_Some, wf_browptr; [auto|lia]). cbn [bind].
    assert (get (browptr M) (i + 1) = Ok (rp M (i + 1))) as -> by (apply get_Some, wf_browptr; [auto|lia]). cbn [bind].
    pose proof (wf_col M Hw j Hjl). pose proof (wf_mono M Hw i Hi).
    destruct (Nat.ltb_spec (col M j) i).
    - rewrite Nat.min_r by lia. apply kscan_spec; auto; lia.
    - rewrite Nat.min_l by lia. apply kscan_spec; auto; lia.
  Qed.

  (** all pairs before those of entry [j] *)
  Definition allterms (j : nat) : list (nat * nat) := concat (tms <$> seq 0 j).
  Lemma allterms_S j : allterms (j + 1) = allterms j ++ tms j.
  Proof.
    unfold allterms. rewrite seq_app, fmap_app, concat_app. simpl. rewrite app_nil_r. reflexivity.
  Qed.
  Lemma allterms_mono j d : length (allterms j) <= length (allterms (j + d)).
  Proof.
    induction d as [|d IH]; [rewrite Nat.add_0_r; lia|].
    replace (j + S d) with (j + d + 1) by lia. rewrite allterms_S, app_length. lia.
  Qed.

  Lemma count_fold j (l : list (nat * nat)) : forall v x, v !! j = Some x ->
    ffold (fun _ _ v => let! x := get v j in set v j (x + 1)) l v = Ok (<[j := x + length l]> v).
  Proof.
    induction l as [|[k p] l IH]; intros v x Hx; cbn [ffold length].
    - rewrite Nat.add_0_r, list_insert_id by exact Hx. reflexivity.
    - assert (get v j = Ok x) as -> by (apply get_Some; exact Hx). cbn [bind].
      assert (j < length v) as Hj by (eapply lookup_lt_Some; eauto).
      rewrite set_Ok by exact Hj. cbn [bind].
      rewrite (IH _ (x + 1)) by (apply list_lookup_insert; exact Hj).
      rewrite list_insert_insert. do 2 f_equal. lia.
  Qed.
  Lemma write_fold base (l : list (nat * nat)) : forall (done : list (nat * nat)) (lo up rl ru : list nat),
    forall off, length done = base + off ->
    lo = done.*1 ++ rl -> up = done.*2 ++ ru -> length l <= length rl -> length l <= length ru ->
    ffold (fun k ipos '(offset, lowerp, upperp) =>
        let! p := Ok base in
        let! lowerp := set lowerp (p + offset) k in
        let! upperp := set upperp (p + offset) ipos in
        Ok (offset + 1, lowerp, upperp)) l (off, lo, up) =
    Ok (off + length l, (done ++ l).*1 ++ drop (length l) rl, (done ++ l).*2 ++ drop (length l) ru).
  Proof.
    induction l as [|[k p] l IH]; intros done lo up rl ru off Hoff -> -> Hrl Hru; cbn [ffold length].
    - rewrite !Nat.add_0_r, !app_nil_r, !drop_0. reflexivity.
    - destruct rl as [|x rl]; [simpl in Hrl; lia|]. destruct ru as [|y ru]; [simpl in Hru; lia|].
      cbn [bind]. rewrite set_Ok by (rewrite app_length, fmap_length; simpl; lia). cbn [bind].
      rewrite set_Ok by (rewrite app_length, fmap_length; simpl; lia). cbn [bind].
      rewrite (IH (done ++ [(k, p)]) _ _ rl ru); auto; try (simpl in *; lia).
      + rewrite <- app_assoc. replace (off + S (length l)) with (off + 1 + length l) by lia. reflexivity.
      + rewrite app_length. simpl. lia.
      + rewrite fmap_app, <- app_assoc. simpl.
        rewrite <- Hoff. replace (length done) with (length done.*1 + 0) by (rewrite fmap_length; lia).
        rewrite insert_app_r. reflexivity.
      + rewrite fmap_app, <- app_assoc. simpl.
        rewrite <- Hoff. replace (length done) with (length done.*2 + 0) by (rewrite fmap_length; lia).
        rewrite insert_app_r. reflexivity.
  Qed.

  (** the result in closed form *)
  Definition positions : ilupos :=
    IluPos ((fun j => length (allterms j)) <$> seq 0 (nnz M + 1))
           (allterms (nnz M)).*1 (allterms (nnz M)).*2.

  Lemma foldl_add (l : list nat) : forall x, foldl Nat.add x l = x + foldr Nat.add 0 l.
  Proof. induction l as [|a l IH]; intros x; simpl; [lia|]. rewrite IH. lia. Qed.
  Lemma foldr_lengths (n : nat) :
    foldr Nat.add 0 ((fun j => length (tms j)) <$> seq 0 n) = length (allterms n).
  Proof.
    unfold allterms. generalize (seq 0 n). intros l. induction l as [|a l IH]; [reflexivity|].
    rewrite !fmap_cons. cbn [foldr concat]. rewrite app_length, IH. reflexivity.
  Qed.
  Theorem compute_ILU_positions_spec : compute_ILU_positions M = Ok positions.
  Proof.
    assert (ok (compute_ILU_positions M) (fun p => p = positions)) as H.
    2: { apply ok_inv in H as (p & H & ->). exact H. }
    unfold compute_ILU_positions.
    assert (get (browptr M) (nbrows M) = Ok (nnz M)) as -> by (apply get_Some, wf_browptr; [auto|lia]).
    cbn [bind]. cbv zeta.
    rewrite set_Ok by (rewrite replicate_length; lia). cbn [bind].
    set (cnt := fun j => length (tms j)).
    eapply ok_bind.
    { apply (ok_for_rows M _ _ (fun j (s : list nat * list nat) =>
        s = ((cnt <$> seq 0 j) ++ replicate (nnz M - j) 0, 0 :: (cnt <$> seq 0 j) ++ replicate (nnz M - j) 0))
        (fun s => s = (cnt <$> seq 0 (nnz M), 0 :: (cnt <$> seq 0 (nnz M))))); auto.
      - simpl. rewrite Nat.sub_0_r, Nat.add_comm. reflexivity.
      - intros i j s Hj ->. pose proof (inrow_lt M i j Hw Hj) as Hjl.
        rewrite (scan_entry_spec i j _ _ Hj).
        replace (nnz M - j) with (S (nnz M - (j + 1))) by lia. cbn [replicate].
        rewrite (count_fold j (tms j) _ 0).
        2: { rewrite lookup_app_r by (rewrite fmap_length, seq_length; lia).
             rewrite fmap_length, seq_length, Nat.sub_diag. reflexivity. }
        cbn [bind]. rewrite (insert_app_r_alt _ _ j) by (rewrite fmap_length, seq_length; lia).
        rewrite fmap_length, seq_length, Nat.sub_diag. simpl.
        assert ((cnt <$> seq 0 (j + 1)) = (cnt <$> seq 0 j) ++ [cnt j]) as Hsn.
        { rewrite seq_app, fmap_app. reflexivity. }
        assert (get ((cnt <$> seq 0 j) ++ length (tms j) :: replicate (nnz M - (j + 1)) 0) j = Ok (cnt j)) as ->.
        { apply get_Some. rewrite lookup_app_r by (rewrite fmap_length, seq_length; lia).
          rewrite fmap_length, seq_length, Nat.sub_diag. reflexivity. }
        cbn [bind]. rewrite set_Ok.
        2: { simpl. rewrite app_length, fmap_length, seq_length. simpl. lia. }
        simpl. rewrite Hsn, <- !app_assoc. simpl. f_equal. f_equal.
        replace (j + 1) with (S j) by lia. simpl.
        rewrite (insert_app_r_alt _ _ j) by (rewrite fmap_length, seq_length; lia).
        rewrite fmap_length, seq_length, Nat.sub_diag. reflexivity.
      - intros s ->. rewrite Nat.sub_diag, !app_nil_r. reflexivity. }
    intros [numpos pp] [= -> ->].
    assert (foldl Nat.add 0 (cnt <$> seq 0 (nnz M)) = length (allterms (nnz M))) as Htot.
    { rewrite foldl_add. simpl. apply foldr_lengths. }
    rewrite Htot.
    eapply ok_bind.
    { apply (ok_mono _ _ (fun v => v = posptr positions) (inclusive_scan_spec _)). intros v [Hl Hv]. simpl in Hl, Hv.
      rewrite fmap_length, seq_length in Hl, Hv.
      apply list_eq_lt; [simpl; rewrite fmap_length, seq_length; lia|].
      intros i Hi. rewrite Hv by lia. simpl. rewrite list_lookup_fmap, lookup_seq_lt by lia. simpl. f_equal.
      unfold psum. rewrite Nat.add_comm. simpl. rewrite <- fmap_take.
      assert (take i (seq 0 (nnz M)) = seq 0 i) as ->.
      { replace (nnz M) with (i + (nnz M - i)) by lia. rewrite seq_app, take_app_alt by (rewrite seq_length; reflexivity). reflexivity. }
      apply foldr_lengths. }
    intros pp ->.
    eapply ok_bind with (P := fun s => s = ((allterms (nnz M)).*1, (allterms (nnz M)).*2)).
    2: { intros [lo up] [= -> ->]. reflexivity. }
    set (tot := length (allterms (nnz M))).
    apply (ok_for_rows M _ _ (fun j (s : list nat * list nat) =>
      s = ((allterms j).*1 ++ replicate (tot - length (allterms j)) 0,
           (allterms j).*2 ++ replicate (tot - length (allterms j)) 0))); auto.
    - unfold allterms. simpl. rewrite Nat.sub_0_r. reflexivity.
    - intros i j s Hj ->. pose proof (inrow_lt M i j Hw Hj) as Hjl.
      rewrite (scan_entry_spec i j _ _ Hj).
      assert (get (posptr positions) j = Ok (length (allterms j))) as ->.
      { apply get_Some. simpl. rewrite list_lookup_fmap, lookup_seq_lt by lia. reflexivity. }
      assert (length (allterms (j + 1)) <= tot) as Hle.
      { unfold tot. replace (nnz M) with ((j + 1) + (nnz M - (j + 1))) by lia.
        apply allterms_mono. }
      rewrite allterms_S, app_length in Hle.
      rewrite (write_fold (length (allterms j)) (tms j) (allterms j) _ _
        (replicate (tot - length (allterms j)) 0) (replicate (tot - length (allterms j)) 0)); auto;
        try (rewrite replicate_length; lia); try lia.
      simpl. rewrite allterms_S, drop_replicate. rewrite app_length.
      replace (tot - length (allterms j) - length (tms j)) with (tot - (length (allterms j) + length (tms j))) by lia.
      reflexivity.
    - intros s ->. unfold tot. rewrite Nat.sub_diag. simpl. rewrite !app_nil_r. reflexivity.
  Qed.

  (** *** reading the result *)
  Lemma elem_terms i c k p : i < nbrows M -> c < nbrows M ->
    (k, p) ∈ terms i c <-> exists t, t < i /\ t < c /\ pos M i t = Some k /\ pos M t c = Some p.
  Proof.
    intros Hi Hc. unfold terms. rewrite elem_of_list_omap. split.
    - intros (k' & Hk & Ht). apply elem_of_range in Hk. unfold term in Ht.
      destruct (decide _) as [Hlt|]; [|discriminate].
      apply fmap_Some in Ht as (p' & Hp & [= -> ->]). exists (col M k').
      split; [lia|]. split; [lia|]. split; [|exact Hp]. apply pos_of; [exact Hn|]. split; [auto|lia].
    - intros (t & Hti & Htc & Hk & Hp). apply pos_Some in Hk as [Hk E]; auto. exists k.
      split; [apply elem_of_range; apply Hk|]. unfold term. rewrite decide_True by lia.
      rewrite E, Hp. reflexivity.
  Qed.
  Lemma terms_keys i c : i < nbrows M -> NoDup ((terms i c).*1) /\ NoDup (col M <$> (terms i c).*1).
  Proof.
    intros Hi.
    assert (forall k p, (k, p) ∈ terms i c -> inrow M i k) as Hin.
    { intros k p H. unfold terms in H. apply elem_of_list_omap in H as (k' & Hk & Ht).
      unfold term in Ht. destruct (decide _); [|discriminate]. apply fmap_Some in Ht as (p' & Hp & [= -> ->]).
      apply elem_of_range in Hk. split; [auto|lia]. }
    assert (NoDup ((terms i c).*1)) as Hnd.
    { unfold terms. pose proof (NoDup_range (rp M i) (rp M (i + 1))) as Hr.
      induction (range (rp M i) (rp M (i + 1))) as [|x l IH]; cbn [omap list_omap]; [constructor|].
      apply NoDup_cons in Hr as [Hx Hr]. specialize (IH Hr).
      destruct (term (Nat.min i c) c x) as [[k p]|] eqn:E; [|exact IH].
      unfold term in E. destruct (decide _); [|discriminate]. apply fmap_Some in E as (p' & Hp & [= -> ->]).
      rewrite fmap_cons. constructor; [|exact IH]. simpl. intros Hxin.
      apply elem_of_list_fmap in Hxin as ([k' p''] & E' & Hxin). simpl in E'. subst k'.
      apply elem_of_list_omap in Hxin as (y & Hy & Ht). unfold term in Ht. destruct (decide _); [|discriminate].
      apply fmap_Some in Ht as (p1 & _ & [= -> ->]). contradiction. }
    split; [exact Hnd|]. apply NoDup_fmap_2_strong; [|exact Hnd].
    intros x y Hx Hy E. apply elem_of_list_fmap in Hx as ([kx px] & -> & Hx). apply elem_of_list_fmap in Hy as ([ky py] & -> & Hy).
    simpl in *. apply (Hn i); eauto.
  Qed.
  Lemma elem_tms j k p : j < nnz M ->
    (k, p) ∈ tms j <-> exists t, t < rowof M j /\ t < col M j /\ pos M (rowof M j) t = Some k /\ pos M t (col M j) = Some p.
  Proof.
    intros Hj. unfold tms. apply elem_terms; [apply (inrow_rowof M j Hw Hj)|apply (wf_col M Hw); auto].
  Qed.
  (** both positions come before [j] *)
  Lemma tms_before j k p : j < nnz M -> (k, p) ∈ tms j -> k < j /\ p < j.
  Proof.
    intros Hj H. apply elem_tms in H as (t & Ht1 & Ht2 & Hk & Hp); auto.
    pose proof (inrow_rowof M j Hw Hj) as Hr. pose proof (proj1 Hr) as Hi.
    apply pos_Some in Hk as [Hk Ek]; [|auto]. apply pos_Some in Hp as [Hp Ep]; [|lia].
    split.
    - destruct (decide (k < j)); [auto|]. exfalso.
      destruct (decide (k = j)) as [->|]; [lia|].
      pose proof (Hs (rowof M j) j k Hi (proj1 (proj2 Hr)) ltac:(lia) (proj2 (proj2 Hk))). lia.
    - apply (inrow_order M t (rowof M j) p j Hw Hp Hr Ht1).
  Qed.
  (** the segment of entry [j] *)
  Lemma allterms_lookup j e x n : j < n -> tms j !! e = Some x -> allterms n !! (length (allterms j) + e) = Some x.
  Proof.
    intros Hj He. replace n with (j + 1 + (n - (j + 1))) by lia.
    assert (exists r, allterms (j + 1 + (n - (j + 1))) = allterms (j + 1) ++ r) as (r & ->).
    { generalize (n - (j + 1)). intros d. unfold allterms. rewrite (seq_app (j + 1) d), fmap_app, concat_app. eauto. }
    rewrite allterms_S, lookup_app_l.
    - rewrite lookup_app_r by lia. replace (length (allterms j) + e - length (allterms j)) with e by lia. exact He.
    - rewrite app_length. apply lookup_lt_Some in He. lia.
  Qed.
  Lemma positions_ptr j : j <= nnz M -> posptr positions !! j = Some (length (allterms j)).
  Proof. intros H. simpl. rewrite list_lookup_fmap, lookup_seq_lt by lia. reflexivity. Qed.
  Lemma positions_lookup j e k p : j < nnz M -> tms j !! e = Some (k, p) ->
    lowerp positions !! (length (allterms j) + e) = Some k /\ upperp positions !! (length (allterms j) + e) = Some p.
  Proof.
    intros Hj He. pose proof (allterms_lookup j e _ (nnz M) Hj He) as H.
    simpl. rewrite !list_lookup_fmap, H. auto.
  Qed.
  Lemma allterms_next j : length (allterms (j + 1)) = length (allterms j) + length (tms j).
  Proof. rewrite allterms_S, app_length. reflexivity. Qed.
End Facts.

Section Order.
  Context {A : Type} (M : srmat A).
  Lemma term_fst b c k k' p : term M b c k = Some (k', p) -> k' = k.
  Proof. unfold term. destruct (decide _); [|discriminate]. intros H. apply fmap_Some in H as (p' & _ & [= -> _]). reflexivity. Qed.
  Lemma omap_sorted b c lo n :
    forall e1 e2 k1 p1 k2 p2, e1 < e2 ->
    omap (term M b c) (seq lo n) !! e1 = Some (k1, p1) -> omap (term M b c) (seq lo n) !! e2 = Some (k2, p2) -> k1 < k2.
  Proof.
    revert lo. induction n as [|n IH]; intros lo e1 e2 k1 p1 k2 p2 He H1 H2; [simpl in H1; rewrite lookup_nil in H1; discriminate|].
    cbn [seq omap list_omap] in H1, H2.
    destruct (term M b c lo) as [[k p]|] eqn:E; [|eapply IH; eauto].
    apply term_fst in E. subst k. destruct e2 as [|e2]; [lia|]. simpl in H2.
    destruct e1 as [|e1]; simpl in H1; [|eapply IH; [|exact H1|exact H2]; lia].
    injection H1 as <- <-. apply elem_of_list_lookup_2 in H2.
    apply elem_of_list_omap in H2 as (x & Hx & Ht). apply term_fst in Ht. apply elem_of_seq in Hx. lia.
  Qed.
  Lemma tms_sorted j e1 e2 k1 p1 k2 p2 : e1 < e2 ->
    tms M j !! e1 = Some (k1, p1) -> tms M j !! e2 = Some (k2, p2) -> k1 < k2.
  Proof. unfold tms, terms, range. apply omap_sorted. Qed.
End Order.
