(** * ColMatMain: what the converted matrix means *)
From Verif Require Import Base Alg SRMatrix Nd Matvec MatvecFacts Helpers Reorder ReorderFacts ColMat ColMatFacts Own.
From Coq Require Import ZArith.
Open Scope nat_scope.

Section Meaning.
  Context {F : Type} {O : SOps F}.
  Variables (bs : nat) (M : srmat F).
  Notation bb := (bs * bs).
  Notation n := (nbrows M).
  Hypothesis Hw : wf_pat M.
  Hypothesis Hv : length (vals M) = nnz M * bb.
  Variables (cv : list (list (nat * list F))) (C : bscmat F).
  Hypothesis Hg : good_cols bs M cv.
  Hypothesis Hl : laid_out bs M cv C.

  Lemma rp_as j : j <= n -> rp (as_sr C) j = start cv j.
  Proof. intros Hj. unfold rp. change (browptr (as_sr C)) with (bcolptr C). apply list_lookup_total_correct, (lo_p bs M cv C Hl j Hj). Qed.
  Lemma start_n : start cv n = nnz M.
  Proof. destruct Hg as [<- _]. rewrite start_end. apply (good_length bs M Hw Hv cv Hg). Qed.
  Lemma nnz_as : nnz (as_sr C) = nnz M.
  Proof. unfold nnz at 1. simpl. rewrite (lo_n bs M cv C Hl), rp_as by lia. apply start_n. Qed.
  (** what is at a position of column [j] *)
  Lemma col_entry j x : inrow (as_sr C) j x -> j < n /\ x < nnz M /\ exists k l y, cv !! j = Some l /\ l !! y = Some (ent bs M k) /\ x = start cv j + y /\
    k < nnz M /\ col M k = j /\ col (as_sr C) x = rowof M k /\ take bb (drop (x * bb) (cvals C)) = blk bs M k.
  Proof.
    intros [Hj Hx]. simpl in Hj. rewrite (lo_n bs M cv C Hl) in Hj. rewrite !rp_as in Hx by lia.
    destruct Hg as [HL Hc]. destruct (Hc j Hj) as (l & E & Hp & _). rewrite (start_S cv j l E) in Hx.
    pose proof (start_mono cv (j + 1) n ltac:(lia)) as Hm. rewrite (start_S cv j l E), start_n in Hm.
    split; [exact Hj|]. split; [lia|].
    destruct (lookup_lt_is_Some_2 l (x - start cv j)) as [[r b] Ex]; [lia|].
    assert (exists k, (r, b) = ent bs M k /\ k < nnz M /\ col M k = j) as (k & Ek & Hk & Hcol).
    { apply elem_of_list_lookup_2 in Ex. rewrite Hp in Ex. apply elem_of_list_fmap in Ex as (k & -> & Hk). apply cl_elem in Hk.
      exists k. tauto. }
    exists k, l, (x - start cv j). rewrite <- Ek. repeat split; try assumption; try lia.
    - assert (concat cv !! x = Some (r, b)) as Ec.
      { replace x with (start cv j + (x - start cv j)) by lia. rewrite (concat_lookup cv j l) by (auto; lia). exact Ex. }
      injection Ek as Ek1 Ek2. rewrite <- Ek1. unfold col; change (bcolind (as_sr C)) with (browind C). apply list_lookup_total_correct, (lo_r bs M cv C Hl x r b Ec).
    - assert (concat cv !! x = Some (r, b)) as Ec.
      { replace x with (start cv j + (x - start cv j)) by lia. rewrite (concat_lookup cv j l) by (auto; lia). exact Ex. }
      injection Ek as -> ->. pose proof (lo_vlen bs M cv C Hl). apply list_eq_lt.
      + rewrite take_length, drop_length, (blk_length bs M Hv k Hk). nia.
      + intros e He. rewrite take_length in He. rewrite lookup_take, lookup_drop by lia.
        apply (lo_v bs M cv C Hl x _ _ e Ec). lia.
  Qed.
  Lemma entry_col k : k < nnz M -> exists x, inrow (as_sr C) (col M k) x /\ col (as_sr C) x = rowof M k /\
    take bb (drop (x * bb) (cvals C)) = blk bs M k.
  Proof.
    intros Hk. pose proof (wf_col M Hw k Hk) as Hj. destruct Hg as [HL Hc]. destruct (Hc _ Hj) as (l & E & Hp & _).
    assert (ent bs M k ∈ l) as Hin.
    { rewrite Hp. apply elem_of_list_fmap. exists k. split; [reflexivity|]. apply cl_elem. auto. }
    apply elem_of_list_lookup_1 in Hin as [y Ey]. pose proof (lookup_lt_Some _ _ _ Ey) as Hy.
    assert (inrow (as_sr C) (col M k) (start cv (col M k) + y)) as Hir.
    { split; [simpl; rewrite (lo_n bs M cv C Hl); exact Hj|]. rewrite !rp_as by lia. rewrite (start_S cv _ l E). lia. }
    exists (start cv (col M k) + y). split; [exact Hir|].
    destruct (col_entry _ _ Hir) as (_ & _ & k' & l' & y' & E' & Ey' & Hs & Hk' & Hc' & HA & HB).
    rewrite E in E'. injection E' as <-. assert (y' = y) as -> by lia. rewrite Ey in Ey'. injection Ey' as H1 H2.
    rewrite HA, HB. auto.
  Qed.
  Lemma as_wf : wf_pat (as_sr C).
  Proof.
    split.
    - simpl. rewrite (lo_n bs M cv C Hl). apply (lo_plen bs M cv C Hl).
    - rewrite rp_as by lia. reflexivity.
    - simpl. intros i Hi. rewrite (lo_n bs M cv C Hl) in Hi. rewrite !rp_as by lia. apply start_mono. lia.
    - rewrite nnz_as. apply (lo_rlen bs M cv C Hl).
    - intros x Hx. simpl. rewrite (lo_n bs M cv C Hl). rewrite nnz_as in Hx.
      assert (exists r b, concat cv !! x = Some (r, b) /\ r < n) as (r & b & E & Hr).
      { destruct (good_length bs M Hw Hv cv Hg) as [Hlen Hp]. destruct (lookup_lt_is_Some_2 (concat cv) x) as [[r b] E]; [lia|].
        exists r, b. split; [exact E|]. apply elem_of_list_lookup_2 in E. rewrite Hp in E. apply elem_of_list_fmap in E as (k & Ek & Hk).
        injection Ek as -> ->. apply elem_of_seq in Hk. apply (inrow_rowof M k Hw). lia. }
      unfold col; change (bcolind (as_sr C)) with (browind C). rewrite (list_lookup_total_correct _ _ _ (lo_r bs M cv C Hl x r b E)). exact Hr.
  Qed.
  Lemma as_sorted : wf_nodup M -> wf_sorted (as_sr C).
  Proof.
    intros Hn j x1 x2 Hj H1 H12 H2.
    destruct (col_entry j x1) as (Hj' & _ & k1 & l & y1 & E & Ey1 & Hs1 & Hk1 & Hc1 & HA1 & _); [split; [exact Hj|lia]|].
    destruct (col_entry j x2) as (_ & _ & k2 & l2 & y2 & E2 & Ey2 & Hs2 & Hk2 & Hc2 & HA2 & _); [split; [exact Hj|lia]|].
    rewrite E in E2. injection E2 as <-. rewrite HA1, HA2.
    pose proof (inrow_rowof M k1 Hw Hk1) as I1. pose proof (inrow_rowof M k2 Hw Hk2) as I2.
    destruct Hg as [HL Hc]. destruct (Hc j Hj') as (l' & E' & Hp & Hs). rewrite E in E'. injection E' as <-.
    pose proof (Hs y1 y2 _ _ ltac:(lia) Ey1 Ey2) as Hle. simpl in Hle.
    enough (rowof M k1 <> rowof M k2) by lia. intros He.
    assert (k1 = k2) as ->. { apply (Hn (rowof M k1)); [apply I1|exact I1|rewrite He; exact I2|congruence]. }
    assert (NoDup l) as Hnd.
    { rewrite Hp. apply NoDup_fmap_2_strong; [|apply cl_nodup]. intros a b Ha Hb Hab. apply cl_elem in Ha, Hb.
      injection Hab as Hr _. pose proof (inrow_rowof M a Hw ltac:(lia)) as Ia. pose proof (inrow_rowof M b Hw ltac:(lia)) as Ib.
      apply (Hn (rowof M a)); [apply Ia|exact Ia|rewrite Hr; exact Ib|intuition congruence]. }
    pose proof (NoDup_lookup l y1 y2 _ Hnd Ey1 Ey2). lia.
  Qed.
  Lemma as_stored : wf_nodup M -> forall i j, i < n -> j < n -> stored bs (as_sr C) j i = stored bs M i j.
  Proof.
    intros Hn i j Hi Hj. unfold stored. destruct (pos M i j) as [k|] eqn:E.
    - apply pos_Some in E as [Hk Hcol]; [|exact Hi]. pose proof (inrow_lt M i k Hw Hk) as Hlt.
      destruct (entry_col k Hlt) as (x & Hx & HA & HB). rewrite Hcol in Hx.
      assert (pos (as_sr C) j i = Some x) as ->.
      { rewrite <- (rowof_inrow M i k Hw Hk), <- HA. apply pos_of; [|exact Hx]. apply sorted_nodup, as_sorted, Hn. }
      simpl. f_equal. exact HB.
    - assert (pos (as_sr C) j i = None) as ->; [|reflexivity].
      apply pos_None; [simpl; rewrite (lo_n bs M cv C Hl); exact Hj|].
      intros x Hx Hcol. destruct (col_entry j x Hx) as (_ & _ & k & _ & _ & _ & _ & _ & Hk & Hck & HA & _).
      eapply (proj1 (pos_None M i j Hi) E k); [|exact Hck]. rewrite <- Hcol, HA. apply inrow_rowof; auto.
  Qed.
  Lemma as_diag : wf_nodup M -> forall j, j < n ->
    cdiagind C !! j = Some (match pos (as_sr C) j j with Some x => Z.of_nat x | None => (-1)%Z end).
  Proof.
    intros Hn j Hj. pose proof Hg as [HL Hc]. destruct (Hc j Hj) as (l & E & Hp & _).
    destruct (lo_d bs M cv C Hl j l Hj E) as (d & Ed & Hd). rewrite Ed. f_equal.
    assert (j < nbrows (as_sr C)) as Hj' by (simpl; rewrite (lo_n bs M cv C Hl); exact Hj).
    destruct Hd as [[-> Hno]|(k & x & -> & Ek & Hx)].
    - assert (pos (as_sr C) j j = None) as ->; [|reflexivity]. apply pos_None; [exact Hj'|].
      intros x Hx Hcol. destruct (col_entry j x Hx) as (_ & _ & k & l' & y & E' & Ey & _ & _ & _ & HA & _).
      rewrite E in E'. injection E' as <-. apply elem_of_list_lookup_2 in Ey. apply (Hno _ Ey). simpl. congruence.
    - pose proof (lookup_lt_Some _ _ _ Ek) as Hk.
      assert (inrow (as_sr C) j (start cv j + k)) as Hir.
      { split; [exact Hj'|]. rewrite !rp_as by lia. rewrite (start_S cv j l E). lia. }
      destruct (col_entry _ _ Hir) as (_ & _ & k' & l' & y & E' & Ey & Hs & _ & _ & HA & _).
      rewrite E in E'. injection E' as <-. assert (y = k) as -> by lia. rewrite Ek in Ey. injection Ey as ->. simpl in Hx.
      assert (pos (as_sr C) j j = Some (start cv j + k)) as ->; [|reflexivity].
      rewrite <- Hx at 2. rewrite <- HA. apply pos_of; [apply sorted_nodup, as_sorted, Hn|exact Hir].
  Qed.
End Meaning.

(** ** One-based version *)
Section Bump.
  Context {V : Type} (f : V -> V).
  Lemma ok_bump m (l : list V) : m <= length l ->
    ok (for_ 0 m (fun i l => let! a := get l i in set l i (f a)) l)
       (fun l' => length l' = length l /\ forall i, l' !! i = if decide (i < m) then f <$> l !! i else l !! i).
  Proof.
    intros Hm. apply ok_for_own with (D := fun i x => x = i) (h := fun i x => f <$> l !! i).
    - lia.
    - intros; lia.
    - intros i s' Hi Hlen Hs. specialize (Hs i eq_refl). destruct (lookup_lt_is_Some_2 l i) as [a Ea]; [lia|]. rewrite Ea in Hs.
      eapply ok_bind; [eapply ok_get; [exact Hs|exact eq_refl]|]. intros ? <-. apply ok_set; [lia|].
      split; [apply insert_length|]. split.
      + intros ? ->. rewrite list_lookup_insert by lia. rewrite Ea. reflexivity.
      + intros x Hx. apply list_lookup_insert_ne. auto.
    - intros s' Hlen H1 H2. split; [exact Hlen|]. intros i. destruct (decide (i < m)).
      + rewrite (H1 i i); [reflexivity|lia|reflexivity].
      + apply H2. intros i' Hi' ->. lia.
  Qed.
  Lemma bump_all m (l l' : list V) : length l = m -> length l' = length l /\ (forall i, l' !! i = if decide (i < m) then f <$> l !! i else l !! i) -> l' = f <$> l.
  Proof.
    intros Hm [Hl H]. apply list_eq_lt; [rewrite fmap_length; exact Hl|]. intros i Hi. rewrite H, decide_True by lia. rewrite list_lookup_fmap. reflexivity.
  Qed.
End Bump.

(** ** Column adjacency *)
Section Adj.
  Context {F : Type}.
  Variable M : srmat F.
  Notation n := (nbrows M).
  Hypothesis Hw : wf_pat M.
  (** columns, in order *)
  Definition cols : list (list nat) := (fun j => cl M j (nnz M)) <$> seq 0 n.
  Lemma cols_lookup j : j < n -> cols !! j = Some (cl M j (nnz M)).
  Proof. intros H. unfold cols. rewrite list_lookup_fmap, lookup_seq_lt by exact H. reflexivity. Qed.
  Lemma cols_total : length (concat cols) = nnz M.
  Proof. unfold cols. rewrite cl_all, seq_length; [reflexivity|]. intros. apply (wf_col M Hw); assumption. Qed.
  Lemma cols_start_n : start cols n = nnz M.
  Proof. rewrite <- cols_total, <- start_end. f_equal. unfold cols. rewrite fmap_length, seq_length. reflexivity. Qed.

  Lemma coladj_spec old : ok (coladj_compute M old) (fun A =>
    length (ca_ptrs A) = n + 1 /\ (forall j, j <= n -> ca_ptrs A !! j = Some (start cols j)) /\
    ca_rows_loc A = concat cols /\ ca_col_rows A = rowof M <$> concat cols).
  Proof.
    unfold coladj_compute.
    eapply ok_bind; [eapply ok_get; [apply (wf_browptr M _ Hw); lia|exact eq_refl]|]. intros ? <-. change (rp M n) with (nnz M).
    eapply ok_bind with (P := fun p => length p = n + 1 /\ p !! 0 = Some 0 /\ forall j, j < n -> p !! (j + 1) = Some (length (cl M j (nnz M)))).
    { eapply ok_for_post with (I := fun m p => length p = n + 1 /\ p !! 0 = Some 0 /\ forall j, j < n -> p !! (j + 1) = Some (length (cl M j m))).
      - lia.
      - split; [apply replicate_length|]. split; [apply lookup_replicate_2; lia|]. intros j Hj. apply lookup_replicate_2. lia.
      - intros jj p Hjj (L & P0 & P). pose proof (wf_col M Hw jj ltac:(lia)) as Hc.
        eapply ok_bind; [eapply ok_get; [apply (wf_bcolind M _ Hw); lia|exact eq_refl]|]. intros ? <-.
        eapply ok_bind; [eapply ok_get; [apply P, Hc|exact eq_refl]|]. intros ? <-.
        apply ok_set; [lia|]. split; [rewrite insert_length; exact L|]. split; [rewrite list_lookup_insert_ne by lia; exact P0|].
        intros j Hj. rewrite cl_S, app_length. destruct (decide (col M jj = j)) as [<-|Hne].
        + rewrite list_lookup_insert by lia. reflexivity.
        + rewrite list_lookup_insert_ne by lia. rewrite P by exact Hj. f_equal. simpl. lia.
      - auto. }
    intros p (L & P0 & P).
    eapply ok_bind; [eapply ok_get; [exact P0|exact eq_refl]|]. intros ? <-. simpl negb. cbv iota.
    assert (forall j, j <= n -> psum p (j + 1) = start cols j) as Hps.
    { induction j as [|j IH]; intros Hj.
      - rewrite (psum_S p 0 0 P0). reflexivity.
      - replace (S j + 1) with (S (j + 1)) by lia. replace (S j) with (j + 1) by lia.
        rewrite (start_S _ _ _ (cols_lookup j ltac:(lia))). rewrite <- IH by lia.
        replace (S (j + 1)) with (j + 1 + 1) by lia. apply psum_S. apply P. lia. }
    eapply ok_bind with (P := fun p' => length p' = n + 1 /\ forall j, j <= n -> p' !! j = Some (start cols j)).
    { eapply ok_mono; [apply inclusive_scan_spec|]. intros p' [L' H]. split; [lia|]. intros j Hj. rewrite H by lia. f_equal. apply Hps, Hj. }
    clear p L P0 P Hps. intros p [L P].
    eapply ok_bind; [eapply ok_get; [apply P; lia|exact eq_refl]|]. intros ? <-. rewrite cols_start_n, Nat.eqb_refl. simpl negb. cbv iota.
    eapply ok_bind with (P := fun '(cr, rl, _) => rl = concat cols /\ cr = rowof M <$> concat cols).
    { apply ok_rows with (I := fun m '(cr, rl, cf) => length cr = nnz M /\ length rl = nnz M /\ length cf = n /\
        (forall j, j < n -> cf !! j = Some (length (cl M j m))) /\
        forall j k y, j < n -> cl M j m !! y = Some k -> rl !! (start cols j + y) = Some k /\ cr !! (start cols j + y) = Some (rowof M k)).
      - exact Hw.
      - unfold vresize. split; [|split; [|split; [apply replicate_length|]]].
        + rewrite app_length, take_length, replicate_length. lia.
        + rewrite app_length, take_length, replicate_length. lia.
        + split; [intros j Hj; apply lookup_replicate_2, Hj|]. intros j k y _ H. discriminate H.
      - intros i jj [[cr rl] cf] Hin (L1 & L2 & L3 & Hcf & Hent).
        pose proof (inrow_lt M i jj Hw Hin) as Hjj. pose proof (wf_col M Hw jj Hjj) as Hc. set (c := col M jj) in *.
        assert (start cols c + length (cl M c jj) < start cols (c + 1)) as Hlt.
        { rewrite (start_S _ _ _ (cols_lookup c Hc)).
          enough (length (cl M c (jj + 1)) <= length (cl M c (nnz M))).
          { rewrite cl_S, app_length, decide_True in H by reflexivity. simpl in H. lia. }
          replace (nnz M) with ((jj + 1) + (nnz M - (jj + 1))) by lia. unfold cl at 2. rewrite seq_app, filter_app, app_length.
          unfold cl. lia. }
        pose proof (start_mono cols (c + 1) n ltac:(lia)) as Hm. rewrite cols_start_n in Hm.
        eapply ok_bind; [eapply ok_get; [apply (wf_bcolind M _ Hw); lia|exact eq_refl]|]. intros ? <-. fold c.
        eapply ok_bind; [eapply ok_get; [apply P; lia|exact eq_refl]|]. intros ? <-.
        eapply ok_bind; [eapply ok_get; [apply Hcf, Hc|exact eq_refl]|]. intros ? <-.
        eapply ok_bind; [apply ok_set; [lia|exact eq_refl]|]. intros ? <-.
        eapply ok_bind; [apply ok_set; [lia|exact eq_refl]|]. intros ? <-.
        eapply ok_bind; [apply ok_set; [lia|exact eq_refl]|]. intros ? <-. simpl.
        rewrite !insert_length. split; [exact L1|]. split; [exact L2|]. split; [exact L3|]. split.
        + intros j Hj. rewrite cl_S, app_length. fold c. destruct (decide (c = j)) as [<-|Hne].
          * rewrite list_lookup_insert by lia. reflexivity.
          * rewrite list_lookup_insert_ne by exact Hne. rewrite Hcf by exact Hj. f_equal. simpl. lia.
        + intros j k y Hj Hk. rewrite cl_S in Hk. fold c in Hk.
          destruct (decide (c = j)) as [<-|Hne].
          * apply lookup_app_Some in Hk as [Hk|[Hge Hk]].
            -- pose proof (lookup_lt_Some _ _ _ Hk). rewrite !list_lookup_insert_ne by lia. apply Hent; auto.
            -- assert (y = length (cl M c jj)) as -> by (apply lookup_lt_Some in Hk; simpl in Hk; lia).
               rewrite Nat.sub_diag in Hk. injection Hk as <-. rewrite !list_lookup_insert by lia.
               rewrite (rowof_inrow M i jj Hw Hin). auto.
          * rewrite app_nil_r in Hk. pose proof (lookup_lt_Some _ _ _ Hk) as Hy.
            assert (start cols j + y < start cols (j + 1)).
            { rewrite (start_S _ _ _ (cols_lookup j Hj)).
              enough (length (cl M j jj) <= length (cl M j (nnz M))) by lia.
              replace (nnz M) with (jj + (nnz M - jj)) by lia. unfold cl at 2. rewrite seq_app, filter_app, app_length. unfold cl. lia. }
            assert (start cols c + length (cl M c jj) <> start cols j + y).
            { destruct (decide (c < j)).
              - pose proof (start_mono cols (c + 1) j ltac:(lia)). lia.
              - pose proof (start_mono cols (j + 1) c ltac:(lia)). lia. }
            rewrite !list_lookup_insert_ne by assumption. apply Hent; auto.
      - intros [[cr rl] cf] (L1 & L2 & _ & _ & Hent).
        assert (forall x, x < nnz M -> exists j y, j < n /\ y < length (cl M j (nnz M)) /\ x = start cols j + y) as Hx.
        { intros x Hx. rewrite <- cols_start_n in Hx. revert Hx.
          enough (forall m, x < start cols m -> m <= n -> exists j y, j < n /\ y < length (cl M j (nnz M)) /\ x = start cols j + y) as H by (intros; apply (H n); auto).
          induction m as [|m IH]; intros Hx Hm; [unfold start in Hx; simpl in Hx; lia|].
          destruct (decide (x < start cols m)); [apply IH; lia|].
          replace (S m) with (m + 1) in Hx by lia. rewrite (start_S _ _ _ (cols_lookup m ltac:(lia))) in Hx.
          exists m, (x - start cols m). lia. }
        split.
        + apply list_eq_lt; [rewrite cols_total; exact L2|]. intros x Hx'. destruct (Hx x ltac:(lia)) as (j & y & Hj & Hy & ->).
          destruct (lookup_lt_is_Some_2 _ _ Hy) as [k Ek]. destruct (Hent j k y Hj Ek) as [-> _].
          rewrite (concat_lookup _ _ _ _ (cols_lookup j Hj) Hy). auto.
        + apply list_eq_lt; [rewrite fmap_length, cols_total; exact L1|]. intros x Hx'. destruct (Hx x ltac:(lia)) as (j & y & Hj & Hy & ->).
          destruct (lookup_lt_is_Some_2 _ _ Hy) as [k Ek]. destruct (Hent j k y Hj Ek) as [_ ->].
          rewrite list_lookup_fmap, (concat_lookup _ _ _ _ (cols_lookup j Hj) Hy), Ek. reflexivity. }
    intros [[cr rl] cf] [-> ->]. simpl. auto.
  Qed.
End Adj.
