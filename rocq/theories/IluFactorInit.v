(** * IluFactorInit: the initialisations and the scaling vector, without laws of arithmetic *)
From Verif Require Import Base Alg SRMatrix Async AsyncTheory AsyncSystem AsyncSweeps AsyncFlat Nd Kernels KernelFacts
  Helpers IluPattern IluPatternFacts IluApply IluApplyFacts TriSpec TriFacts Sgs SgsForms IluFactor IluFactorFacts IluFactorProofs.

Section Blocks.
  Context {F : Type}.
  (** block [j] of width [w] *)
  Definition blk (w : nat) (o : list F) (j : nat) : list F := take w (drop (j * w) o).
  Lemma blk_length w o j : j * w + w <= length o -> length (blk w o j) = w.
  Proof. intros H. unfold blk. rewrite take_length, drop_length. lia. Qed.
  Lemma blk_lookup w o j e : e < w -> blk w o j !! e = o !! (j * w + e).
  Proof. intros H. unfold blk. rewrite lookup_take by done. apply lookup_drop. Qed.
  Lemma blk_eq w N o o' : length o = N * w -> length o' = N * w -> (forall j, j < N -> blk w o j = blk w o' j) -> o = o'.
  Proof.
    intros H1 H2 H. apply list_eq_lt; [lia|]. intros l Hl. rewrite H1 in Hl.
    destruct (unflat w N l Hl) as (j & e & -> & Hj & He).
    rewrite <- (blk_lookup w o j e He), <- (blk_lookup w o' j e He), H by done. reflexivity.
  Qed.
  Lemma blk_ext w o o' j : length o = length o' -> (forall e, e < w -> o !! (j * w + e) = o' !! (j * w + e)) -> blk w o j = blk w o' j.
  Proof.
    intros Hl H. apply list_eq_lt; [unfold blk; rewrite !take_length, !drop_length; lia|].
    intros e He. assert (e < w) by (unfold blk in He; rewrite take_length in He; lia).
    rewrite !blk_lookup by done. auto.
  Qed.
  Lemma blk_1 o j v : blk 1 o j = [v] <-> o !! j = Some v.
  Proof.
    split; intros H.
    - pose proof (blk_lookup 1 o j 0 ltac:(lia)) as E. rewrite H, Nat.mul_1_r, Nat.add_0_r in E. rewrite <- E. reflexivity.
    - unfold blk. rewrite Nat.mul_1_r, (drop_S o v j H). reflexivity.
  Qed.
End Blocks.

Section Init.
  Context {F : Type} {O : SOps F}.
  Lemma setblk_blk w N (o : list F) j seg : length o = N * w -> j < N -> length seg = w ->
    ok (setblk o (j * w) seg) (fun o' => length o' = N * w /\ blk w o' j = seg /\ forall k, k < N -> k <> j -> blk w o' k = blk w o k).
  Proof.
    intros Ho Hj Hs. destruct (setblk_val o (j * w) seg ltac:(nia)) as (o' & -> & Hl & Hv). simpl.
    split; [lia|]. split.
    - apply list_eq_lt; [rewrite blk_length; [lia|nia]|]. intros e He. rewrite blk_length in He by nia.
      rewrite blk_lookup by done. rewrite Hv, decide_True by lia. f_equal. lia.
    - intros k Hk Hne. apply blk_ext; [lia|]. intros e He. rewrite Hv, decide_False; [reflexivity|]. nia.
  Qed.
  Lemma set_setblk (o : list F) j v : j < length o -> set o j v = setblk o (j * 1) [v].
  Proof.
    intros Hj. unfold setblk. cbn [pwseg]. rewrite Nat.mul_1_r. unfold pwrite. cbn [pbind exec].
    rewrite set_Ok by done. cbn [bind exec]. reflexivity.
  Qed.
  Lemma set_blk N (o : list F) j v : length o = N -> j < N ->
    ok (set o j v) (fun o' => length o' = N /\ blk 1 o' j = [v] /\ forall k, k < N -> k <> j -> blk 1 o' k = blk 1 o k).
  Proof.
    intros Ho Hj. rewrite set_setblk by lia. eapply ok_mono; [apply (setblk_blk 1 N); [lia|done|reflexivity]|].
    intros o' (H1 & H2 & H3). split; [lia|]. auto.
  Qed.

  (** a loop over entries, each writing its own block *)
  Lemma entries_loop w N lo hi (body : nat -> list F -> res (list F)) (gb : nat -> list F) o0 :
    lo <= hi -> hi <= N -> length o0 = N * w ->
    (forall j o, lo <= j < hi -> length o = N * w -> blk w o j = blk w o0 j ->
       ok (body j o) (fun o' => length o' = N * w /\ blk w o' j = gb j /\ forall k, k < N -> k <> j -> blk w o' k = blk w o k)) ->
    ok (for_ lo hi body o0) (fun o' => length o' = N * w /\
      forall k, k < N -> blk w o' k = if decide (lo <= k < hi) then gb k else blk w o0 k).
  Proof.
    intros Hle Hhi Hl Hb.
    apply (ok_for_post _ _ _ _ (fun j o => length o = N * w /\
      forall k, k < N -> blk w o k = if decide (lo <= k < j) then gb k else blk w o0 k)); [exact Hle| | |auto].
    - split; [exact Hl|]. intros k Hk. rewrite decide_False by lia. reflexivity.
    - intros j o Hj [Hlo Ho]. eapply ok_mono; [apply Hb; auto|].
      + rewrite Ho by lia. rewrite decide_False by lia. reflexivity.
      + intros o' (H1 & H2 & H3). split; [exact H1|]. intros k Hk. destruct (decide (k = j)) as [->|Hne].
        * rewrite decide_True by lia. exact H2.
        * rewrite H3, Ho by done. destruct (decide (lo <= k < j)); [rewrite decide_True by lia|rewrite decide_False by lia]; reflexivity.
  Qed.
  (** a parallel loop over rows, each writing the blocks of its entries *)
  Lemma rows_loop w (M : srmat F) (body : nat -> list F -> res (list F)) (gb : nat -> list F) (ilu : list F) :
    wf_pat M -> length ilu = nnz M * w ->
    (forall i o, i < nbrows M -> length o = nnz M * w -> (forall k, inrow M i k -> blk w o k = blk w ilu k) ->
       ok (body i o) (fun o' => length o' = nnz M * w /\
         forall k, k < nnz M -> blk w o' k = if decide (rp M i <= k < rp M (i + 1)) then gb k else blk w o k)) ->
    nok (par_for 0 (nbrows M) body ilu) (fun o => length o = nnz M * w /\ forall k, k < nnz M -> blk w o k = gb k).
  Proof.
    intros Hw Hl Hb.
    apply (nok_par_for _ _ _ _ (fun dn o => length o = nnz M * w /\
      forall k, k < nnz M -> blk w o k = if decide (rowof M k ∈ dn) then gb k else blk w ilu k)).
    - split; [exact Hl|]. intros k Hk. rewrite decide_False; [reflexivity|]. apply not_elem_of_nil.
    - intros dn i o Hdn Hi Hni [Hlo Ho].
      assert (forall k, k < nnz M -> (rp M i <= k < rp M (i + 1)) <-> rowof M k = i) as Hrow.
      { intros k Hk. split; [intros H; apply (rowof_inrow M i k Hw); split; [lia|auto]|].
        intros <-. apply (inrow_rowof M k Hw Hk). }
      eapply ok_mono; [apply Hb; [lia|exact Hlo|]|].
      + intros k Hk. pose proof (inrow_lt M i k Hw Hk) as HkN. rewrite Ho by done.
        rewrite (rowof_inrow M i k Hw Hk), decide_False by done. reflexivity.
      + intros o' [H1 H2]. split; [exact H1|]. intros k Hk. rewrite H2, Ho by done.
        destruct (decide (rp M i <= k < rp M (i + 1))) as [Hr|Hr]; rewrite Hrow in Hr by done.
        * rewrite decide_True; [reflexivity|]. apply elem_of_app. right. rewrite Hr. left.
        * destruct (decide (rowof M k ∈ dn)) as [Hin|Hin]; [rewrite decide_True|rewrite decide_False]; auto.
          -- apply elem_of_app. auto.
          -- intros H. apply elem_of_app in H as [H|H]; [auto|]. apply elem_of_list_singleton in H. auto.
    - intros l o Hp [H1 H2]. split; [exact H1|]. intros k Hk. rewrite H2 by done. rewrite decide_True; [reflexivity|].
      rewrite Hp. apply elem_of_range. pose proof (inrow_rowof M k Hw Hk) as [Hr _]. lia.
  Qed.
  (** the result is one particular list *)
  Lemma blocks_det w N (gb : nat -> list F) (run : list F -> nd (list F)) :
    (forall ilu, length ilu = N * w -> nok (run ilu) (fun o => length o = N * w /\ forall k, k < N -> blk w o k = gb k)) ->
    (forall k, k < N -> length (gb k) = w) ->
    exists o, length o = N * w /\ (forall k, k < N -> blk w o k = gb k) /\
      forall ilu, length ilu = N * w -> nok (run ilu) (fun x => x = o).
  Proof.
    intros H Hg.
    destruct (H (replicate (N * w) s0) ltac:(apply replicate_length)) as [[o Ho] H2]. specialize (H2 o Ho).
    apply ok_inv in H2 as (x & -> & Hxl & Hx). exists x. split; [exact Hxl|]. split; [exact Hx|].
    intros ilu Hl. eapply nok_mono; [apply H, Hl|]. intros y [Hyl Hy].
    apply (blk_eq w N); auto. intros j Hj. rewrite Hx, Hy by done. reflexivity.
  Qed.

  (** ** The scaling vector *)
  Variables (ssqrt : F -> F) (M : srmat F).
  Hypothesis (Hw : wf_pat M) (Hd : wf_diag M) (Hs : wf_sorted M).
  Notation n := (nbrows M).
  Notation N := (nnz M).
  (** what getScalingVector computes *)
  Definition scaling_list bs : list F :=
    (fun l => (s1 / ssqrt (vat (vals M) (dg M (l / bs) * bs * bs + (l mod bs) * bs + l mod bs)))%s) <$> seq 0 (n * bs).
  Lemma scaling_list_length bs : length (scaling_list bs) = n * bs.
  Proof. unfold scaling_list. rewrite fmap_length, seq_length. reflexivity. Qed.
  Lemma scaling_list_lookup bs i e : i < n -> e < bs ->
    scaling_list bs !! (i * bs + e) = Some (s1 / ssqrt (vat (vals M) (dg M i * bs * bs + e * bs + e)))%s.
  Proof.
    intros Hi He. unfold scaling_list. rewrite list_lookup_fmap.
    rewrite lookup_seq_lt by nia. simpl. rewrite flat_div, flat_mod by done. reflexivity.
  Qed.
  Lemma getScalingVector_spec bs s : length (vals M) = N * (bs * bs) -> length s = n * bs ->
    nok (getScalingVector ssqrt bs M s) (fun s' => s' = scaling_list bs).
  Proof.
    intros Hv Hl. unfold getScalingVector.
    apply (nok_par_for _ _ _ _ (fun dn s' => length s' = n * bs /\ forall i e, i < n -> e < bs -> i ∈ dn ->
      s' !! (i * bs + e) = scaling_list bs !! (i * bs + e))).
    - split; [exact Hl|]. intros i e _ _ Hi. apply elem_of_nil in Hi as [].
    - intros dn i s' Hdn Hi Hni [Hl' Hs'].
      apply ok_bind with (P := fun di => di = dg M i); [apply (ok_diagind M Hd); [lia|reflexivity]|]. intros di ->.
      assert (dg M i < N) as HdN by (apply (dg_N M Hw Hd); lia).
      apply (ok_for_post _ _ _ _ (fun j o => length o = n * bs /\ (forall e, e < j -> o !! (i * bs + e) = scaling_list bs !! (i * bs + e)) /\
        forall i' e, i' <> i -> i' < n -> e < bs -> o !! (i' * bs + e) = s' !! (i' * bs + e))); [lia| | |].
      + split; [exact Hl'|]. split; [lia|auto].
      + intros j o Hj (H1 & H2 & H3). rewrite vat_get by nia. cbn [bind]. rewrite set_Ok by nia. simpl.
        rewrite insert_length. split; [exact H1|]. split.
        * intros e He. destruct (decide (e = j)) as [->|Hne].
          -- rewrite list_lookup_insert by nia. rewrite scaling_list_lookup by lia. reflexivity.
          -- rewrite list_lookup_insert_ne by lia. apply H2. lia.
        * intros i' e Hne Hi' He. rewrite list_lookup_insert_ne; [auto|]. rewrite flat_eq by lia. lia.
      + intros o (H1 & H2 & H3). split; [exact H1|]. intros i' e Hi' He Hin. destruct (decide (i' = i)) as [->|Hne]; [auto|].
        rewrite H3 by done. apply Hs'; auto. apply elem_of_app in Hin as [Hin|Hin]; [auto|].
        apply elem_of_list_singleton in Hin. congruence.
    - intros l s' Hp [H1 H2]. apply list_eq_lt; [rewrite scaling_list_length; exact H1|].
      intros x Hx. rewrite H1 in Hx. destruct (unflat bs n x Hx) as (i & e & -> & Hi & He). apply H2; auto.
      rewrite Hp. apply elem_of_range. lia.
  Qed.

  (** ** Scalar initialisations *)
  Lemma ok_browptr' i (Q : nat -> Prop) : i <= n -> Q (rp M i) -> ok (get (browptr M) i) Q.
  Proof. intros Hi HQ. eapply ok_get; [apply wf_browptr; auto|exact HQ]. Qed.
  Lemma ok_bcolind j (Q : nat -> Prop) : j < N -> Q (col M j) -> ok (get (bcolind M) j) Q.
  Proof. intros Hi HQ. eapply ok_get; [apply wf_bcolind; auto|exact HQ]. Qed.
  Lemma ok_vat (v : list F) j (Q : F -> Prop) : j < length v -> Q (vat v j) -> ok (get v j) Q.
  Proof. intros Hj HQ. eapply ok_get; [apply vat_Some; auto|exact HQ]. Qed.

  Definition orig_entry (scale : option (list F)) (j : nat) : F :=
    match scale with
    | Some s => (vat s (rowof M j) * vat (vals M) j * vat s (col M j))%s
    | None => vat (vals M) j
    end.
  Definition sgs_entry (scale : option (list F)) (j : nat) : F :=
    if j <? dg M (rowof M j) then
      match scale with
      | Some s => (orig_entry scale j * (s1 / (vat (vals M) (dg M (col M j)) * vat s (dg M (col M j)) * vat s (dg M (col M j)))))%s
      | None => (orig_entry scale j * (s1 / vat (vals M) (dg M (col M j))))%s
      end
    else orig_entry scale j.
  Definition init_entry (finit : FactInit) scale j : F :=
    match finit with INIT_F_SGS => sgs_entry scale j | _ => orig_entry scale j end.

  Lemma fact_init_original_blk scale ilu : length (vals M) = N -> scale_ok scale n -> length ilu = N * 1 ->
    nok (fact_init_original M scale ilu) (fun o => length o = N * 1 /\ forall k, k < N -> blk 1 o k = [orig_entry scale k]).
  Proof.
    intros Hv Hsc Hl. unfold fact_init_original. destruct scale as [s|]; simpl in Hsc.
    - apply (rows_loop 1 M _ (fun k => [orig_entry (Some s) k])); auto. intros i o Hi Ho _.
      eapply ok_bind; [apply (ok_browptr' i (fun x => x = rp M i)); [lia|reflexivity]|]. intros rs ->.
      eapply ok_bind; [apply (ok_browptr' (i + 1) (fun x => x = rp M (i + 1))); [lia|reflexivity]|]. intros re ->.
      pose proof (rp_mono M i (i + 1) Hw ltac:(lia) ltac:(lia)). pose proof (rp_mono M (i + 1) n Hw ltac:(lia) ltac:(lia)).
      apply (entries_loop 1 N); auto. intros j o' Hj Ho' _.
      assert (j < N) by (unfold nnz in *; lia). pose proof (wf_col M Hw j ltac:(auto)).
      apply ok_bind with (P := fun x => x = vat s i); [apply ok_vat; [lia|reflexivity]|]. intros a ->.
      apply ok_bind with (P := fun x => x = vat (vals M) j); [apply ok_vat; [lia|reflexivity]|]. intros v ->.
      apply ok_bind with (P := fun x => x = col M j); [apply ok_bcolind; [lia|reflexivity]|]. intros c ->.
      apply ok_bind with (P := fun x => x = vat s (col M j)); [apply ok_vat; [lia|reflexivity]|]. intros b ->.
      eapply ok_mono; [apply (set_blk N); lia|]. intros o'' (Hx1 & Hx2 & Hx3). split; [lia|]. split; [|exact Hx3].
      rewrite Hx2. unfold orig_entry. rewrite (rowof_inrow M i j Hw); [reflexivity|]. split; auto.
    - eapply nok_bind; [apply nok_lift, (ok_browptr' n (fun x => x = N)); [lia|reflexivity]|]. intros len ->.
      eapply nok_mono; [apply vcopy_spec; lia|]. intros o ->. split; [lia|]. intros k Hk. apply blk_1, vat_Some. lia.
  Qed.
  (** the reads of the scaling vector by fact_init_sgs are within bounds *)
  Definition sgs_reads_ok : Prop := forall i j, inrow M i j -> j < dg M i -> dg M (col M j) < n.
  Lemma fact_init_sgs_blk scale ilu : length (vals M) = N -> match scale with Some s => length s = n /\ sgs_reads_ok | None => True end ->
    length ilu = N * 1 ->
    nok (fact_init_sgs M scale ilu) (fun o => length o = N * 1 /\ forall k, k < N -> blk 1 o k = [sgs_entry scale k]).
  Proof.
    intros Hv Hsc Hl. unfold fact_init_sgs.
    apply (rows_loop 1 M _ (fun k => [sgs_entry scale k])); auto. intros i o Hi Ho _.
    eapply ok_bind; [apply (ok_browptr' i (fun x => x = rp M i)); [lia|reflexivity]|]. intros rs ->.
    eapply ok_bind; [apply (ok_browptr' (i + 1) (fun x => x = rp M (i + 1))); [lia|reflexivity]|]. intros re ->.
    apply ok_bind with (P := fun di => di = dg M i); [apply (ok_diagind M Hd); [lia|reflexivity]|]. intros di ->.
    pose proof (rp_mono M i (i + 1) Hw ltac:(lia) ltac:(lia)). pose proof (rp_mono M (i + 1) n Hw ltac:(lia) ltac:(lia)).
    pose proof (row_bounds M Hw Hd i Hi) as Hrb.
    assert (forall j, rp M i <= j < rp M (i + 1) -> rowof M j = i) as Hro.
    { intros j Hj. apply (rowof_inrow M i j Hw). split; auto. }
    eapply ok_bind.
    - apply (entries_loop 1 N _ _ _ (fun k => [orig_entry scale k]) o); auto. intros j o' Hj Ho' _.
      assert (j < N) by (unfold nnz in *; lia). pose proof (wf_col M Hw j ltac:(auto)).
      apply ok_bind with (P := fun x => x = vat (vals M) j); [apply ok_vat; [lia|reflexivity]|]. intros v ->.
      unfold orig_entry. destruct scale as [s|].
      + destruct Hsc as [Hsc _].
        apply ok_bind with (P := fun x => x = vat s i); [apply ok_vat; [lia|reflexivity]|]. intros a ->.
        apply ok_bind with (P := fun x => x = col M j); [apply ok_bcolind; [lia|reflexivity]|]. intros c ->.
        apply ok_bind with (P := fun x => x = vat s (col M j)); [apply ok_vat; [lia|reflexivity]|]. intros b ->.
        eapply ok_mono; [apply (set_blk N); lia|]. intros o'' (Hx1 & Hx2 & Hx3). split; [lia|]. split; [|exact Hx3].
        rewrite Hx2, Hro by done. reflexivity.
      + eapply ok_mono; [apply (set_blk N); lia|]. intros o'' (Hx1 & Hx2 & Hx3). split; [lia|]. split; [|exact Hx3]. exact Hx2.
    - intros o1 [Ho1 Hb1]. eapply ok_mono.
      + apply (entries_loop 1 N _ _ _ (fun k => [sgs_entry scale k]) o1); [lia|lia|exact Ho1|]. intros j o' Hj Ho' Hsame.
        assert (j < N) by (unfold nnz in *; lia). pose proof (wf_col M Hw j ltac:(auto)) as Hc.
        pose proof (dg_N M Hw Hd _ Hc).
        apply ok_bind with (P := fun x => x = col M j); [apply ok_bcolind; [lia|reflexivity]|]. intros c ->.
        apply ok_bind with (P := fun x => x = dg M (col M j)); [apply (ok_diagind M Hd); [lia|reflexivity]|]. intros dc ->.
        apply ok_bind with (P := fun x => x = vat (vals M) (dg M (col M j))); [apply ok_vat; [lia|reflexivity]|]. intros dv ->.
        rewrite Hb1, decide_True in Hsame by lia. apply blk_1 in Hsame.
        eapply ok_bind with (P := fun x => x = orig_entry scale j); [eapply ok_get; [exact Hsame|reflexivity]|]. intros x ->.
        assert (sgs_entry scale j = match scale with
          | Some s => (orig_entry scale j * (s1 / (vat (vals M) (dg M (col M j)) * vat s (dg M (col M j)) * vat s (dg M (col M j)))))%s
          | None => (orig_entry scale j * (s1 / vat (vals M) (dg M (col M j))))%s end) as Hse.
        { unfold sgs_entry. rewrite Hro by lia. destruct (Nat.ltb_spec j (dg M i)); [reflexivity|lia]. }
        destruct scale as [s|].
        * destruct Hsc as [Hsc Hdn]. specialize (Hdn i j ltac:(split; [auto|lia]) ltac:(lia)).
          apply ok_bind with (P := fun x => x = vat s (dg M (col M j))); [apply ok_vat; [lia|reflexivity]|]. intros b ->.
          eapply ok_mono; [apply (set_blk N); lia|]. intros o'' (Hx1 & Hx2 & Hx3). split; [lia|]. split; [|exact Hx3]. rewrite Hx2, Hse. reflexivity.
        * eapply ok_mono; [apply (set_blk N); lia|]. intros o'' (Hx1 & Hx2 & Hx3). split; [lia|]. split; [|exact Hx3]. rewrite Hx2, Hse. reflexivity.
      + intros o2 [Ho2 Hb2]. split; [exact Ho2|]. intros k Hk. rewrite Hb2 by done.
        destruct (decide (rp M i <= k < dg M i)); [rewrite decide_True by lia; reflexivity|].
        rewrite Hb1 by done. destruct (decide (rp M i <= k < rp M (i + 1))); [|reflexivity].
        unfold sgs_entry. rewrite Hro by done. destruct (Nat.ltb_spec k (dg M i)); [lia|reflexivity].
  Qed.
  Lemma for_body_Ok {St} (body : nat -> St -> res St) lo hi s r : for_ lo hi body s = Ok r ->
    forall j, lo <= j < hi -> exists a b, body j a = Ok b.
  Proof.
    unfold for_. intros H j Hj. remember (hi - lo) as k eqn:Ek. revert lo s Ek H Hj.
    induction k as [|k IH]; intros lo s Ek H Hj; [lia|]. cbn [for_n] in H. apply bind_Ok in H as (s' & H1 & H2).
    destruct (decide (j = lo)) as [->|Hne]; [eauto|]. apply (IH (lo + 1) s'); [lia|exact H2|lia].
  Qed.
  Lemma forl_body_Ok {St} (body : nat -> St -> res St) l : forall s r, forl l body s = Ok r ->
    forall j, j ∈ l -> exists a b, body j a = Ok b.
  Proof.
    induction l as [|x l IH]; intros s r H j Hj; [inversion Hj|]. cbn [forl] in H. apply bind_Ok in H as (s' & H1 & H2).
    apply elem_of_cons in Hj as [->|Hj]; eauto.
  Qed.
  (** otherwise it never ends normally *)
  Lemma fact_init_sgs_oob s ilu i j : length s = n -> inrow M i j -> j < dg M i -> n <= dg M (col M j) ->
    forall o, fact_init_sgs M (Some s) ilu o -> forall x, o <> Ok x.
  Proof.
    intros Hsl Hij Hlt Hge o (l & Hl & ->) x E. pose proof (inrow_lt M i j Hw Hij) as Hj. destruct Hij as [Hi Hij].
    destruct (forl_body_Ok _ _ _ _ E i) as (a & b & Hb).
    { rewrite Hl. apply elem_of_range. lia. }
    rewrite (proj2 (get_Some _ _ _) (wf_browptr M i Hw ltac:(lia))) in Hb. cbn [bind] in Hb.
    rewrite (proj2 (get_Some _ _ _) (wf_browptr M (i + 1) Hw ltac:(lia))) in Hb. cbn [bind] in Hb.
    rewrite (proj2 (get_Some _ _ _) (wf_diagind M i Hd Hi)) in Hb. cbn [bind] in Hb.
    apply bind_Ok in Hb as (o1 & _ & Hb).
    destruct (for_body_Ok _ _ _ _ _ Hb j ltac:(lia)) as (a' & b' & Hb').
    rewrite (proj2 (get_Some _ _ _) (wf_bcolind M j Hw Hj)) in Hb'. cbn [bind] in Hb'.
    pose proof (wf_col M Hw j Hj) as Hc.
    rewrite (proj2 (get_Some _ _ _) (wf_diagind M _ Hd Hc)) in Hb'. cbn [bind] in Hb'.
    apply bind_Ok in Hb' as (dv & _ & Hb'). apply bind_Ok in Hb' as (y & _ & Hb'). apply bind_Ok in Hb' as (z & Hg & _).
    apply get_Some, lookup_lt_Some in Hg. lia.
  Qed.
  Definition init_ok (finit : FactInit) (scale : option (list F)) : Prop :=
    match finit with
    | INIT_F_SGS => match scale with Some s => sgs_reads_ok | None => True end
    | INIT_F_NONE => False
    | _ => True
    end.
  Lemma fact_init_blk finit scale ilu : init_ok finit scale -> length (vals M) = N -> scale_ok scale n -> length ilu = N * 1 ->
    nok (fact_init M finit scale ilu) (fun o => length o = N * 1 /\ forall k, k < N -> blk 1 o k = [init_entry finit scale k]).
  Proof.
    intros Hi Hv Hsc Hl. destruct finit; simpl in *.
    - eapply nok_bind; [apply nok_lift, (ok_browptr' n (fun x => x = N)); [lia|reflexivity]|]. intros len ->.
      eapply nok_bind; [apply fill_spec; lia|]. intros o ->. apply fact_init_original_blk; auto.
      rewrite replicate_length. lia.
    - apply fact_init_original_blk; auto.
    - apply fact_init_sgs_blk; auto. destruct scale; auto.
    - destruct Hi.
  Qed.
  (** the outcome of an initialisation does not depend on the previous contents *)
  Lemma fact_init_det finit scale : init_ok finit scale -> length (vals M) = N -> scale_ok scale n ->
    exists o, length o = N /\ (forall k, k < N -> o !! k = Some (init_entry finit scale k)) /\
      forall ilu, length ilu = N -> nok (fact_init M finit scale ilu) (fun x => x = o).
  Proof.
    intros Hi Hv Hsc.
    destruct (blocks_det 1 N (fun k => [init_entry finit scale k]) (fact_init M finit scale)) as (o & H1 & H2 & H3); auto.
    - intros ilu Hl. apply fact_init_blk; auto.
    - exists o. split; [lia|]. split.
      + intros k Hk. apply blk_1. auto.
      + intros ilu Hl. apply H3. lia.
  Qed.
End Init.

(** ** Block initialisations *)
Section BlockInit.
  Context {F : Type} {O : SOps F}.
  Variables (inv : list F -> list F) (so : storage) (bs : nat) (M : srmat F).
  Hypothesis (Hw : wf_pat M) (Hd : wf_diag M) (Hs : wf_sorted M).
  Hypothesis Hinv : forall b, length b = bs * bs -> length (inv b) = bs * bs.
  Notation n := (nbrows M).
  Notation N := (nnz M).
  Notation bb := (bs * bs).
  (** block [j] of the scaled matrix; products of local blocks *)
  Definition sblock (scale : option (list F)) (j : nat) : list F :=
    match scaled_block so bs M scale (rowof M j) j with Ok b => b | _ => [] end.
  Definition bprod (a b : list F) : list F := match bmatmul so bs a b with Ok c => c | _ => [] end.
  Definition bsgs (scale : option (list F)) (j : nat) : list F :=
    if j <? dg M (rowof M j) then bprod (sblock scale j) (inv (sblock scale (dg M (col M j)))) else sblock scale j.
  Definition binit (finit : FactInit) scale (j : nat) : list F :=
    match finit with INIT_F_ZERO => replicate bb s0 | INIT_F_SGS => bsgs scale j | _ => sblock scale j end.

  Variable scale : option (list F).
  Hypothesis (Hv : length (vals M) = N * bb) (Hsc : scale_ok scale (n * bs)).
  Lemma sblock_ok j : j < N -> scaled_block so bs M scale (rowof M j) j = Ok (sblock scale j) /\ length (sblock scale j) = bb.
  Proof.
    intros Hj. pose proof (ok_scaled_block M Hw so bs scale j Hv Hsc Hj) as H.
    apply ok_inv in H as (b & Hb & Hl). unfold sblock. rewrite Hb. auto.
  Qed.
  Lemma bprod_ok a b : length a = bb -> length b = bb -> bmatmul so bs a b = Ok (bprod a b) /\ length (bprod a b) = bb.
  Proof.
    intros Ha Hb. pose proof (ok_bmatmul so bs a b Ha Hb) as H.
    apply ok_inv in H as (c & Hc & Hl). unfold bprod. rewrite Hc. auto.
  Qed.
  Lemma getblk_blk (o : list F) j : j < N -> length o = N * bb -> getblk o (j * bb) bb = Ok (blk bb o j).
  Proof. intros Hj Ho. rewrite SgsForms.getblk_val by nia. reflexivity. Qed.
  Lemma binit_length finit j : j < N -> length (binit finit scale j) = bb.
  Proof.
    intros Hj. destruct (sblock_ok j Hj) as [_ Hl].
    destruct finit; simpl; auto; [apply replicate_length|]. unfold bsgs.
    destruct (_ <? _); [|exact Hl]. apply bprod_ok; [exact Hl|]. apply Hinv.
    apply sblock_ok. apply (dg_N M Hw Hd). apply (wf_col M Hw j Hj).
  Qed.
  Lemma rowof_dg i : i < n -> rowof M (dg M i) = i /\ col M (dg M i) = i /\ dg M i < N.
  Proof.
    intros Hi. destruct Hd as [_ H]. destruct (H i Hi) as [H1 H2].
    split; [apply (rowof_inrow M i _ Hw); split; auto|]. split; [exact H2|]. apply (dg_N M Hw Hd i Hi).
  Qed.
  (** the diagonal block read by the SGS initialisation *)
  Lemma diag_sblock i : i < n ->
    (let! b := getblk (vals M) (dg M i * bb) bb in
     match scale with None => Ok b | Some s => scaleBlock so bs s i i b end) = Ok (sblock scale (dg M i)).
  Proof.
    intros Hi. destruct (rowof_dg i Hi) as (H1 & H2 & H3). destruct (sblock_ok _ H3) as [H _].
    rewrite <- H. unfold scaled_block. rewrite H1.
    rewrite (proj2 (get_Some _ _ _) (wf_bcolind M _ Hw H3)), H2. cbn [bind]. reflexivity.
  Qed.
  Lemma sblock_inrow i j : inrow M i j -> scaled_block so bs M scale i j = Ok (sblock scale j) /\ length (sblock scale j) = bb.
  Proof.
    intros H. pose proof (inrow_lt M i j Hw H) as Hj. rewrite <- (rowof_inrow M i j Hw H) at 1. apply sblock_ok, Hj.
  Qed.
  Lemma bfact_init_sgs_blk dblks ilu : length dblks = n * bb -> length ilu = N * bb ->
    nok (bfact_init_sgs inv so bs M scale dblks ilu) (fun o => length o = N * bb /\ forall k, k < N -> blk bb o k = bsgs scale k).
  Proof.
    intros Hdl Hl. unfold bfact_init_sgs.
    eapply nok_bind with (P := fun '(d, o) => length d = n * bb /\ length o = N * bb /\
      (forall i, i < n -> blk bb d i = inv (sblock scale (dg M i))) /\ forall k, k < N -> blk bb o k = sblock scale k).
    - apply (nok_par_for _ _ _ _ (fun dn '(d, o) => length d = n * bb /\ length o = N * bb /\
        (forall i, i < n -> i ∈ dn -> blk bb d i = inv (sblock scale (dg M i))) /\
        forall k, k < N -> rowof M k ∈ dn -> blk bb o k = sblock scale k)).
      + split; [exact Hdl|]. split; [exact Hl|]. split; intros i _ H; apply elem_of_nil in H as [].
      + intros dn i [d o] Hdn Hi Hni (H1 & H2 & H3 & H4).
        destruct (rowof_dg i ltac:(lia)) as (Hr1 & Hr2 & Hr3). destruct (sblock_ok _ Hr3) as [_ Hsl].
        apply ok_bind with (P := fun di => di = dg M i); [apply (ok_diagind M Hd); [lia|reflexivity]|]. intros di ->.
        assert (forall (k : list F -> res (list F * list F)) Q, ok (k (sblock scale (dg M i))) Q ->
          ok (let! b := getblk (vals M) (dg M i * bb) bb in
              let! b0 := match scale with None => Ok b | Some s => scaleBlock so bs s i i b end in k b0) Q) as Hk.
        { intros k Q HQ. pose proof (diag_sblock i ltac:(lia)) as E.
          destruct (getblk (vals M) (dg M i * bb) bb); simpl in E |- *; try discriminate E. rewrite E. exact HQ. }
        apply Hk. clear Hk.
        eapply ok_bind; [apply (setblk_blk bb n d i); [exact H1|lia|apply Hinv, Hsl]|]. intros d' (Hd1 & Hd2 & Hd3).
        eapply ok_bind; [apply (ok_browptr' M Hw i (fun x => x = rp M i)); [lia|reflexivity]|]. intros rs ->.
        eapply ok_bind; [apply (ok_browptr' M Hw (i + 1) (fun x => x = rp M (i + 1))); [lia|reflexivity]|]. intros re ->.
        pose proof (rp_mono M i (i + 1) Hw ltac:(lia) ltac:(lia)). pose proof (rp_mono M (i + 1) n Hw ltac:(lia) ltac:(lia)).
        eapply ok_bind; [apply (entries_loop bb N _ _ _ (sblock scale) o); auto|].
        * intros j o' Hj Ho' _. destruct (sblock_inrow i j) as [E Hjl]; [split; [lia|auto]|].
          rewrite E. cbn [bind]. eapply ok_mono; [apply (setblk_blk bb N); [lia|unfold nnz in *; lia|exact Hjl]|]. auto.
        * intros o' [Ho1 Ho2]. simpl. split; [exact Hd1|]. split; [exact Ho1|]. split.
          -- intros i' Hi' Hin. destruct (decide (i' = i)) as [->|Hne]; [exact Hd2|]. rewrite Hd3 by done. apply H3; auto.
             apply elem_of_app in Hin as [Hin|Hin]; [auto|]. apply elem_of_list_singleton in Hin. congruence.
          -- intros k Hk Hin. rewrite Ho2 by done. destruct (decide (rp M i <= k < rp M (i + 1))) as [|Hnr]; [reflexivity|].
             apply H4; auto. apply elem_of_app in Hin as [Hin|Hin]; [auto|]. apply elem_of_list_singleton in Hin.
             destruct Hnr. rewrite <- Hin. apply (inrow_rowof M k Hw Hk).
      + intros l [d o] Hp (H1 & H2 & H3 & H4). split; [exact H1|]. split; [exact H2|]. split.
        * intros i Hi. apply H3; auto. rewrite Hp. apply elem_of_range. lia.
        * intros k Hk. apply H4; auto. rewrite Hp. apply elem_of_range. pose proof (inrow_rowof M k Hw Hk) as [Hr _]. lia.
    - intros [d o] (H1 & H2 & H3 & H4). apply (rows_loop bb M _ (bsgs scale)); auto. intros i o' Hi Ho' Hsame.
      eapply ok_bind; [apply (ok_browptr' M Hw i (fun x => x = rp M i)); [lia|reflexivity]|]. intros rs ->.
      apply ok_bind with (P := fun di => di = dg M i); [apply (ok_diagind M Hd); [lia|reflexivity]|]. intros di ->.
      pose proof (row_bounds M Hw Hd i Hi) as Hrb.
      pose proof (rp_mono M (i + 1) n Hw ltac:(lia) ltac:(lia)).
      assert (forall j, rp M i <= j < rp M (i + 1) -> rowof M j = i) as Hro.
      { intros j Hj. apply (rowof_inrow M i j Hw). split; auto. }
      eapply ok_mono; [apply (entries_loop bb N _ _ _ (bsgs scale) o'); [lia|unfold nnz in *; lia|exact Ho'|]|].
      + intros j o1 Hj Ho1 Hs1. assert (inrow M i j) as Hr by (split; [auto|lia]).
        pose proof (inrow_lt M i j Hw Hr) as HjN. pose proof (wf_col M Hw j HjN) as Hc.
        apply ok_bind with (P := fun x => x = col M j); [eapply ok_get; [apply wf_bcolind; auto|reflexivity]|]. intros c ->.
        rewrite getblk_blk by done. cbn [bind]. rewrite SgsForms.getblk_val by nia. cbn [bind].
        change (take bb (drop (col M j * bb) d)) with (blk bb d (col M j)).
        rewrite Hs1, Hsame, H4, H3 by done.
        destruct (rowof_dg _ Hc) as (_ & _ & HdN).
        destruct (bprod_ok (sblock scale j) (inv (sblock scale (dg M (col M j))))) as [E El];
          [apply sblock_ok, HjN|apply Hinv, sblock_ok, HdN|].
        rewrite E. cbn [bind]. eapply ok_mono; [apply (setblk_blk bb N); [lia|lia|exact El]|].
        intros o2 (Hx1 & Hx2 & Hx3). split; [exact Hx1|]. split; [|exact Hx3]. rewrite Hx2. unfold bsgs.
        rewrite Hro by lia. destruct (Nat.ltb_spec j (dg M i)); [reflexivity|lia].
      + intros o2 [Ho2 Hb2]. split; [exact Ho2|]. intros k Hk. rewrite Hb2 by done.
        destruct (decide (rp M i <= k < dg M i)); [rewrite decide_True by lia; reflexivity|].
        destruct (decide (rp M i <= k < rp M (i + 1))) as [Hr|Hr]; [|reflexivity].
        rewrite Hsame, H4 by (auto; split; auto).
        unfold bsgs. rewrite Hro by done. destruct (Nat.ltb_spec k (dg M i)); [lia|reflexivity].
  Qed.
  Lemma bfact_init_blk finit dblks ilu : finit <> INIT_F_NONE -> wf_end M -> length dblks = n * bb -> length ilu = N * bb ->
    nok (bfact_init inv so bs M finit scale dblks ilu) (fun o => length o = N * bb /\ forall k, k < N -> blk bb o k = binit finit scale k).
  Proof.
    intros Hf He Hdl Hl. unfold bfact_init. destruct finit; try congruence.
    - eapply nok_bind; [apply nok_lift, (ok_browptr' M Hw n (fun x => x = N)); [lia|reflexivity]|]. intros len ->.
      eapply nok_mono; [apply fill_spec; lia|]. intros o ->. split; [apply replicate_length|]. intros k Hk. simpl.
      unfold blk. rewrite drop_replicate, take_replicate. f_equal. nia.
    - simpl. pose proof sblock_inrow as HSI. pose proof sblock_ok as HSO. destruct scale as [s|].
      + apply (rows_loop bb M _ (sblock (Some s))); auto. intros i o Hi Ho _.
        eapply ok_bind; [apply (ok_browptr' M Hw i (fun x => x = rp M i)); [lia|reflexivity]|]. intros rs ->.
        apply ok_bind with (P := fun x => x = rp M (i + 1)).
        { eapply ok_get; [|reflexivity]. apply He, Hi. }
        intros re ->.
        pose proof (rp_mono M i (i + 1) Hw ltac:(lia) ltac:(lia)). pose proof (rp_mono M (i + 1) n Hw ltac:(lia) ltac:(lia)).
        apply (entries_loop bb N _ _ _ (sblock (Some s)) o); auto.
        intros j o' Hj Ho' _. destruct (HSI i j) as [E Hjl]; [split; [lia|auto]|].
        rewrite E. cbn [bind]. eapply ok_mono; [apply (setblk_blk bb N); [lia|unfold nnz in *; lia|exact Hjl]|]. auto.
      + eapply nok_bind; [apply nok_lift, (ok_browptr' M Hw n (fun x => x = N)); [lia|reflexivity]|]. intros len ->.
        eapply nok_mono; [apply vcopy_spec; lia|]. intros o ->. split; [lia|]. intros k Hk.
        unfold sblock. unfold scaled_block.
        rewrite (proj2 (get_Some _ _ _) (wf_bcolind M _ Hw Hk)). cbn [bind].
        rewrite getblk_blk by done. reflexivity.
    - apply bfact_init_sgs_blk; auto.
  Qed.
  Lemma bfact_init_det finit : finit <> INIT_F_NONE -> wf_end M ->
    exists o, length o = N * bb /\ (forall k, k < N -> blk bb o k = binit finit scale k) /\
      forall dblks ilu, length dblks = n * bb -> length ilu = N * bb -> nok (bfact_init inv so bs M finit scale dblks ilu) (fun x => x = o).
  Proof.
    intros Hf He.
    destruct (blocks_det bb N (binit finit scale) (bfact_init inv so bs M finit scale (replicate (n * bb) s0))) as (o & H1 & H2 & _).
    - intros ilu Hl. apply bfact_init_blk; auto. apply replicate_length.
    - intros k Hk. apply binit_length, Hk.
    - exists o. split; [exact H1|]. split; [exact H2|]. intros dblks ilu Hdl Hl.
      eapply nok_mono; [apply bfact_init_blk; auto|]. intros x [Hx1 Hx2]. apply (blk_eq bb N); auto.
      intros j Hj. rewrite H2, Hx2 by done. reflexivity.
  Qed.
  (** inverting the diagonal blocks *)
  Definition inverted (o : list F) (k : nat) : list F := if k =? dg M (rowof M k) then inv (blk bb o k) else blk bb o k.
  Lemma invert_diag_blk ilu : length ilu = N * bb ->
    nok (invert_diag inv bs M ilu) (fun o => length o = N * bb /\ forall k, k < N -> blk bb o k = inverted ilu k).
  Proof.
    intros Hl. unfold invert_diag. apply (rows_loop bb M _ (inverted ilu)); auto. intros i o Hi Ho Hsame.
    destruct (rowof_dg i Hi) as (Hr1 & Hr2 & Hr3).
    apply ok_bind with (P := fun di => di = dg M i); [apply (ok_diagind M Hd); [lia|reflexivity]|]. intros di ->.
    rewrite getblk_blk by done. cbn [bind].
    assert (inrow M i (dg M i)) as Hin by (rewrite <- Hr1 at 1; apply (inrow_rowof M _ Hw Hr3)).
    eapply ok_mono; [apply (setblk_blk bb N); [exact Ho|exact Hr3|apply Hinv, blk_length; nia]|].
    intros o' (H1 & H2 & H3). split; [exact H1|]. intros k Hk. unfold inverted.
    destruct (decide (rp M i <= k < rp M (i + 1))) as [Hr|Hr].
    - assert (inrow M i k) as Hik by (split; auto). rewrite (rowof_inrow M i k Hw Hik).
      destruct (Nat.eqb_spec k (dg M i)) as [->|Hne].
      + rewrite H2, Hsame by done. reflexivity.
      + rewrite H3, Hsame by done. reflexivity.
    - apply H3; [exact Hk|]. intros ->. apply Hr. apply Hin.
  Qed.
End BlockInit.
