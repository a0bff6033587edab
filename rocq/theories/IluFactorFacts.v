(** * IluFactorFacts: facts about factorisation sweeps that use no law of arithmetic *)
From Verif Require Import Base Alg SRMatrix Async AsyncTheory AsyncSystem AsyncSweeps AsyncFlat Nd Kernels KernelFacts
  Helpers IluPattern IluPatternFacts IluApply IluApplyFacts Sgs SgsForms Chains IluApplyMain IluFactor TriSpec.

(** entry [j] of the factors is computed from entry [j'] *)
Definition fdep {A} (M : srmat A) (j j' : nat) : Prop :=
  j' ∈ (tms M j).*1 \/ j' ∈ (tms M j).*2 \/ (col M j < rowof M j /\ j' = dg M (col M j)).
Global Instance fdep_dec {A} (M : srmat A) j j' : Decision (fdep M j j').
Proof. unfold fdep. apply _. Defined.

(** ** Any entry kernel with these dependencies *)
Section System.
  Context {F : Type} {O : SOps F}.
  Variables (w : nat) (M : srmat F) (EC : nat -> nat -> @P F (list F)).
  Hypothesis (Hw : wf_pat M) (Hd : wf_diag M) (Hs : wf_sorted M).
  Definition entC (j : nat) : @P F (list F) := EC (rowof M j) j.
  Notation n := (nbrows M).
  Notation N := (nnz M).
  Notation TR := (row_task w M EC).
  Notation TE := (T w entC).
  Hypothesis Hk : forall j, j < N -> kernel_ok w entC N (fdep M) j.

  Lemma fdep_lt j j' : j < N -> fdep M j j' -> j' < j.
  Proof.
    intros Hj [H|[H|[Hc ->]]].
    - apply elem_of_list_fmap in H as ([k p] & -> & H). apply (tms_before M Hw Hs j k p); auto.
    - apply elem_of_list_fmap in H as ([k p] & -> & H). apply (tms_before M Hw Hs j k p); auto.
    - pose proof (inrow_rowof M j Hw Hj) as Hr. destruct Hd as [_ Hd'].
      pose proof (wf_col M Hw j Hj) as Hcn. destruct (Hd' (col M j) Hcn) as [H1 H2].
      apply (inrow_order M (col M j) (rowof M j)); auto. split; auto.
  Qed.

  Definition ents (i : nat) : list nat := range (rp M i) (rp M (i + 1)).
  Lemma row_ents i : i < n -> TR i = pseq TE (ents i).
  Proof.
    intros Hi. unfold row_task.
    rewrite (proj2 (get_Some _ _ _) (wf_browptr M i Hw ltac:(lia))). cbn [plift pbind].
    rewrite (proj2 (get_Some _ _ _) (wf_browptr M (i + 1) Hw ltac:(lia))). cbn [plift pbind].
    apply pseq_ext. intros j Hj. apply elem_of_range in Hj. unfold T, entC.
    rewrite (rowof_inrow M i j Hw); [reflexivity|]. split; auto.
  Qed.
  Lemma Hrow_rows rs : (forall r, r ∈ rs -> r < n) -> Hrow TR TE ents rs.
  Proof. intros H r Hr. apply row_ents, H, Hr. Qed.
  Lemma flat_rows k : k <= n -> flat ents (seq 0 k) = seq 0 (rp M k).
  Proof.
    induction k as [|k IH]; intros Hk'; [rewrite (wf_0 M Hw); reflexivity|].
    rewrite seq_S. unfold flat in *. rewrite map_app, concat_app, IH by lia. simpl. rewrite app_nil_r.
    unfold ents, range. replace (k + 1) with (S k) by lia.
    pose proof (rp_mono M k (S k) Hw ltac:(lia) ltac:(lia)).
    replace (rp M (S k)) with (rp M k + (rp M (S k) - rp M k)) at 2 by lia. rewrite seq_app. reflexivity.
  Qed.
  Lemma flat_all : flat ents (seq 0 n) = seq 0 N.
  Proof. apply flat_rows. lia. Qed.
  Lemma flat_app a b : flat ents (a ++ b) = flat ents a ++ flat ents b.
  Proof. unfold flat. rewrite map_app, concat_app. reflexivity. Qed.
  Lemma flat_repeat k : flat ents (concat (replicate k (seq 0 n))) = concat (replicate k (seq 0 N)).
  Proof. induction k as [|k IH]; simpl; [reflexivity|]. rewrite flat_app, flat_all, IH. reflexivity. Qed.
  Lemma elem_flat rs j : (forall r, r ∈ rs -> r < n) -> j ∈ flat ents rs -> j < N /\ rowof M j ∈ rs.
  Proof.
    intros Hrs Hj. unfold flat in Hj. apply elem_of_list_In, in_concat in Hj as (l & Hl & Hj).
    apply in_map_iff in Hl as (i & <- & Hi). apply elem_of_list_In in Hi, Hj. apply elem_of_range in Hj.
    assert (inrow M i j) as H by (split; auto). split; [apply (inrow_lt M i j Hw H)|].
    rewrite (rowof_inrow M i j Hw H). exact Hi.
  Qed.
  Lemma elem_flat_2 rs j : j < N -> rowof M j ∈ rs -> j ∈ flat ents rs.
  Proof.
    intros Hj Hr. unfold flat. apply elem_of_list_In, in_concat. exists (ents (rowof M j)).
    split; [apply in_map_iff; exists (rowof M j); split; [reflexivity|apply elem_of_list_In; auto]|].
    apply elem_of_list_In, elem_of_range. apply (inrow_rowof M j Hw Hj).
  Qed.

  Definition consistent (m : list F) : Prop := length m = N * w /\ forall j, j < N -> fix_at w entC m j.

  (** one or more sequential sweeps, from any contents, give the one consistent array *)
  Lemma factor_sequential : exists ms, consistent ms /\
    (forall m k c, length m = N * w -> 1 <= k -> 1 <= c ->
       exec_seq TR (concat (nowait_sweeps k c (seq 0 n))) m = Ok ms) /\
    (forall m, consistent m -> m = ms).
  Proof.
    destruct (sweeps_sequential w entC N (fdep M) (seq 0 N)) as (ms & Hl & Hf & Hrun & Hu); auto.
    - apply topological_seq. intros i c Hi. apply fdep_lt, Hi.
    - exists (replicate (N * w) s0). apply replicate_length.
    - exists ms. split; [split; auto|]. split.
      + intros m k c Hm Hk1 Hc. rewrite (exec_seq_flat TR TE ents).
        * rewrite concat_nowait by done. rewrite flat_repeat.
          specialize (Hrun m k c Hm Hk1 Hc). rewrite concat_nowait in Hrun by done. exact Hrun.
        * apply Hrow_rows. intros r Hr. rewrite concat_nowait in Hr by done.
          apply elem_of_concat_replicate, elem_of_seq in Hr. lia.
      + intros m [H1 H2]. apply Hu; auto.
  Qed.
  (** the consistent array stays under any schedule *)
  Lemma factor_stable nthr q m : (forall r, r ∈ concat q -> r < n) -> consistent m ->
    region_safe TR nthr q m /\ forall m', region TR nthr q m m' -> m' = m.
  Proof.
    intros Hq [Hl Hf].
    assert (Forall (Hrow TR TE ents) q) as Hqr.
    { apply Forall_forall. intros c Hc. apply Hrow_rows. intros r Hr. apply Hq.
      apply elem_of_list_In, in_concat. exists c. split; apply elem_of_list_In; auto. }
    destruct (region_stable w entC N (fdep M) nthr (map (flat ents) q) m) as [Hsafe Hreg]; auto.
    - intros j Hj. rewrite concat_map_flat in Hj. apply elem_flat in Hj as [Hj _]; [|exact Hq]. auto.
    - split; [apply (region_safe_flat TR TE ents); auto|]. intros m' Hm'. apply Hreg.
      apply (region_flat TR TE ents); auto.
  Qed.
  (** no schedule goes wrong *)
  Lemma factor_safe nthr q m : (forall r, r ∈ concat q -> r < n) -> length m = N * w ->
    region_safe TR nthr q m /\ forall m', region TR nthr q m m' -> length m' = N * w.
  Proof.
    intros Hq Hl.
    assert (Forall (Hrow TR TE ents) q) as Hqr.
    { apply Forall_forall. intros c Hc. apply Hrow_rows. intros r Hr. apply Hq.
      apply elem_of_list_In, in_concat. exists c. split; apply elem_of_list_In; auto. }
    destruct factor_sequential as (ms & [Hls Hf] & _).
    destruct (region_independent_rows w entC N (fdep M) nthr (map (flat ents) q) ms m) as [Hsafe Hreg]; auto.
    - intros j Hj. rewrite concat_map_flat in Hj. apply elem_flat in Hj as [Hj _]; [|exact Hq]. auto.
    - intros j Hj _. rewrite concat_map_flat in Hj. apply elem_flat in Hj as [Hj _]; [|exact Hq]. auto.
    - split; [apply (region_safe_flat TR TE ents); auto|]. intros m' Hm'. apply Hreg.
      apply (region_flat TR TE ents); auto.
  Qed.
  Lemma factor_exec_total rs m : (forall r, r ∈ rs -> r < n) -> length m = N * w ->
    exists ms, exec_seq TR rs m = Ok ms /\ length ms = N * w.
  Proof.
    intros Hrs Hl. rewrite (exec_seq_flat TR TE ents) by (apply Hrow_rows; auto).
    apply (exec_seq_total w entC N (fdep M)); auto. intros j Hj. apply elem_flat in Hj as [Hj _]; auto.
  Qed.
  (** separated sweeps *)
  Lemma regions_flat nthr qs : forall m m', (forall q, q ∈ qs -> Forall (Hrow TR TE ents) q) ->
    regions TR nthr qs m m' -> regions TE nthr (map (map (flat ents)) qs) m m'.
  Proof.
    induction qs as [|q qs IH]; intros m m' Hq H; inversion H; subst; simpl; [constructor|].
    econstructor; [eapply (region_flat TR TE ents); [apply Hq; left|eassumption]|].
    apply IH; [|assumption]. intros q' Hq'. apply Hq. right; auto.
  Qed.
  Lemma regions_safe_flat nthr qs : forall m, (forall q, q ∈ qs -> Forall (Hrow TR TE ents) q) ->
    regions_safe TE nthr (map (map (flat ents)) qs) m -> regions_safe TR nthr qs m.
  Proof.
    induction qs as [|q qs IH]; intros m Hq H; simpl in *; [exact I|]. destruct H as [H1 H2]. split.
    - apply (region_safe_flat TR TE ents); [apply Hq; left|exact H1].
    - intros m1 Hm1. apply IH; [intros q' Hq'; apply Hq; right; auto|]. apply H2.
      apply (region_flat TR TE ents); [apply Hq; left|exact Hm1].
  Qed.
  Lemma factor_separated nthr qs ms m : consistent ms -> length m = N * w ->
    chains_at_most (fdep M) N (length qs) ->
    (forall q, q ∈ qs -> forall r, r ∈ concat q <-> r < n) ->
    regions_safe TR nthr qs m /\ forall m', regions TR nthr qs m m' -> m' = ms.
  Proof.
    intros [Hls Hf] Hl HK Hq.
    assert (forall q, q ∈ qs -> Forall (Hrow TR TE ents) q) as Hqr.
    { intros q Hqq. apply Forall_forall. intros c Hc. apply Hrow_rows. intros r Hr. apply (Hq q Hqq).
      apply elem_of_list_In, in_concat. exists c. split; apply elem_of_list_In; auto. }
    destruct (separated_exact w N entC (fdep M) (fun j => j) Hk
      ltac:(intros i c Hi _; apply fdep_lt; auto) ltac:(auto) nthr ms (map (map (flat ents)) qs) m) as [Hsafe Hreg]; auto.
    - rewrite map_length. exact HK.
    - intros q' Hq' j. apply elem_of_list_In, in_map_iff in Hq' as (q & <- & Hqq). apply elem_of_list_In in Hqq.
      rewrite concat_map_flat. split.
      + intros Hj. apply elem_flat in Hj as [Hj _]; [exact Hj|]. intros r. apply Hq; auto.
      + intros Hj. apply elem_flat_2; [exact Hj|]. apply Hq; auto. apply (inrow_rowof M j Hw Hj).
    - split; [apply regions_safe_flat; auto|]. intros m' Hm'. apply Hreg. apply regions_flat; auto.
  Qed.
  (** the region of the code *)
  Lemma factor_region_ok usethreads nthr k c m : 1 <= nthr -> 1 <= c -> length m = N * w ->
    nok (omp_region usethreads TR nthr (nowait_sweeps k c (seq 0 n)) m) (fun m' => length m' = N * w).
  Proof.
    intros Hn Hc Hl.
    assert (forall r, r ∈ concat (nowait_sweeps k c (seq 0 n)) -> r < n) as Hq.
    { intros r Hr. rewrite concat_nowait in Hr by done. apply elem_of_concat_replicate, elem_of_seq in Hr. lia. }
    destruct (factor_exec_total (concat (nowait_sweeps k c (seq 0 n))) m Hq Hl) as (ms & He & Hls).
    unfold omp_region. destruct (usethreads && negb (nthr =? 1)).
    - destruct (factor_safe nthr _ m Hq Hl) as [H1 H2]. apply nok_par_region; eauto.
    - apply nok_lift. rewrite He. exact Hls.
  Qed.
  Lemma factor_region_stable usethreads nthr k c m : 1 <= nthr -> 1 <= c -> consistent m ->
    nok (omp_region usethreads TR nthr (nowait_sweeps k c (seq 0 n)) m) (fun m' => m' = m).
  Proof.
    intros Hn Hc Hm.
    assert (forall r, r ∈ concat (nowait_sweeps k c (seq 0 n)) -> r < n) as Hq.
    { intros r Hr. rewrite concat_nowait in Hr by done. apply elem_of_concat_replicate, elem_of_seq in Hr. lia. }
    assert (exec_seq TR (concat (nowait_sweeps k c (seq 0 n))) m = Ok m) as He.
    { destruct factor_sequential as (ms & Hms & Hrun & Hu). pose proof (Hu m Hm) as ->. destruct k as [|k].
      - reflexivity.
      - apply Hrun; [apply Hm|lia|exact Hc]. }
    unfold omp_region. destruct (usethreads && negb (nthr =? 1)).
    - destruct (factor_stable nthr _ m Hq Hm) as [H1 H2]. apply nok_par_region; eauto.
    - apply nok_lift. rewrite He. reflexivity.
  Qed.
End System.

(** ** The kernels *)
Section Kernels.
  Context {F : Type} {O : SOps F}.
  Variables (M : srmat F).
  Hypothesis (Hw : wf_pat M) (Hd : wf_diag M) (Hs : wf_sorted M).
  Notation n := (nbrows M).
  Notation N := (nnz M).
  Notation pl := (positions M).

  Lemma ok_pl j (Q : nat -> Prop) : j <= N -> Q (length (allterms M j)) -> ok (get (posptr pl) j) Q.
  Proof. intros Hj HQ. eapply ok_get; [apply (positions_ptr M j Hj)|exact HQ]. Qed.
  (** loop over the positions of [j] *)
  Lemma pl_loop j k : j < N -> length (allterms M j) <= k < length (allterms M (j + 1)) ->
    exists a b, lowerp pl !! k = Some a /\ upperp pl !! k = Some b /\ tms M j !! (k - length (allterms M j)) = Some (a, b).
  Proof.
    intros Hj Hk. rewrite (allterms_next M j) in Hk.
    destruct (lookup_lt_is_Some_2 (tms M j) (k - length (allterms M j))) as [[a b] H]; [lia|].
    exists a, b. destruct (positions_lookup M j _ a b Hj H) as [H1 H2].
    replace (length (allterms M j) + (k - length (allterms M j))) with k in * by lia. auto.
  Qed.
  Lemma tms_elem j k a b : tms M j !! k = Some (a, b) -> fdep M j a /\ fdep M j b.
  Proof.
    intros H. apply elem_of_list_lookup_2 in H. split.
    - left. apply elem_of_list_fmap. exists (a, b); auto.
    - right. left. apply elem_of_list_fmap. exists (a, b); auto.
  Qed.
  Lemma ok_scaled_entry scale j : length (vals M) = N -> scale_ok scale n -> j < N ->
    ok (scaled_entry M scale (rowof M j) j) (fun _ => True).
  Proof.
    intros Hv Hsc Hj. unfold scaled_entry. pose proof (inrow_rowof M j Hw Hj) as [Hr _].
    eapply ok_bind; [apply (ok_get_lt _ _ (fun _ => True)); [lia|auto]|]. intros v _.
    destruct scale as [s|]; [|exact I]. simpl in Hsc.
    eapply ok_bind; [apply (ok_get_lt _ _ (fun _ => True)); [lia|auto]|]. intros a _.
    eapply ok_bind; [eapply (ok_get _ _ (fun c => c = col M j)); [apply wf_bcolind; auto|reflexivity]|]. intros c ->.
    eapply ok_bind; [apply (ok_get_lt _ _ (fun _ => True)); [pose proof (wf_col M Hw j Hj); lia|auto]|]. intros b _. exact I.
  Qed.
  Lemma scalar_factor_ok scale j : length (vals M) = N -> scale_ok scale n -> j < N ->
    kernel_ok 1 (entC M (factor_entry M pl scale)) N (fdep M) j.
  Proof.
    intros Hv Hsc Hj. split; [exact Hj|]. unfold entC, factor_entry, entry_sum.
    apply wp_bind, wp_bind, wp_plift. eapply ok_mono; [apply ok_scaled_entry; auto|]. intros sum _.
    apply wp_bind, wp_plift, ok_pl; [lia|].
    apply wp_bind, wp_plift, ok_pl; [lia|].
    assert (forall j', fdep M j j' -> j' < N * 1 /\ exists r', fdep M j r' /\ own 1 r' j') as HD.
    { intros j' H. pose proof (fdep_lt M Hw Hd Hs j j' Hj H). split; [lia|]. exists j'. split; [auto|unfold own; lia]. }
    eapply wp_pfor_post with (I := fun _ _ => True); [rewrite (allterms_next M j); lia|auto| |].
    - intros k s' Hk _. destruct (pl_loop j k Hj Hk) as (a & b & Ha & Hb & Hab).
      destruct (tms_elem _ _ _ _ Hab) as [Hfa Hfb].
      apply wp_bind, wp_plift. eapply ok_get; [exact Ha|].
      apply wp_bind, wp_plift. eapply ok_get; [exact Hb|].
      apply wp_bind, wp_pread; [exists s'; apply HD; auto|]. intros x _.
      apply wp_bind, wp_pread; [exists s'; apply HD; auto|]. intros y _. exact I.
    - intros s' _. apply wp_bind, wp_plift. eapply ok_get; [apply wf_bcolind; auto|].
      destruct (Nat.ltb_spec (col M j) (rowof M j)) as [Hlt|Hge]; [|reflexivity].
      apply wp_bind, wp_plift. apply (ok_diagind M Hd); [apply (wf_col M Hw j Hj)|].
      apply wp_bind, wp_pread; [exists s'; apply HD; right; right; auto|]. intros dv _. reflexivity.
  Qed.

  Variables (inv : list F -> list F) (so : storage) (bs : nat).
  Notation bb := (bs * bs).
  Hypothesis Hinv : forall b, length b = bb -> length (inv b) = bb.
  Lemma unlay_lt e : e < bb -> fst (unlay so bs e) < bs /\ snd (unlay so bs e) < bs.
  Proof.
    intros He. assert (bs <> 0) by lia. pose proof (Nat.mod_upper_bound e bs ltac:(auto)).
    assert (e / bs < bs) by (apply Nat.div_lt_upper_bound; lia). destruct so; simpl; auto.
  Qed.
  Lemma lay_unlay e : e < bb -> lay so bs (fst (unlay so bs e)) (snd (unlay so bs e)) = e.
  Proof.
    intros He. assert (bs <> 0) by lia. pose proof (Nat.div_mod e bs ltac:(auto)). destruct so; simpl; lia.
  Qed.
  Lemma unlay_lay p q : p < bs -> q < bs -> unlay so bs (lay so bs p q) = (p, q).
  Proof.
    intros Hp Hq.
    assert (forall x y, x < bs -> y < bs -> (x * bs + y) / bs = x /\ (x * bs + y) mod bs = y) as H.
    { intros x y Hx Hy. assert (bs <> 0) by lia. split.
      - rewrite Nat.div_add_l, Nat.div_small by lia. lia.
      - rewrite Nat.add_comm, Nat.mod_add, Nat.mod_small by lia. lia. }
    unfold unlay, lay. destruct so; [destruct (H p q Hp Hq) as [-> ->]|destruct (H q p Hq Hp) as [-> ->]]; reflexivity.
  Qed.
  Lemma ok_getblk (v : list F) base k : base + k <= length v -> ok (getblk v base k) (fun b => length b = k).
  Proof.
    intros H. unfold getblk. eapply ok_mono.
    - apply (ok_mapr _ _ (fun _ _ => True)). intros e p Hp. apply elem_of_list_lookup_2, elem_of_seq in Hp.
      apply ok_get_lt; [lia|auto].
    - intros u [Hu _]. rewrite seq_length in Hu. exact Hu.
  Qed.
  Lemma ok_scaleBlock s i c b : length s = n * bs -> i < n -> c < n -> length b = bb ->
    ok (scaleBlock so bs s i c b) (fun b' => length b' = bb).
  Proof.
    intros Hsl Hi Hc Hb. unfold scaleBlock. eapply ok_mono.
    - apply (ok_mapr _ _ (fun _ _ => True)). intros e p Hp. apply elem_of_list_lookup_2, elem_of_seq in Hp.
      destruct (unlay_lt p ltac:(lia)) as [Hx Hy].
      eapply ok_bind; [apply (ok_get_lt _ _ (fun _ => True)); [lia|auto]|]. intros v _.
      eapply ok_bind; [apply (ok_get_lt _ _ (fun _ => True)); [nia|auto]|]. intros a _.
      eapply ok_bind; [apply (ok_get_lt _ _ (fun _ => True)); [nia|auto]|]. intros a' _. exact I.
    - intros u [Hu _]. rewrite seq_length in Hu. exact Hu.
  Qed.
  Lemma ok_scaled_block scale j : length (vals M) = N * bb -> scale_ok scale (n * bs) -> j < N ->
    ok (scaled_block so bs M scale (rowof M j) j) (fun b => length b = bb).
  Proof.
    intros Hv Hsc Hj. unfold scaled_block. pose proof (inrow_rowof M j Hw Hj) as [Hr _].
    eapply ok_bind; [eapply (ok_get _ _ (fun c => c = col M j)); [apply wf_bcolind; auto|reflexivity]|]. intros c ->.
    eapply ok_bind; [apply ok_getblk; nia|]. intros b Hb.
    destruct scale as [s|]; [|exact Hb]. apply ok_scaleBlock; auto. apply (wf_col M Hw j Hj).
  Qed.
  Lemma ok_bmatmul a b : length a = bb -> length b = bb -> ok (bmatmul so bs a b) (fun c => length c = bb).
  Proof.
    intros Ha Hb. unfold bmatmul. eapply ok_mono.
    - apply (ok_mapr _ _ (fun _ _ => True)). intros e p Hp. apply elem_of_list_lookup_2, elem_of_seq in Hp.
      destruct (unlay_lt p ltac:(lia)) as [Hx Hy].
      apply (ok_for_post _ _ _ _ (fun _ _ => True)); [lia|auto| |auto]. intros t acc Ht _.
      eapply ok_bind; [apply (ok_get_lt _ _ (fun _ => True)); [rewrite Ha; apply lay_lt; lia|auto]|]. intros x _.
      eapply ok_bind; [apply (ok_get_lt _ _ (fun _ => True)); [rewrite Hb; apply lay_lt; lia|auto]|]. intros y _. exact I.
    - intros u [Hu _]. rewrite seq_length in Hu. exact Hu.
  Qed.
  Lemma wp_pbmatmul (D : nat -> Prop) l u : (forall e, e < bb -> D (l * bb + e)) -> (forall e, e < bb -> D (u * bb + e)) ->
    wp (fun x (_ : F) => D x) nowr (pbmatmul so bs l u) (fun c => length c = bb).
  Proof.
    intros Hl Hu. unfold pbmatmul. eapply wp_post.
    - apply (wp_pmap _ _ _ _ (fun _ _ => True)). intros e p Hp. apply elem_of_list_lookup_2, elem_of_seq in Hp.
      destruct (unlay_lt p ltac:(lia)) as [Hx Hy].
      apply (wp_pfor_post _ _ _ _ _ _ (fun _ _ => True)); [lia|auto| |auto]. intros t acc Ht _.
      apply wp_bind, wp_pread; [exists acc; apply Hl, lay_lt; lia|]. intros x _.
      apply wp_bind, wp_pread; [exists acc; apply Hu, lay_lt; lia|]. intros y _. exact I.
    - intros c [Hc _]. rewrite seq_length in Hc. exact Hc.
  Qed.
  Lemma wp_preadblk (D : nat -> Prop) j : (forall e, e < bb -> D (j * bb + e)) ->
    wp (fun x (_ : F) => D x) nowr (preadblk bs j) (fun c => length c = bb).
  Proof.
    intros Hl. unfold preadblk. eapply wp_post.
    - apply (wp_pmap _ _ _ _ (fun _ _ => True)). intros e p Hp. apply elem_of_list_lookup_2, elem_of_seq in Hp.
      apply wp_pread; [exists s0; apply Hl; lia|auto].
    - intros c [Hc _]. rewrite seq_length in Hc. exact Hc.
  Qed.
  Lemma block_factor_ok scale j : length (vals M) = N * bb -> scale_ok scale (n * bs) -> j < N ->
    kernel_ok bb (entC M (bfactor_entry inv so bs M pl scale)) N (fdep M) j.
  Proof.
    intros Hv Hsc Hj. split; [exact Hj|]. unfold entC, bfactor_entry, block_sum.
    apply wp_bind, wp_bind, wp_plift. eapply ok_mono; [apply ok_scaled_block; auto|]. intros sum Hsum.
    apply wp_bind, wp_plift, ok_pl; [lia|].
    apply wp_bind, wp_plift, ok_pl; [lia|].
    assert (forall j' e, fdep M j j' -> e < bb -> j' * bb + e < N * bb /\ exists r', fdep M j r' /\ own bb r' (j' * bb + e)) as HD.
    { intros j' e H He. pose proof (fdep_lt M Hw Hd Hs j j' Hj H). split; [nia|]. exists j'. split; [auto|unfold own; lia]. }
    eapply wp_pfor_post with (I := fun _ s => length s = bb); [rewrite (allterms_next M j); lia|auto| |].
    - intros k s' Hk Hs'. destruct (pl_loop j k Hj Hk) as (a & b & Ha & Hb & Hab).
      destruct (tms_elem _ _ _ _ Hab) as [Hfa Hfb].
      apply wp_bind, wp_plift. eapply ok_get; [exact Ha|].
      apply wp_bind, wp_plift. eapply ok_get; [exact Hb|].
      apply wp_bind. eapply wp_post;
        [apply (wp_pbmatmul (fun l => l < N * bb /\ exists r', fdep M j r' /\ own bb r' l)); intros; apply HD; auto|].
      intros c Hc. simpl. apply vsub_length; auto.
    - intros s' Hs'. apply wp_bind, wp_plift. eapply ok_get; [apply wf_bcolind; auto|].
      destruct (Nat.ltb_spec (col M j) (rowof M j)) as [Hlt|Hge]; [|exact Hs'].
      apply wp_bind, wp_plift. apply (ok_diagind M Hd); [apply (wf_col M Hw j Hj)|].
      apply wp_bind. eapply wp_post;
        [apply (wp_preadblk (fun l => l < N * bb /\ exists r', fdep M j r' /\ own bb r' l)); intros; apply HD; auto|].
      + right; right; auto.
      + intros c Hc. apply wp_plift, ok_bmatmul; auto.
  Qed.
End Kernels.
