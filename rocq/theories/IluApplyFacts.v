(** * IluApplyFacts: facts about the application functions that hold for any
      scalar operations (no algebraic laws used) *)
From Verif Require Import Base Alg SRMatrix Async AsyncTheory AsyncSystem AsyncSweeps Nd Kernels KernelFacts IluApply TriSpec.

(** row [i] reads column [c] in its strictly lower (upper) part *)
Definition lowdep {A} (M : srmat A) (i c : nat) : Prop := exists j, rp M i <= j < dg M i /\ col M j = c.
Definition updep {A} (M : srmat A) (i c : nat) : Prop := exists j, dg M i < j < rp M (i + 1) /\ col M j = c.

Section Deps.
  Context {A : Type}.
  Implicit Type M : srmat A.
  Lemma lowdep_lt M i c : wf_pat M -> wf_diag M -> wf_sorted M -> i < nbrows M -> lowdep M i c -> c < i.
  Proof.
    intros Hw Hd Hs Hi (j & Hj & <-). destruct Hd as [Hdl Hd]. destruct (Hd i Hi) as [H1 H2].
    apply (before_diag M i j Hs); [split; auto|split; [auto|lia]|lia].
  Qed.
  Lemma updep_lt M i c : wf_pat M -> wf_diag M -> wf_sorted M -> i < nbrows M -> updep M i c -> i < c < nbrows M.
  Proof.
    intros Hw Hd Hs Hi (j & Hj & <-). destruct Hd as [Hdl Hd]. destruct (Hd i Hi) as [H1 H2].
    split.
    - apply (after_diag M i j Hs); [split; auto|split; [auto|lia]|lia].
    - apply (wf_col M Hw). apply (inrow_lt M i j Hw). split; [auto|lia].
  Qed.
  Lemma topological_seq (dep : nat -> nat -> Prop) n :
    (forall i c, i < n -> dep i c -> c < i) -> topological dep (seq 0 n).
  Proof.
    intros H j j' r r' Hj Hj' Hle Hd. apply lookup_seq in Hj, Hj'.
    specialize (H r r' ltac:(lia) Hd). lia.
  Qed.
  Lemma topological_rev (dep : nat -> nat -> Prop) n :
    (forall i c, i < n -> dep i c -> i < c) -> topological dep (rev (seq 0 n)).
  Proof.
    intros H j j' r r' Hj Hj' Hle Hd.
    assert (forall k x, rev (seq 0 n) !! k = Some x -> k < n /\ x = n - 1 - k) as Hrev.
    { intros k x Hk. pose proof (lookup_lt_Some _ _ _ Hk) as Hlt. rewrite rev_length, seq_length in Hlt.
      rewrite <- reverse_rev in Hk. rewrite reverse_lookup in Hk by (rewrite seq_length; lia).
      rewrite seq_length in Hk. apply lookup_seq in Hk. lia. }
    apply Hrev in Hj, Hj'. specialize (H r r' ltac:(lia) Hd). lia.
  Qed.
  Lemma rev_seq_perm n : rev (seq 0 n) ≡ₚ seq 0 n.
  Proof. symmetry. apply Permutation_rev. Qed.
End Deps.

Section Kernel_ok.
  Context {F : Type} {O : SOps F}.
  Variables (so : storage) (bs : nat) (M : srmat F) (ilu : list F).
  Hypothesis (Hw : wf_pat M) (Hd : wf_diag M).
  Notation n := (nbrows M).

  Lemma row_bounds i : i < n -> rp M i <= dg M i /\ dg M i + 1 <= rp M (i + 1) /\ rp M (i + 1) <= nnz M.
  Proof.
    intros Hi. destruct Hd as [_ H]. destruct (H i Hi) as [H1 _].
    pose proof (rp_mono M (i + 1) n Hw ltac:(lia) ltac:(lia)). unfold nnz. lia.
  Qed.
  Lemma ok_browptr i (Q : nat -> Prop) : i <= n -> Q (rp M i) -> ok (get (browptr M) i) Q.
  Proof. intros Hi HQ. eapply ok_get; [apply wf_browptr; auto|exact HQ]. Qed.
  Lemma ok_diagind i (Q : nat -> Prop) : i < n -> Q (dg M i) -> ok (get (diagind M) i) Q.
  Proof. intros Hi HQ. eapply ok_get; [apply wf_diagind; auto|exact HQ]. Qed.

  Lemma scalar_lowC_ok z i :
    length ilu = nnz M -> length z = n * 1 -> i < n -> kernel_ok 1 (scalar_lowC M ilu z) n (lowdep M) i.
  Proof.
    intros Hl Hz Hi. split; [exact Hi|]. pose proof (row_bounds i Hi). unfold scalar_lowC.
    apply wp_bind, wp_plift, ok_browptr; [lia|].
    apply wp_bind, wp_plift, ok_diagind; [lia|].
    apply wp_bind, wp_plift, ok_get_lt; [lia|]. intros rhs _.
    apply wp_bind. unfold scalar_unit_lower_triangular. apply wp_bind.
    eapply wp_post; [|intros x _; reflexivity].
    apply (wp_sdot (fun l => l < n * 1 /\ exists r', lowdep M i r' /\ own 1 r' l)); [lia|].
    intros j Hj. split; [lia|]. exists (col M j). split; [apply wf_bcolind; auto; lia|].
    split; [pose proof (wf_col M Hw j ltac:(lia)); lia|]. exists (col M j). split; [exists j; auto|].
    unfold own; lia.
  Qed.
  Lemma scalar_upC_ok y i :
    length ilu = nnz M -> length y = n * 1 -> i < n -> kernel_ok 1 (scalar_upC M ilu y) n (updep M) i.
  Proof.
    intros Hl Hz Hi. split; [exact Hi|]. pose proof (row_bounds i Hi). unfold scalar_upC.
    apply wp_bind, wp_plift, ok_diagind; [lia|].
    apply wp_bind, wp_plift, ok_browptr; [lia|].
    apply wp_bind, wp_plift, ok_get_lt; [lia|]. intros d _.
    apply wp_bind, wp_plift, ok_get_lt; [lia|]. intros rhs _.
    apply wp_bind. unfold scalar_upper_triangular. apply wp_bind.
    eapply wp_post; [|intros x _; reflexivity].
    apply (wp_sdot (fun l => l < n * 1 /\ exists r', updep M i r' /\ own 1 r' l)); [lia|].
    intros j Hj. split; [lia|]. exists (col M j). split; [apply wf_bcolind; auto; lia|].
    split; [pose proof (wf_col M Hw j ltac:(lia)); lia|]. exists (col M j). split; [exists j; split; [lia|auto]|].
    unfold own; lia.
  Qed.

  Lemma block_lowC_ok z i :
    length ilu = nnz M * (bs * bs) -> length z = n * bs -> i < n ->
    kernel_ok bs (block_lowC so bs M ilu z) n (lowdep M) i.
  Proof.
    intros Hl Hz Hi. split; [exact Hi|]. pose proof (row_bounds i Hi). unfold block_lowC.
    apply wp_bind, wp_plift, ok_browptr; [lia|].
    apply wp_bind, wp_plift, ok_diagind; [lia|].
    apply wp_bind, wp_plift. eapply ok_mono; [apply ok_getseg; nia|]. intros rhs Hrhs.
    unfold block_unit_lower_triangular. apply wp_bind.
    eapply wp_post; [|intros x Hx; apply vsub_length; [exact Hrhs|exact Hx]].
    apply (wp_bdot (fun l => l < n * bs /\ exists r', lowdep M i r' /\ own bs r' l)); [lia|apply bzero_length|].
    intros j Hj. split; [nia|]. exists (col M j). split; [apply wf_bcolind; auto; lia|].
    intros q Hq. pose proof (wf_col M Hw j ltac:(lia)).
    split; [nia|]. exists (col M j). split; [exists j; auto|]. unfold own; lia.
  Qed.
  Lemma block_upC_ok y i :
    length ilu = nnz M * (bs * bs) -> length y = n * bs -> i < n ->
    kernel_ok bs (block_upC so bs M ilu y) n (updep M) i.
  Proof.
    intros Hl Hz Hi. split; [exact Hi|]. pose proof (row_bounds i Hi). unfold block_upC.
    apply wp_bind, wp_plift, ok_diagind; [lia|].
    apply wp_bind, wp_plift, ok_browptr; [lia|].
    apply wp_bind, wp_plift. eapply ok_mono; [apply ok_getseg; nia|]. intros rhs Hrhs.
    unfold block_upper_triangular. apply wp_bind.
    eapply wp_post; [|intros x Hx; apply wp_plift, ok_bmatvec; [|apply vsub_length; [exact Hrhs|exact Hx]]].
    - apply (wp_bdot (fun l => l < n * bs /\ exists r', updep M i r' /\ own bs r' l)); [lia|apply bzero_length|].
      intros j Hj. split; [nia|]. exists (col M j). split; [apply wf_bcolind; auto; lia|].
      intros q Hq. pose proof (wf_col M Hw j ltac:(lia)).
      split; [nia|]. exists (col M j). split; [exists j; split; [lia|auto]|]. unfold own; lia.
    - nia.
  Qed.
End Kernel_ok.

(** ** Level-scheduled sweeps are sequential sweeps *)
Section LevelSweeps.
  Context {F : Type} {O : SOps F}.
  Variables (w n : nat) (C : nat -> @P F (list F)) (dep : nat -> nat -> Prop).
  (** consecutive ranges of rows covering all rows, no dependency inside a range *)
  Definition levels_for (levels : list nat) : Prop :=
    levels !! 0 = Some 0 /\ last levels = Some n /\
    (forall l a b, levels !! l = Some a -> levels !! (l + 1) = Some b -> a <= b) /\
    (forall l a b i c, levels !! l = Some a -> levels !! (l + 1) = Some b ->
       a <= i < b -> a <= c < b -> ~ dep i c).
  Lemma levels_mono levels : levels_for levels -> forall l1 l2 a b,
    l1 <= l2 -> levels !! l1 = Some a -> levels !! l2 = Some b -> a <= b.
  Proof.
    intros (_ & _ & Hm & _) l1 l2. induction l2 as [|l2 IH]; intros a b Hle Ha Hb.
    - replace l1 with 0 in Ha by lia. rewrite Ha in Hb. injection Hb as ->. lia.
    - destruct (decide (l1 = S l2)) as [->|Hne]; [rewrite Ha in Hb; injection Hb as ->; lia|].
      destruct (lookup_lt_is_Some_2 levels l2) as [c Hc]; [apply lookup_lt_Some in Hb; lia|].
      pose proof (IH a c ltac:(lia) Ha Hc). replace (S l2) with (l2 + 1) in Hb by lia.
      pose proof (Hm l2 c b Hc Hb). lia.
  Qed.
  Lemma levels_le levels : levels_for levels -> forall l a, levels !! l = Some a -> a <= n.
  Proof.
    intros H l a Ha. pose proof H as (_ & Hlast & _).
    apply (levels_mono levels H l (length levels - 1) a n); [apply lookup_lt_Some in Ha; lia|exact Ha|].
    rewrite last_lookup in Hlast. replace (length levels - 1) with (pred (length levels)) by lia. exact Hlast.
  Qed.
  Lemma exec_seq_range_snoc m a b :
    a <= b -> exec_seq (T w C) (seq 0 b) m = let! m1 := exec_seq (T w C) (seq 0 a) m in exec_seq (T w C) (range a b) m1.
  Proof.
    intros H. rewrite <- exec_seq_app. f_equal. unfold range.
    replace b with (a + (b - a)) at 1 by lia. rewrite seq_app. reflexivity.
  Qed.
  Lemma level_loop_step nthr order m :
    1 <= nthr -> NoDup order -> (forall r, r ∈ order -> kernel_ok w C n dep r) ->
    (forall r r', r ∈ order -> r' ∈ order -> ~ dep r r') -> length m = n * w ->
    nok (omp_for (T w C) nthr order m)
        (fun m' => length m' = n * w /\ exec_seq (T w C) order m = Ok m').
  Proof.
    intros Hn Hnd Hk Hi Hm. split.
    - destruct (region_independent w C n dep nthr [order] m) as [Hs (ms & He & Hl & Hu)]; simpl; rewrite ?app_nil_r; auto.
      exists (Ok ms), [order]. split; [simpl; apply app_nil_r|]. left. exists ms. split; [|reflexivity].
      apply sequential_is_a_schedule; auto.
    - intros o (q & Hq & Ho).
      destruct (region_independent w C n dep nthr q m) as [Hs (ms & He & Hl & Hu)]; rewrite ?Hq; auto.
      destruct Ho as [(m' & Hr & ->)|[_ Hns]]; [|contradiction]. simpl.
      rewrite (Hu m' Hr). rewrite Hq in He. auto.
  Qed.
  Hypothesis Hk : forall i, i < n -> kernel_ok w C n dep i.
  Lemma level_fwd_spec levels nthr m :
    levels_for levels -> 1 <= nthr -> length m = n * w ->
    nok (level_fwd w C levels nthr m)
        (fun m' => length m' = n * w /\ exec_seq (T w C) (seq 0 n) m = Ok m').
  Proof.
    intros Hlev Hn Hm0.
    assert (1 <= length levels) as Hlen.
    { destruct Hlev as (H0 & _). apply lookup_lt_Some in H0. lia. }
    unfold level_fwd.
    apply (nok_nfor 0 (length levels - 1) _ m (fun l y => length y = n * w /\
        forall a, levels !! l = Some a -> exec_seq (T w C) (seq 0 a) m = Ok y)).
    - lia.
    - split; [exact Hm0|]. intros a Ha. destruct Hlev as (H0 & _). rewrite Ha in H0. injection H0 as ->. reflexivity.
    - intros l y Hl [Hly Hrl].
      destruct (lookup_lt_is_Some_2 levels l) as [a Ha]; [lia|].
      destruct (lookup_lt_is_Some_2 levels (l + 1)) as [b Hb]; [lia|].
      eapply nok_bind; [apply nok_lift; eapply ok_get; [exact Ha|]; apply (eq_refl a)|]. intros lo <-.
      eapply nok_bind; [apply nok_lift; eapply ok_get; [exact Hb|]; apply (eq_refl b)|]. intros hi <-.
      pose proof Hlev as (_ & _ & Hm & Hind). pose proof (Hm l a b Ha Hb) as Hab.
      pose proof (levels_le levels Hlev (l + 1) b Hb) as Hbn.
      eapply nok_mono; [apply (level_loop_step nthr (range a b) y Hn)|].
      + apply NoDup_range.
      + intros r0 H0. apply elem_of_range in H0. apply Hk; lia.
      + intros r0 r' H0 H1. apply elem_of_range in H0, H1. apply (Hind l a b r0 r' Ha Hb); auto.
      + exact Hly.
      + intros y' [Hl' He]. split; [exact Hl'|]. intros b' Hb'. rewrite Hb in Hb'. injection Hb' as <-.
        rewrite (exec_seq_range_snoc m a b Hab), (Hrl a Ha). exact He.
    - intros y [Hly Hrl]. split; [exact Hly|].
      apply Hrl. pose proof Hlev as (_ & Hlast & _). rewrite last_lookup in Hlast.
      replace (length levels - 1) with (pred (length levels)) by lia. exact Hlast.
  Qed.
  Lemma level_bwd_spec levels nthr m :
    levels_for levels -> 1 <= nthr -> length m = n * w ->
    nok (level_bwd w C levels nthr m)
        (fun m' => length m' = n * w /\ exec_seq (T w C) (rev (seq 0 n)) m = Ok m').
  Proof.
    intros Hlev Hn Hm0.
    assert (1 <= length levels) as Hlen.
    { destruct Hlev as (H0 & _). apply lookup_lt_Some in H0. lia. }
    unfold level_bwd.
    apply (nok_nrfor 0 (length levels - 1) _ m (fun l x => length x = n * w /\
        forall a, levels !! l = Some a -> exec_seq (T w C) (rev (range a n)) m = Ok x)).
    - lia.
    - split; [exact Hm0|]. intros a Ha. pose proof Hlev as (_ & Hlast & _). rewrite last_lookup in Hlast.
      replace (length levels - 1) with (pred (length levels)) in Ha by lia. rewrite Ha in Hlast. injection Hlast as ->.
      rewrite range_nil by lia. reflexivity.
    - intros l x Hl [Hlx Hrl].
      destruct (lookup_lt_is_Some_2 levels l) as [a Ha]; [lia|].
      destruct (lookup_lt_is_Some_2 levels (l + 1)) as [b Hb]; [lia|].
      eapply nok_bind; [apply nok_lift; eapply ok_get; [exact Hb|]; apply (eq_refl b)|]. intros hi <-.
      eapply nok_bind; [apply nok_lift; eapply ok_get; [exact Ha|]; apply (eq_refl a)|]. intros lo <-.
      pose proof Hlev as (_ & _ & Hm & Hind). pose proof (Hm l a b Ha Hb) as Hab.
      pose proof (levels_le levels Hlev (l + 1) b Hb) as Hbn.
      assert (forall r0, r0 ∈ rev (range a b) <-> a <= r0 < b) as Hin.
      { intros r0. rewrite <- reverse_rev, elem_of_reverse. apply elem_of_range. }
      eapply nok_mono; [apply (level_loop_step nthr (rev (range a b)) x Hn)|].
      + rewrite <- Permutation_rev. apply NoDup_range.
      + intros r0 H0. apply Hin in H0. apply Hk; lia.
      + intros r0 r' H0 H1. apply Hin in H0, H1. apply (Hind l a b r0 r' Ha Hb); auto.
      + exact Hlx.
      + intros x' [Hl' He]. split; [exact Hl'|]. intros a' Ha'. rewrite Ha in Ha'. injection Ha' as <-.
        rewrite (range_app a b n) by lia. rewrite rev_app_distr, exec_seq_app, (Hrl b Hb). exact He.
    - intros x [Hlx Hrl]. split; [exact Hlx|].
      assert (exec_seq (T w C) (rev (range 0 n)) m = Ok x) as He.
      { apply Hrl. apply Hlev. }
      unfold range in He. rewrite Nat.sub_0_r in He. exact He.
  Qed.
End LevelSweeps.

(** ** The application skeleton *)
Section Skeleton.
  Context {F : Type} {O : SOps F}.
  Variables (w n : nat) (lowC upC : list F -> nat -> @P F (list F)) (ldep udep : nat -> nat -> Prop).
  Hypothesis Hlow : forall z i, length z = n * w -> i < n -> kernel_ok w (lowC z) n ldep i.
  Hypothesis Hup : forall y i, length y = n * w -> i < n -> kernel_ok w (upC y) n udep i.
  Hypothesis Hlt : forall i c, i < n -> ldep i c -> c < i.
  Hypothesis Hut : forall i c, i < n -> udep i c -> i < c.

  Lemma scaled_rhs_length scale r len : scale_ok scale len -> length r = len -> length (scaled_rhs scale r) = len.
  Proof. destruct scale; simpl; intros; [rewrite zip_with_length; lia|auto]. Qed.
  Lemma scaled_sol_length scale r len : scale_ok scale len -> length r = len -> length (scaled_sol scale r) = len.
  Proof. destruct scale; simpl; intros; [rewrite zip_with_length; lia|auto]. Qed.

  Lemma init_z_spec len scale r z :
    scale_ok scale len -> length r = len -> length z = len ->
    nok (init_z len scale r z) (fun z' => z' = scaled_rhs scale r).
  Proof.
    intros Hs Hr Hz. unfold init_z.
    apply (nok_par_for_map 0 len _ z (fun i => match scale with Some s => (vat s i * vat r i)%s | None => vat r i end)).
    - lia.
    - intros i s' Hi Hl _. rewrite vat_get by lia. simpl.
      destruct scale as [s|]; simpl in Hs.
      + rewrite vat_get by lia. simpl. apply set_Ok. lia.
      + apply set_Ok. lia.
    - intros s' Hl Hin Hout. pose proof (scaled_rhs_length scale r len Hs Hr) as Hsl.
      apply list_eq_lt; [lia|]. intros i Hi. rewrite Hin by lia. symmetry.
      destruct scale as [s|]; simpl in *.
      + rewrite lookup_zip_with, (vat_Some s i), (vat_Some r i) by lia. reflexivity.
      + apply vat_Some. lia.
  Qed.
  Lemma final_scale_spec len scale z :
    scale_ok scale len -> length z = len -> nok (final_scale len scale z) (fun z' => z' = scaled_sol scale z).
  Proof.
    intros Hs Hz. unfold final_scale. destruct scale as [s|]; [|apply nok_ret; reflexivity]. simpl in *.
    apply (nok_par_for_map 0 len _ z (fun i => (vat z i * vat s i)%s)).
    - lia.
    - intros i s' Hi Hl Hsame. unfold get at 1. rewrite Hsame, vat_Some by lia. simpl.
      rewrite vat_get by lia. simpl. apply set_Ok. lia.
    - intros s' Hl Hin Hout. apply list_eq_lt; [rewrite zip_with_length; lia|]. intros i Hi. rewrite Hin by lia.
      rewrite lookup_zip_with, (vat_Some s i), (vat_Some z i) by lia. reflexivity.
  Qed.
  Lemma fill_spec len (a : F) (v : list F) : length v = len -> nok (fill len a v) (fun v' => v' = replicate len a).
  Proof.
    intros Hv. unfold fill. apply (nok_par_for_map 0 len _ v (fun _ => a)).
    - lia.
    - intros i s' Hi Hl _. apply set_Ok. lia.
    - intros s' Hl Hin _. apply list_eq_lt; [rewrite replicate_length; lia|].
      intros i Hi. rewrite Hin by lia. symmetry. apply lookup_replicate_2. lia.
  Qed.
  Lemma vcopy_spec len (src v : list F) : length v = len -> length src = len -> nok (vcopy len src v) (fun v' => v' = src).
  Proof.
    intros Hv Hs. unfold vcopy. apply (nok_par_for_map 0 len _ v (fun i => vat src i)).
    - lia.
    - intros i s' Hi Hl _. rewrite vat_get by lia. simpl. apply set_Ok. lia.
    - intros s' Hl Hin _. apply list_eq_lt; [lia|]. intros i Hi. rewrite Hin by lia. symmetry. apply vat_Some. lia.
  Qed.

  (** the consistent vectors: solution of the two triangular systems *)
  Definition lower_solution (rhs y : list F) : Prop :=
    length y = n * w /\ forall i, i < n -> fix_at w (lowC rhs) y i.
  Definition upper_solution (y x : list F) : Prop :=
    length x = n * w /\ forall i, i < n -> fix_at w (upC y) x i.

  Lemma lower_sweeps rhs : length rhs = n * w ->
    exists ys, lower_solution rhs ys /\ (forall y, lower_solution rhs y -> y = ys) /\
      forall m k c, length m = n * w -> 1 <= k -> 1 <= c ->
        exec_seq (T w (lowC rhs)) (concat (nowait_sweeps k c (seq 0 n))) m = Ok ys.
  Proof.
    intros Hr. destruct (sweeps_sequential w (lowC rhs) n ldep (seq 0 n)) as (ys & H1 & H2 & H3 & H4).
    - reflexivity.
    - intros r Hrn. apply Hlow; auto.
    - apply topological_seq. exact Hlt.
    - exists rhs. exact Hr.
    - exists ys. split; [split; auto|]. split; [intros y [Hy1 Hy2]; auto|exact H3].
  Qed.
  Lemma upper_sweeps y : length y = n * w ->
    exists xs, upper_solution y xs /\ (forall x, upper_solution y x -> x = xs) /\
      forall m k c, length m = n * w -> 1 <= k -> 1 <= c ->
        exec_seq (T w (upC y)) (concat (nowait_sweeps k c (rev (seq 0 n)))) m = Ok xs.
  Proof.
    intros Hr. destruct (sweeps_sequential w (upC y) n udep (rev (seq 0 n))) as (ys & H1 & H2 & H3 & H4).
    - apply rev_seq_perm.
    - intros r Hrn. apply Hup; auto.
    - apply topological_rev. exact Hut.
    - exists y. exact Hr.
    - exists ys. split; [split; auto|]. split; [intros x [Hx1 Hx2]; auto|exact H3].
  Qed.

  (** Sequential application: the same result for every previous content of the
      work and output vectors, sweep count, chunk size and initialisation. *)
  Lemma ilu0_apply_sequential scale r :
    scale_ok scale (n * w) -> length r = n * w ->
    exists ys xs, lower_solution (scaled_rhs scale r) ys /\ upper_solution ys xs /\
      forall ytemp z nsweeps chunk usethreads nthr init,
        length ytemp = n * w -> length z = n * w -> 1 <= nsweeps -> 1 <= chunk -> init <> INIT_A_NONE ->
        usethreads = false \/ nthr = 1 ->
        nok (ilu0_apply w n lowC upC scale ytemp nsweeps chunk usethreads nthr init r z)
            (fun out => out = (ys, scaled_sol scale xs)).
  Proof.
    intros Hs Hr. pose proof (scaled_rhs_length scale r _ Hs Hr) as Hsl.
    destruct (lower_sweeps (scaled_rhs scale r) Hsl) as (ys & Hy & _ & Hyrun).
    destruct (upper_sweeps ys (proj1 Hy)) as (xs & Hx & _ & Hxrun).
    exists ys, xs. split; [exact Hy|]. split; [exact Hx|].
    intros ytemp z k c ut nthr init Hyt Hz Hk Hc Hinit Hseq. unfold ilu0_apply.
    eapply nok_bind; [apply init_z_spec; auto|]. intros z1 ->.
    eapply nok_bind with (P := fun y => length y = n * w).
    { destruct init; [| |contradiction];
        (eapply nok_mono; [apply fill_spec; exact Hyt|]; intros a ->; apply replicate_length). }
    intros y1 Hy1.
    eapply nok_bind with (P := fun y => y = ys).
    { rewrite omp_region_seq by done. apply nok_lift. rewrite Hyrun; auto. reflexivity. }
    intros y ->.
    eapply nok_bind with (P := fun z => length z = n * w).
    { destruct init; [| |contradiction].
      - eapply nok_mono; [apply fill_spec; auto|]. intros a ->. apply replicate_length.
      - eapply nok_mono; [apply vcopy_spec; [auto|apply Hy]|]. intros a ->. apply Hy. }
    intros z2 Hz2.
    eapply nok_bind with (P := fun z => z = xs).
    { rewrite omp_region_seq by done. apply nok_lift. rewrite Hxrun; auto. reflexivity. }
    intros z3 ->.
    eapply nok_bind; [apply final_scale_spec; [exact Hs|apply Hx]|].
    intros z4 ->. apply nok_ret. reflexivity.
  Qed.

  (** The initialisation option "none" always ends in an exception. *)
  Lemma ilu0_apply_init_none scale ytemp nsweeps chunk usethreads nthr r z :
    scale_ok scale (n * w) -> length r = n * w -> length ytemp = n * w -> length z = n * w ->
    1 <= chunk -> 1 <= nthr ->
    forall o, ilu0_apply w n lowC upC scale ytemp nsweeps chunk usethreads nthr INIT_A_NONE r z o <->
      o = Throw " scalar_ilu0_apply: Invalid init type!".
  Proof.
    intros Hs Hr Hyt Hz Hc Hn o.
    pose proof (scaled_rhs_length scale r _ Hs Hr) as Hsl.
    destruct (init_z_spec (n * w) scale r z Hs Hr Hz) as [(oz & Hoz) Hinit].
    assert (nok (omp_region usethreads (T w (lowC (scaled_rhs scale r))) nthr
               (nowait_sweeps nsweeps chunk (seq 0 n)) ytemp) (fun _ => True)) as [(oy & Hoy) Hreg].
    { assert (forall r0, r0 ∈ concat (nowait_sweeps nsweeps chunk (seq 0 n)) ->
                kernel_ok w (lowC (scaled_rhs scale r)) n ldep r0) as Hk.
      { intros r0 H0. rewrite concat_nowait in H0 by done. apply elem_of_concat_replicate, elem_of_seq in H0.
        apply Hlow; [auto|lia]. }
      destruct (exec_seq_total w (lowC (scaled_rhs scale r)) n ldep _ ytemp Hk Hyt) as (ms & He & Hms).
      unfold omp_region. destruct (usethreads && negb (nthr =? 1)).
      - apply nok_par_region; [exact Hn|eauto| |auto].
        destruct (region_settles (T w (lowC (scaled_rhs scale r))) ytemp (fun _ => False) (fun _ => False) nthr
          (nowait_sweeps nsweeps chunk (seq 0 n)) ytemp) as [Hsafe _]; auto.
        + intros l [].
        + intros r0 H0. right. eapply wp_mono; [apply (avoids_T w _ n ldep (length ytemp) (fun _ => False) r0); auto|..]; simpl; auto.
          intros l v [H _]. split; [exact H|]. intros [[]|[]].
      - apply nok_lift. rewrite He. exact I. }
    unfold ilu0_apply. split.
    - intros (x1 & H1 & H2). specialize (Hinit x1 H1). destruct x1; simpl in Hinit; try tauto. subst a.
      destruct H2 as (x2 & -> & H2). destruct H2 as (x3 & H3 & H4).
      specialize (Hreg x3 H3). destruct x3; simpl in Hreg; try tauto.
      destruct H4 as (x4 & -> & H4). exact H4.
    - intros ->. specialize (Hinit oz Hoz). destruct oz; simpl in Hinit; try tauto. subst a.
      exists (Ok (scaled_rhs scale r)). split; [exact Hoz|]. exists (Ok ytemp). split; [reflexivity|].
      specialize (Hreg oy Hoy). destruct oy as [a| | |]; simpl in Hreg; try tauto.
      exists (Ok a). split; [exact Hoy|].
      exists (Throw " scalar_ilu0_apply: Invalid init type!"). split; reflexivity.
  Qed.

  Lemma level_ilu0_apply_spec levels scale r ytemp z nthr :
    levels_for n ldep levels -> levels_for n udep levels -> 1 <= nthr ->
    scale_ok scale (n * w) -> length r = n * w -> length ytemp = n * w -> length z = n * w ->
    nok (level_ilu0_apply w n lowC upC levels scale ytemp nthr r z)
        (fun out => exists ys xs, lower_solution (scaled_rhs scale r) ys /\ upper_solution ys xs /\
           out = (ys, scaled_sol scale xs)).
  Proof.
    intros Hlev1 Hlev2 Hn Hs Hr Hyt Hz. pose proof (scaled_rhs_length scale r _ Hs Hr) as Hsl.
    unfold level_ilu0_apply.
    eapply nok_bind; [apply init_z_spec; auto|]. intros z1 ->.
    eapply nok_bind with (P := fun y => lower_solution (scaled_rhs scale r) y).
    { destruct (lower_sweeps _ Hsl) as (ys & Hy & _ & Hrun).
      eapply nok_mono; [apply (level_fwd_spec w n (lowC (scaled_rhs scale r)) ldep); auto|].
      intros y [Hl He].
      pose proof (Hrun ytemp 1 1 Hyt ltac:(lia) ltac:(lia)) as H. rewrite concat_nowait in H by lia.
      cbn [replicate concat] in H. rewrite app_nil_r in H. rewrite He in H. injection H as ->. exact Hy. }
    intros ys Hy.
    eapply nok_bind with (P := fun x => upper_solution ys x).
    { destruct (upper_sweeps ys (proj1 Hy)) as (xs & Hx & _ & Hrun).
      eapply nok_mono; [apply (level_bwd_spec w n (upC ys) udep); auto|].
      { intros i Hi. apply Hup; [apply Hy|exact Hi]. }
      intros y [Hl He].
      pose proof (Hrun (scaled_rhs scale r) 1 1 Hsl ltac:(lia) ltac:(lia)) as H. rewrite concat_nowait in H by lia.
      cbn [replicate concat] in H. rewrite app_nil_r in H. rewrite He in H. injection H as ->. exact Hx. }
    intros xs Hx.
    eapply nok_bind; [apply final_scale_spec; [exact Hs|apply Hx]|].
    intros z4 ->. apply nok_ret. eauto.
  Qed.

  (** Asynchronous sweeps never move away from the exact solution. *)
  Lemma lower_stable rhs y nthr q :
    length rhs = n * w -> lower_solution rhs y -> (forall r, r ∈ concat q -> r < n) ->
    region_safe (T w (lowC rhs)) nthr q y /\ forall y', region (T w (lowC rhs)) nthr q y y' -> y' = y.
  Proof.
    intros Hr [Hl Hf] Hq. apply (region_stable w (lowC rhs) n ldep); auto.
  Qed.
  Lemma upper_stable y x nthr q :
    length y = n * w -> upper_solution y x -> (forall r, r ∈ concat q -> r < n) ->
    region_safe (T w (upC y)) nthr q x /\ forall x', region (T w (upC y)) nthr q x x' -> x' = x.
  Proof.
    intros Hr [Hl Hf] Hq. apply (region_stable w (upC y) n udep); auto.
  Qed.
End Skeleton.
