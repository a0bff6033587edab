(** * SgsFacts: facts about Gauss-Seidel and relaxation for any scalar operations *)
From Verif Require Import Base Alg SRMatrix Async AsyncTheory AsyncSystem AsyncSweeps Nd Kernels KernelFacts
  IluApply IluApplyFacts IluApplyMain TriSpec Sgs.

Definition offdep {A} (M : srmat A) (i c : nat) : Prop := lowdep M i c \/ updep M i c.

Section Kernel_ok.
  Context {F : Type} {O : SOps F}.
  Variables (so : storage) (bs : nat) (M : srmat F) (d : list F).
  Hypothesis (Hw : wf_pat M) (Hd : wf_diag M).
  Notation n := (nbrows M).
  Ltac rb i Hi := pose proof (row_bounds M Hw Hd i Hi).

  Lemma scalar_fgsC_ok r i :
    length (vals M) = nnz M -> length d = n -> length r = n * 1 -> i < n ->
    kernel_ok 1 (scalar_fgsC M d r) n (lowdep M) i.
  Proof.
    intros Hl Hdl Hz Hi. split; [exact Hi|]. rb i Hi. unfold scalar_fgsC.
    apply wp_bind, wp_plift, (ok_browptr M Hw); [lia|].
    apply wp_bind, wp_plift, (ok_diagind M Hd); [lia|].
    apply wp_bind, wp_plift, ok_get_lt; [lia|]. intros di _.
    apply wp_bind, wp_plift, ok_get_lt; [lia|]. intros rhs _.
    apply wp_bind. unfold scalar_fgs. apply wp_bind.
    eapply wp_post; [|intros x _; reflexivity].
    apply (wp_sdot (fun l => l < n * 1 /\ exists r', lowdep M i r' /\ own 1 r' l)); [lia|].
    intros j Hj. split; [lia|]. exists (col M j). split; [apply wf_bcolind; auto; lia|].
    split; [pose proof (wf_col M Hw j ltac:(lia)); lia|]. exists (col M j). split; [exists j; auto|].
    unfold own; lia.
  Qed.
  Lemma scalar_bgsC_ok y i :
    length (vals M) = nnz M -> length d = n -> length y = n * 1 -> i < n ->
    kernel_ok 1 (scalar_bgsC M d y) n (updep M) i.
  Proof.
    intros Hl Hdl Hz Hi. split; [exact Hi|]. rb i Hi. unfold scalar_bgsC.
    apply wp_bind, wp_plift, (ok_diagind M Hd); [lia|].
    apply wp_bind, wp_plift, (ok_browptr M Hw); [lia|].
    apply wp_bind, wp_plift, ok_get_lt; [lia|]. intros _ _.
    apply wp_bind, wp_plift, ok_get_lt; [lia|]. intros di _.
    apply wp_bind, wp_plift, ok_get_lt; [lia|]. intros rhs _.
    apply wp_bind. unfold scalar_bgs. apply wp_bind.
    eapply wp_post; [|intros x _; reflexivity].
    apply (wp_sdot (fun l => l < n * 1 /\ exists r', updep M i r' /\ own 1 r' l)); [lia|].
    intros j Hj. split; [lia|]. exists (col M j). split; [apply wf_bcolind; auto; lia|].
    split; [pose proof (wf_col M Hw j ltac:(lia)); lia|]. exists (col M j). split; [exists j; split; [lia|auto]|].
    unfold own; lia.
  Qed.
  Lemma scalar_relaxC_ok b i :
    length (vals M) = nnz M -> length d = n -> length b = n * 1 -> i < n ->
    kernel_ok 1 (scalar_relaxC M d b) n (offdep M) i.
  Proof.
    intros Hl Hdl Hz Hi. split; [exact Hi|]. rb i Hi. unfold scalar_relaxC.
    apply wp_bind, wp_plift, (ok_browptr M Hw); [lia|].
    apply wp_bind, wp_plift, (ok_diagind M Hd); [lia|].
    apply wp_bind, wp_plift, (ok_browptr M Hw); [lia|].
    apply wp_bind, wp_plift, ok_get_lt; [lia|]. intros di _.
    apply wp_bind, wp_plift, ok_get_lt; [lia|]. intros rhs _.
    apply wp_bind. unfold scalar_relax. apply wp_bind.
    eapply wp_post; [|intros x _; apply wp_bind; eapply wp_post; [|intros x' _; reflexivity]].
    - apply (wp_sdot (fun l => l < n * 1 /\ exists r', offdep M i r' /\ own 1 r' l)); [lia|].
      intros j Hj. split; [lia|]. exists (col M j). split; [apply wf_bcolind; auto; lia|].
      split; [pose proof (wf_col M Hw j ltac:(lia)); lia|]. exists (col M j). split; [left; exists j; auto|].
      unfold own; lia.
    - apply (wp_sdot (fun l => l < n * 1 /\ exists r', offdep M i r' /\ own 1 r' l)); [lia|].
      intros j Hj. split; [lia|]. exists (col M j). split; [apply wf_bcolind; auto; lia|].
      split; [pose proof (wf_col M Hw j ltac:(lia)); lia|]. exists (col M j). split; [right; exists j; split; [lia|auto]|].
      unfold own; lia.
  Qed.

  Lemma block_fgsC_ok r i :
    length (vals M) = nnz M * (bs * bs) -> length d = n * (bs * bs) -> length r = n * bs -> i < n ->
    kernel_ok bs (block_fgsC so bs M d r) n (lowdep M) i.
  Proof.
    intros Hl Hdl Hz Hi. split; [exact Hi|]. rb i Hi. unfold block_fgsC.
    apply wp_bind, wp_plift, (ok_browptr M Hw); [lia|].
    apply wp_bind, wp_plift, (ok_diagind M Hd); [lia|].
    apply wp_bind, wp_plift. eapply ok_mono; [apply ok_getseg; nia|]. intros rhs Hrhs.
    unfold block_fgs. apply wp_bind.
    eapply wp_post; [|intros x Hx; apply wp_plift, ok_bmatvec; [|apply vsub_length; [exact Hrhs|exact Hx]]].
    - apply (wp_bdot (fun l => l < n * bs /\ exists r', lowdep M i r' /\ own bs r' l)); [lia|apply bzero_length|].
      intros j Hj. split; [nia|]. exists (col M j). split; [apply wf_bcolind; auto; lia|].
      intros q Hq. pose proof (wf_col M Hw j ltac:(lia)).
      split; [nia|]. exists (col M j). split; [exists j; auto|]. unfold own; lia.
    - nia.
  Qed.
  Lemma block_bgsC_ok y i :
    length (vals M) = nnz M * (bs * bs) -> length d = n * (bs * bs) -> length y = n * bs -> i < n ->
    kernel_ok bs (block_bgsC so bs M d y) n (updep M) i.
  Proof.
    intros Hl Hdl Hz Hi. split; [exact Hi|]. rb i Hi. unfold block_bgsC.
    apply wp_bind, wp_plift, (ok_diagind M Hd); [lia|].
    apply wp_bind, wp_plift, (ok_browptr M Hw); [lia|].
    apply wp_bind, wp_plift. eapply ok_mono; [apply ok_getseg; nia|]. intros rhs Hrhs.
    unfold block_bgs. apply wp_bind.
    eapply wp_post; [|intros x Hx; apply wp_bind, wp_plift; eapply ok_mono; [apply ok_bmatvec; [|exact Hx]|
      intros t Ht; apply vsub_length; [exact Hrhs|exact Ht]]].
    - apply (wp_bdot (fun l => l < n * bs /\ exists r', updep M i r' /\ own bs r' l)); [lia|apply bzero_length|].
      intros j Hj. split; [nia|]. exists (col M j). split; [apply wf_bcolind; auto; lia|].
      intros q Hq. pose proof (wf_col M Hw j ltac:(lia)).
      split; [nia|]. exists (col M j). split; [exists j; split; [lia|auto]|]. unfold own; lia.
    - nia.
  Qed.
  Lemma block_relaxC_ok b i :
    length (vals M) = nnz M * (bs * bs) -> length d = n * (bs * bs) -> length b = n * bs -> i < n ->
    kernel_ok bs (block_relaxC so bs M d b) n (offdep M) i.
  Proof.
    intros Hl Hdl Hz Hi. split; [exact Hi|]. rb i Hi. unfold block_relaxC.
    apply wp_bind, wp_plift, (ok_browptr M Hw); [lia|].
    apply wp_bind, wp_plift, (ok_diagind M Hd); [lia|].
    apply wp_bind, wp_plift, (ok_browptr M Hw); [lia|].
    apply wp_bind, wp_plift. eapply ok_mono; [apply ok_getseg; nia|]. intros rhs Hrhs.
    unfold block_relax_kernel. apply wp_bind.
    eapply wp_post; [|intros x Hx; apply wp_bind; eapply wp_post; [|intros x' Hx'; apply wp_plift, ok_bmatvec;
      [|apply vsub_length; [exact Hrhs|exact Hx']]]].
    - apply (wp_bdot (fun l => l < n * bs /\ exists r', offdep M i r' /\ own bs r' l)); [lia|apply bzero_length|].
      intros j Hj. split; [nia|]. exists (col M j). split; [apply wf_bcolind; auto; lia|].
      intros q Hq. pose proof (wf_col M Hw j ltac:(lia)).
      split; [nia|]. exists (col M j). split; [left; exists j; auto|]. unfold own; lia.
    - apply (wp_bdot (fun l => l < n * bs /\ exists r', offdep M i r' /\ own bs r' l)); [lia|exact Hx|].
      intros j Hj. split; [nia|]. exists (col M j). split; [apply wf_bcolind; auto; lia|].
      intros q Hq. pose proof (wf_col M Hw j ltac:(lia)).
      split; [nia|]. exists (col M j). split; [right; exists j; split; [lia|auto]|]. unfold own; lia.
    - nia.
  Qed.
  Lemma offdep_pos i c : wf_sorted M -> i < n -> offdep M i c -> c <> i /\ pos M i c <> None.
  Proof.
    intros Hs Hi [H|H]; [apply lowdep_pos|apply updep_pos]; auto; split; auto.
  Qed.
End Kernel_ok.

(** ** Regions of safe kernels *)
Section Regions.
  Context {V : Type}.
  Variables (w : nat) (C : nat -> @P V (list V)) (N : nat) (dep : nat -> nat -> Prop).
  Notation T := (T w C).
  Lemma region_safe_any nthr q m : length m = N * w ->
    (forall r, r ∈ concat q -> kernel_ok w C N dep r) -> region_safe T nthr q m.
  Proof.
    intros Hm Hk.
    destruct (region_settles T m (fun _ => False) (fun _ => False) nthr q m) as [Hsafe _]; auto.
    - intros l [].
    - intros r0 H0. right. eapply wp_mono; [apply (avoids_T w C N dep (length m) (fun _ => False) r0); auto|..]; simpl; auto.
      intros l v [H _]. split; [exact H|]. intros [[]|[]].
  Qed.
  (** any region has an outcome; the sequential one is among them *)
  Lemma omp_region_seq_outcome ut nthr q m ms : 1 <= nthr ->
    exec_seq T (concat q) m = Ok ms -> omp_region ut T nthr q m (Ok ms).
  Proof.
    intros Hn He. unfold omp_region. destruct (ut && negb (nthr =? 1)).
    - left. exists ms. split; [apply sequential_is_a_schedule; auto|reflexivity].
    - unfold nlift. congruence.
  Qed.
  Lemma nok_omp_region ut nthr q m (Q : list V -> Prop) : 1 <= nthr -> length m = N * w ->
    (forall r, r ∈ concat q -> kernel_ok w C N dep r) ->
    (forall m', region T nthr q m m' -> Q m') ->
    (forall m', exec_seq T (concat q) m = Ok m' -> Q m') ->
    nok (omp_region ut T nthr q m) Q.
  Proof.
    intros Hn Hm Hk H1 H2. destruct (exec_seq_total w C N dep _ m Hk Hm) as (ms & He & Hms).
    unfold omp_region. destruct (ut && negb (nthr =? 1)).
    - apply nok_par_region; [exact Hn|eauto|apply region_safe_any; auto|auto].
    - apply nok_lift. rewrite He. simpl. auto.
  Qed.
  Lemma exec_seq_stable rs ms : length ms = N * w ->
    (forall r, r ∈ rs -> kernel_ok w C N dep r /\ fix_at w C ms r) -> exec_seq T rs ms = Ok ms.
  Proof.
    intros Hl H. destruct (region_stable w C N dep 1 [rs] ms Hl) as [_ Hr]; [simpl; rewrite app_nil_r; exact H|].
    destruct (exec_seq_total w C N dep rs ms) as (ms' & He & _); [intros r Hr'; apply H; auto|exact Hl|].
    rewrite He. f_equal. apply Hr. apply sequential_is_a_schedule; [lia|]. simpl. rewrite app_nil_r. exact He.
  Qed.
  Lemma nok_omp_region_stable ut nthr q ms : 1 <= nthr -> length ms = N * w ->
    (forall r, r ∈ concat q -> kernel_ok w C N dep r /\ fix_at w C ms r) ->
    nok (omp_region ut T nthr q ms) (fun m => m = ms).
  Proof.
    intros Hn Hl H. apply nok_omp_region; auto.
    - intros r Hr. apply H; auto.
    - apply (region_stable w C N dep nthr q ms Hl H).
    - intros m' He. rewrite (exec_seq_stable _ _ Hl H) in He. congruence.
  Qed.

  (** ** Unchanged vectors are consistent *)
  Hypothesis Hself : forall r, r < N -> ~ dep r r.
  Lemma own_unique r r' l : own w r l -> own w r' l -> r = r'.
  Proof. unfold own. intros H1 H2. destruct (decide (r < r')); [nia|]. destruct (decide (r' < r)); [nia|]. lia. Qed.
  Lemma exec_seq_keeps rs : forall m m' l,
    (forall r, r ∈ rs -> kernel_ok w C N dep r) -> length m = N * w ->
    exec_seq T rs m = Ok m' -> (forall r, r ∈ rs -> ~ own w r l) -> m' !! l = m !! l.
  Proof.
    induction rs as [|r rs IH]; intros m m' l Hk Hm He Ho; simpl in He; [congruence|].
    destruct (exec_T w C N dep m r) as (m1 & E1 & Hl1 & _ & Hk1); [apply Hk; left|exact Hm|apply Hself, Hk; left|].
    rewrite E1 in He. simpl in He. rewrite (IH m1 m' l); auto.
    - apply Hk1, Ho. left.
    - intros r' Hr'. apply Hk. right; auto.
    - intros r' Hr'. apply Ho. right; auto.
  Qed.
  Lemma seq_fixed rs : forall m m',
    NoDup rs -> (forall r, r ∈ rs -> kernel_ok w C N dep r) -> length m = N * w ->
    exec_seq T rs m = Ok m' -> (forall r l, r ∈ rs -> own w r l -> m' !! l = m !! l) ->
    m' = m /\ forall r, r ∈ rs -> fix_at w C m r.
  Proof.
    induction rs as [|r rs IH]; intros m m' Hnd Hk Hm He Hs.
    - simpl in He. injection He as ->. split; [reflexivity|]. intros r Hr. apply elem_of_nil in Hr as [].
    - apply NoDup_cons in Hnd as [Hnr Hnd]. simpl in He.
      destruct (exec_T w C N dep m r) as (m1 & E1 & Hl1 & Hf1 & Hk1); [apply Hk; left|exact Hm|apply Hself, Hk; left|].
      rewrite E1 in He. simpl in He.
      assert (m1 = m) as ->.
      { apply list_eq_lt; [lia|]. intros l Hl. destruct (decide (r * w <= l < r * w + w)) as [Ho|Ho]; [|apply Hk1, Ho].
        rewrite <- (Hs r l); [|left|exact Ho]. symmetry. apply (exec_seq_keeps rs m1 m'); auto.
        - intros r' Hr'. apply Hk. right; auto.
        - intros r' Hr' Ho'. apply Hnr. rewrite (own_unique r r' l Ho Ho'). exact Hr'. }
      destruct (IH m m') as [Hm' Hf]; auto.
      + intros r' Hr'. apply Hk. right; auto.
      + intros r' l Hr'. apply Hs. right; auto.
      + split; [exact Hm'|]. intros r' Hr'. apply elem_of_cons in Hr' as [->|Hr']; auto.
  Qed.
  (** the same for a sweep forward and back *)
  Lemma palindrome_fixed rs : forall m,
    NoDup rs -> (forall r, r ∈ rs -> kernel_ok w C N dep r) -> length m = N * w ->
    exec_seq T (rs ++ rev rs) m = Ok m -> forall r, r ∈ rs -> fix_at w C m r.
  Proof.
    induction rs as [|r rs IH]; intros m Hnd Hk Hm He; [intros r Hr; apply elem_of_nil in Hr as []|].
    apply NoDup_cons in Hnd as [Hnr Hnd]. simpl in He.
    assert (forall r', r' ∈ rs -> kernel_ok w C N dep r') as Hk' by (intros r' Hr'; apply Hk; right; auto).
    assert (kernel_ok w C N dep r) as Hkr by (apply Hk; left).
    destruct (exec_T w C N dep m r) as (m1 & E1 & Hl1 & Hf1 & Hk1); [exact Hkr|exact Hm|apply Hself, Hkr|].
    rewrite E1 in He. simpl in He. rewrite app_assoc, exec_seq_app in He.
    assert (forall r', r' ∈ rs ++ rev rs -> r' ∈ rs) as Hin.
    { intros r' Hr'. apply elem_of_app in Hr' as [Hr'|Hr']; [auto|].
      rewrite <- reverse_rev, elem_of_reverse in Hr'. exact Hr'. }
    destruct (exec_seq_total w C N dep (rs ++ rev rs) m1) as (m2 & E2 & Hl2); [intros r' Hr'; auto|auto|].
    rewrite E2 in He. simpl in He.
    destruct (exec_T w C N dep m2 r) as (m3 & E3 & Hl3 & Hf3 & Hk3); [exact Hkr|exact Hl2|apply Hself, Hkr|].
    rewrite E3 in He. simpl in He. injection He as ->.
    assert (m2 = m1) as ->.
    { apply list_eq_lt; [lia|]. intros l Hl. destruct (decide (r * w <= l < r * w + w)) as [Ho|Ho].
      - apply (exec_seq_keeps (rs ++ rev rs) m1 m2); auto.
        intros r' Hr' Ho'. apply Hnr. rewrite (own_unique r r' l Ho Ho'). auto.
      - rewrite <- (Hk3 l Ho). symmetry. apply Hk1, Ho. }
    pose proof (IH m1 Hnd Hk' Hl1 E2) as Hfs.
    assert (m = m1) as ->.
    { pose proof (exec_seq_stable [r] m1 Hl1) as E. simpl in E. rewrite E3 in E. simpl in E.
      specialize (E ltac:(intros r' Hr'; apply elem_of_list_singleton in Hr' as ->; auto)). congruence. }
    intros r' Hr'. apply elem_of_cons in Hr' as [->|Hr']; auto.
  Qed.
End Regions.

(** ** Drivers *)
Section Drivers.
  Context {F : Type} {O : SOps F}.
  Variables (w n : nat) (fgsC bgsC : list F -> nat -> @P F (list F)).
  Variables (ldep udep : nat -> nat -> Prop).
  Hypothesis Hlow : forall z i, length z = n * w -> i < n -> kernel_ok w (fgsC z) n ldep i.
  Hypothesis Hup : forall y i, length y = n * w -> i < n -> kernel_ok w (bgsC y) n udep i.
  Hypothesis Hlt : forall i c, i < n -> ldep i c -> c < i.
  Hypothesis Hut : forall i c, i < n -> udep i c -> i < c.

  Lemma sgs_apply_spec r : length r = n * w ->
    exists ys zs, lower_solution w n fgsC r ys /\ (forall y, lower_solution w n fgsC r y -> y = ys) /\
      upper_solution w n bgsC ys zs /\ (forall z, upper_solution w n bgsC ys z -> z = zs) /\
      forall ytemp z nsweeps chunk nthr init,
        length ytemp = n * w -> length z = n * w -> 1 <= nsweeps -> 1 <= chunk -> 1 <= nthr ->
        nok (sgs_apply w n fgsC bgsC ytemp nsweeps chunk nthr init r z)
            (fun out => fst out = ys /\ (nthr = 1 -> snd out = zs)).
  Proof.
    intros Hr.
    destruct (lower_sweeps w n fgsC ldep Hlow Hlt r Hr) as (ys & Hy & Huy & Hyrun).
    destruct (upper_sweeps w n bgsC udep Hup Hut ys (proj1 Hy)) as (zs & Hz & Huz & Hzrun).
    exists ys, zs. do 4 (split; [assumption|]).
    intros ytemp z k c nthr init Hyt Hzl Hk Hc Hn. unfold sgs_apply.
    eapply nok_bind with (P := fun y => length y = n * w).
    { destruct init; [| |apply nok_ret; exact Hyt];
        (eapply nok_mono; [apply fill_spec; exact Hyt|]; intros a ->; apply replicate_length). }
    intros y1 Hy1.
    eapply nok_bind with (P := fun y => y = ys).
    { apply nok_lift. rewrite Hyrun by auto. reflexivity. }
    intros y ->.
    eapply nok_bind with (P := fun z => length z = n * w).
    { destruct init; [| |apply nok_ret; exact Hzl].
      - eapply nok_mono; [apply fill_spec; auto|]. intros a ->. apply replicate_length.
      - eapply nok_mono; [apply vcopy_spec; [auto|apply Hy]|]. intros a ->. apply Hy. }
    intros z2 Hz2.
    eapply nok_bind with (P := fun z => nthr = 1 -> z = zs).
    { destruct (decide (nthr = 1)) as [->|Hne].
      - rewrite omp_region_seq by auto. apply nok_lift. rewrite Hzrun by auto. simpl. auto.
      - apply (nok_omp_region w (bgsC ys) n udep); auto; [|intros; lia..].
        intros r0 H0. rewrite concat_nowait in H0 by done. apply elem_of_concat_replicate in H0.
        rewrite <- reverse_rev, elem_of_reverse in H0. apply elem_of_seq in H0. apply Hup; [apply Hy|lia]. }
    intros z3 Hz3. apply nok_ret. simpl. auto.
  Qed.

  (** outcomes do not depend on what the work and output vectors held *)
  Lemma fill_det len (a : F) (v v' : list F) : length v = len -> length v' = len ->
    forall o, fill len a v o <-> fill len a v' o.
  Proof.
    intros H1 H2 o. split; intros H.
    - destruct (fill_spec len a v H1) as [_ Hf]. specialize (Hf o H). destruct (fill_spec len a v' H2) as [(o' & Ho') Hf'].
      specialize (Hf' o' Ho'). destruct o, o'; simpl in *; try tauto. subst. exact Ho'.
    - destruct (fill_spec len a v' H2) as [_ Hf]. specialize (Hf o H). destruct (fill_spec len a v H1) as [(o' & Ho') Hf'].
      specialize (Hf' o' Ho'). destruct o, o'; simpl in *; try tauto. subst. exact Ho'.
  Qed.
  Lemma vcopy_det len (src v v' : list F) : length src = len -> length v = len -> length v' = len ->
    forall o, vcopy len src v o <-> vcopy len src v' o.
  Proof.
    intros H0 H1 H2 o. split; intros H.
    - destruct (vcopy_spec len src v H1 H0) as [_ Hf]. specialize (Hf o H). destruct (vcopy_spec len src v' H2 H0) as [(o' & Ho') Hf'].
      specialize (Hf' o' Ho'). destruct o, o'; simpl in *; try tauto. subst. exact Ho'.
    - destruct (vcopy_spec len src v' H2 H0) as [_ Hf]. specialize (Hf o H). destruct (vcopy_spec len src v H1 H0) as [(o' & Ho') Hf'].
      specialize (Hf' o' Ho'). destruct o, o'; simpl in *; try tauto. subst. exact Ho'.
  Qed.
  Lemma nbind_ext {A B} (m m' : nd A) (k k' : A -> nd B) (Q : A -> Prop) :
    (forall o, m o <-> m' o) -> (forall a, m (Ok a) -> Q a) -> (forall a, Q a -> forall o, k a o <-> k' a o) ->
    forall o, nbind m k o <-> nbind m' k' o.
  Proof.
    intros H1 HQ H2 o. unfold nbind. split; intros (x & Hx & H); exists x; (split; [apply H1; exact Hx|]);
      destruct x; auto; apply (H2 a); auto. apply HQ, H1, Hx.
  Qed.

  Lemma level_sgs_spec levels r : length r = n * w -> levels_for n ldep levels -> levels_for n udep levels ->
    exists ys zs, lower_solution w n fgsC r ys /\ upper_solution w n bgsC ys zs /\
      forall ytemp z nthr, length ytemp = n * w -> length z = n * w -> 1 <= nthr ->
        nok (level_sgs_apply w fgsC bgsC levels ytemp nthr r z) (fun out => out = (ys, zs)).
  Proof.
    intros Hr H1 H2.
    destruct (lower_sweeps w n fgsC ldep Hlow Hlt r Hr) as (ys & Hy & Huy & Hyrun).
    destruct (upper_sweeps w n bgsC udep Hup Hut ys (proj1 Hy)) as (zs & Hz & Huz & Hzrun).
    exists ys, zs. split; [exact Hy|]. split; [exact Hz|]. intros ytemp z nthr Hyt Hzl Hn. unfold level_sgs_apply.
    eapply nok_bind; [apply (level_fwd_spec w n (fgsC r) ldep); auto|].
    intros y [Hl He]. specialize (Hyrun ytemp 1 1 Hyt ltac:(lia) ltac:(lia)).
    rewrite concat_nowait in Hyrun by lia. cbn [replicate concat] in Hyrun. rewrite app_nil_r, He in Hyrun.
    injection Hyrun as ->.
    eapply nok_bind; [apply (level_bwd_spec w n (bgsC ys) udep); auto|].
    intros z' [Hl' He']. specialize (Hzrun z 1 1 Hzl ltac:(lia) ltac:(lia)).
    rewrite concat_nowait in Hzrun by lia. cbn [replicate concat] in Hzrun. rewrite app_nil_r, He' in Hzrun.
    injection Hzrun as ->. apply nok_ret. reflexivity.
  Qed.
End Drivers.

Section RelaxDrivers.
  Context {F : Type} {O : SOps F}.
  Variables (w n : nat) (relaxC : list F -> nat -> @P F (list F)) (dep : nat -> nat -> Prop).
  Hypothesis Hk : forall b i, length b = n * w -> i < n -> kernel_ok w (relaxC b) n dep i.
  Hypothesis Hself : forall r, r < n -> ~ dep r r.
  Implicit Types b x : list F.

  Definition steady b x : Prop := forall i, i < n -> fix_at w (relaxC b) x i.

  Lemma sgs_queue k c : 1 <= c ->
    concat (concat (replicate k (chunks c (seq 0 n) ++ chunks c (rev (seq 0 n))))) =
    concat (replicate k (seq 0 n ++ rev (seq 0 n))).
  Proof.
    intros Hc. induction k as [|k IH]; [reflexivity|]. cbn [replicate concat]. rewrite !concat_app, IH, !concat_chunks by done.
    reflexivity.
  Qed.
  Lemma elem_seq_rev r : r ∈ seq 0 n ++ rev (seq 0 n) -> r < n.
  Proof.
    intros H. apply elem_of_app in H as [H|H]; [|rewrite <- reverse_rev, elem_of_reverse in H]; apply elem_of_seq in H; lia.
  Qed.
  Lemma sgs_relax_steady b x its chunk nthr : length b = n * w -> length x = n * w -> 1 <= chunk -> 1 <= nthr ->
    steady b x -> nok (sgs_relax w n relaxC its chunk nthr b x) (fun x' => x' = x).
  Proof.
    intros Hb Hx Hc Hn Hs. unfold sgs_relax. apply (nok_omp_region_stable w (relaxC b) n dep); auto.
    intros r Hr. rewrite sgs_queue in Hr by done. apply elem_of_concat_replicate, elem_seq_rev in Hr. split; auto.
  Qed.
  Lemma chaotic_relax_steady b x its chunk nthr : length b = n * w -> length x = n * w -> 1 <= chunk -> 1 <= nthr ->
    steady b x -> nok (chaotic_relax w n relaxC its chunk nthr b x) (fun x' => x' = x).
  Proof.
    intros Hb Hx Hc Hn Hs. unfold chaotic_relax. apply (nok_omp_region_stable w (relaxC b) n dep); auto.
    intros r Hr. rewrite concat_nowait in Hr by done. apply elem_of_concat_replicate, elem_of_seq in Hr. split; [apply Hk|apply Hs]; auto; lia.
  Qed.
  Lemma exec_seq_step b x : length b = n * w -> length x = n * w ->
    exists x', exec_seq (T w (relaxC b)) (seq 0 n) x = Ok x' /\ length x' = n * w.
  Proof.
    intros Hb Hx. apply (exec_seq_total w (relaxC b) n dep); [|auto].
    intros r Hr. apply elem_of_seq in Hr. apply Hk; [auto|lia].
  Qed.
  Lemma sgs_relax_unchanged b x chunk nthr : length b = n * w -> length x = n * w -> 1 <= chunk -> 1 <= nthr ->
    nok (sgs_relax w n relaxC 1 chunk nthr b x) (fun x' => x' = x) -> steady b x.
  Proof.
    intros Hb Hx Hc Hn [_ H].
    assert (forall r, r ∈ seq 0 n ++ rev (seq 0 n) -> kernel_ok w (relaxC b) n dep r) as Hk'.
    { intros r Hr. apply Hk; [auto|apply elem_seq_rev, Hr]. }
    destruct (exec_seq_total w (relaxC b) n dep (seq 0 n ++ rev (seq 0 n)) x) as (x' & He & _); auto.
    assert (x' = x) as ->.
    { apply (H (Ok x')). apply omp_region_seq_outcome; [auto|]. rewrite sgs_queue by done. simpl. rewrite app_nil_r. exact He. }
    intros i Hi. apply (palindrome_fixed w (relaxC b) n dep Hself (seq 0 n)); auto.
    - apply NoDup_seq.
    - intros r Hr. apply Hk; [auto|]. apply elem_of_seq in Hr. lia.
    - apply elem_of_seq. lia.
  Qed.
  Lemma seq_unchanged b x : length b = n * w -> length x = n * w ->
    exec_seq (T w (relaxC b)) (seq 0 n) x = Ok x -> steady b x.
  Proof.
    intros Hb Hx He. destruct (seq_fixed w (relaxC b) n dep Hself (seq 0 n) x x) as [_ Hf]; auto.
    - apply NoDup_seq.
    - intros r Hr. apply elem_of_seq in Hr. apply Hk; [auto|lia].
    - intros i Hi. apply Hf, elem_of_seq. lia.
  Qed.
  Lemma chaotic_relax_unchanged b x chunk nthr : length b = n * w -> length x = n * w -> 1 <= chunk -> 1 <= nthr ->
    nok (chaotic_relax w n relaxC 1 chunk nthr b x) (fun x' => x' = x) -> steady b x.
  Proof.
    intros Hb Hx Hc Hn [_ H]. destruct (exec_seq_step b x Hb Hx) as (x' & He & _).
    assert (x' = x) as ->; [|apply seq_unchanged; auto].
    apply (H (Ok x')). apply omp_region_seq_outcome; [auto|]. rewrite concat_nowait by done. simpl. rewrite app_nil_r. exact He.
  Qed.

  (** level-scheduled relaxation does what the sequential one does *)
  Lemma level_relax_spec b levels its nthr x : length b = n * w -> length x = n * w -> 1 <= nthr ->
    levels_for n dep levels ->
    nok (level_relax w relaxC levels its nthr b x)
        (fun x' => length x' = n * w /\
           exec_seq (T w (relaxC b)) (concat (replicate its (seq 0 n ++ rev (seq 0 n)))) x = Ok x').
  Proof.
    intros Hb Hx Hn Hlev. unfold level_relax.
    apply (nok_nfor 0 its _ x (fun k y => length y = n * w /\
      exec_seq (T w (relaxC b)) (concat (replicate k (seq 0 n ++ rev (seq 0 n)))) x = Ok y)); [lia|auto| |auto].
    intros k y Hk' [Hy He].
    eapply nok_bind; [apply (level_fwd_spec w n (relaxC b) dep); auto|]. intros y1 [Hy1 He1].
    eapply nok_mono; [apply (level_bwd_spec w n (relaxC b) dep); auto|]. intros y2 [Hy2 He2].
    split; [exact Hy2|]. replace (k + 1) with (k + 1)%nat by lia. rewrite replicate_add, concat_app, exec_seq_app, He. simpl.
    rewrite app_nil_r, exec_seq_app, He1. simpl. exact He2.
  Qed.
  Lemma level_relax_steady b levels its nthr x : length b = n * w -> length x = n * w -> 1 <= nthr ->
    levels_for n dep levels -> steady b x -> nok (level_relax w relaxC levels its nthr b x) (fun x' => x' = x).
  Proof.
    intros Hb Hx Hn Hlev Hs. eapply nok_mono; [apply level_relax_spec; auto|].
    intros x' [_ He]. rewrite (exec_seq_stable w (relaxC b) n dep) in He; [congruence|auto|].
    intros r Hr. apply elem_of_concat_replicate, elem_seq_rev in Hr. split; auto.
  Qed.
  Lemma level_relax_unchanged b levels nthr x : length b = n * w -> length x = n * w -> 1 <= nthr ->
    levels_for n dep levels -> nok (level_relax w relaxC levels 1 nthr b x) (fun x' => x' = x) -> steady b x.
  Proof.
    intros Hb Hx Hn Hlev [[o Ho] H]. pose proof (H o Ho) as Ho'.
    destruct (level_relax_spec b levels 1 nthr x Hb Hx Hn Hlev) as [_ H2]. specialize (H2 o Ho).
    destruct o as [x'| | |]; simpl in Ho', H2; try tauto. subst x'. destruct H2 as [_ He]. rewrite app_nil_r in He.
    intros i Hi. apply (palindrome_fixed w (relaxC b) n dep Hself (seq 0 n)); auto.
    - apply NoDup_seq.
    - intros r Hr. apply Hk; [auto|]. apply elem_of_seq in Hr. lia.
    - apply elem_of_seq. lia.
  Qed.
End RelaxDrivers.
