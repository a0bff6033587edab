(** * IluApplyMain: proofs of the properties of ILU application *)
From Verif Require Import Base Alg SRMatrix Async AsyncTheory AsyncSystem AsyncSweeps Nd Kernels KernelFacts
  IluApply IluApplyFacts TriSpec TriFacts IluApplyProofs Chains.

(** sorted rows with a diagonal entry each: what every preconditioner expects *)
Definition wf_mat {A} (M : srmat A) : Prop := wf_pat M /\ wf_diag M /\ wf_sorted M.

Global Instance lowdep_dec {A} (M : srmat A) i c : Decision (lowdep M i c).
Proof.
  destruct (decide (Exists (fun j => col M j = c) (range (rp M i) (dg M i)))) as [H|H].
  - left. apply Exists_exists in H as (j & Hj & E). apply elem_of_range in Hj. exists j. auto.
  - right. intros (j & Hj & E). apply H, Exists_exists. exists j. split; [apply elem_of_range; auto|auto].
Defined.
Global Instance updep_dec {A} (M : srmat A) i c : Decision (updep M i c).
Proof.
  destruct (decide (Exists (fun j => col M j = c) (range (dg M i + 1) (rp M (i + 1))))) as [H|H].
  - left. apply Exists_exists in H as (j & Hj & E). apply elem_of_range in Hj. exists j. split; [lia|auto].
  - right. intros (j & Hj & E). apply H, Exists_exists. exists j. split; [apply elem_of_range; lia|auto].
Defined.

(** ** Sequential application *)
Section Seq.
  Context {F : Type} {O : SOps F} {R : Field F}.
  Open Scope s_scope.
  Variables (M : srmat F) (ilu : list F).
  Hypothesis HM : wf_mat M.
  Notation n := (nbrows M).

  Lemma scalar_apply_sequential scale r :
    length ilu = nnz M -> (forall i, (i < n)%nat -> vat ilu (dg M i) <> s0) ->
    scale_ok scale n -> length r = n ->
    exists x, length x = n /\
      is_prod n (mprod n (unitlower (entry M ilu)) (upper (entry M ilu))) x (scaled_rhs scale r) /\
      (forall x', length x' = n ->
         is_prod n (mprod n (unitlower (entry M ilu)) (upper (entry M ilu))) x' (scaled_rhs scale r) -> x' = x) /\
      exists y, is_prod n (unitlower (entry M ilu)) y (scaled_rhs scale r) /\
      forall ytemp z nsweeps chunk usethreads nthr init,
        length ytemp = n -> length z = n -> (1 <= nsweeps)%nat -> (1 <= chunk)%nat -> init <> INIT_A_NONE ->
        usethreads = false \/ nthr = 1%nat ->
        nok (scalar_ilu0_apply M ilu scale ytemp nsweeps chunk usethreads nthr init r z)
            (fun out => out = (y, scaled_sol scale x)).
  Proof.
    destruct HM as (Hw & Hd & Hs). intros Hl Hp Hsc Hr.
    assert (length (scaled_rhs scale r) = n) as Hsl by (apply scaled_rhs_length; auto).
    destruct (ilu0_apply_sequential 1 n (scalar_lowC M ilu) (scalar_upC M ilu) (lowdep M) (updep M)) with (scale := scale) (r := r)
      as (ys & xs & Hy & Hx & Hrun).
    - intros z i Hz Hi. apply scalar_lowC_ok; auto.
    - intros z i Hz Hi. apply scalar_upC_ok; auto.
    - intros i c. apply lowdep_lt; auto.
    - intros i c Hi H. apply (updep_lt M i c Hw Hd Hs Hi H).
    - rewrite Nat.mul_1_r. exact Hsc.
    - rewrite Nat.mul_1_r. exact Hr.
    - destruct (lower_sweeps 1 n (scalar_lowC M ilu) (lowdep M)) with (rhs := scaled_rhs scale r) as (ys' & Hy' & Huy & _).
      { intros z i Hz Hi. apply scalar_lowC_ok; auto. }
      { intros i c. apply lowdep_lt; auto. }
      { lia. }
      assert (ys' = ys) as -> by (symmetry; auto).
      destruct (upper_sweeps 1 n (scalar_upC M ilu) (updep M)) with (y := ys) as (xs' & Hx' & Hux & _).
      { intros z i Hz Hi. apply scalar_upC_ok; auto. }
      { intros i c Hi H. apply (updep_lt M i c Hw Hd Hs Hi H). }
      { apply Hy. }
      assert (xs' = xs) as -> by (symmetry; auto).
      pose proof (proj1 (scalar_lower_solution M ilu Hw Hd Hs (scaled_rhs scale r) ys Hl Hsl) Hy) as [Hyl Hyp].
      pose proof (proj1 (scalar_upper_solution M ilu Hw Hd Hs ys xs Hl Hyl Hp) Hx) as [Hxl Hxp].
      exists xs. split; [exact Hxl|]. split; [eapply is_prod_mprod; eauto|]. split.
      + intros x' Hx'l Hx'p. apply is_prod_mprod_inv in Hx'p.
        assert (mvec n (upper (entry M ilu)) x' = ys) as E.
        { apply Huy. apply scalar_lower_solution; auto. split; [apply mvec_length|auto]. }
        apply Hux. apply scalar_upper_solution; auto. split; [auto|]. rewrite <- E. apply mvec_prod.
      + exists ys. split; [exact Hyp|]. intros. apply Hrun; try lia; auto.
  Qed.
End Seq.
Section SeqB.
  Context {F : Type} {O : SOps F} {R : CRing F}.
  Open Scope s_scope.
  Variables (so : storage) (bs : nat) (M : srmat F) (ilu : list F).
  Hypothesis HM : wf_mat M.
  Notation n := (nbrows M).
  Lemma block_apply_sequential D scale r :
    (1 <= bs)%nat -> length ilu = (nnz M * (bs * bs))%nat ->
    (forall i, (i < n)%nat -> is_inverse bs (bent so bs ilu (dg M i)) (dblock bs D i)) ->
    scale_ok scale (n * bs) -> length r = (n * bs)%nat ->
    let L := bunitlower bs (bentry so bs M ilu) in
    let U := bupper bs (bentry so bs M ilu) D in
    exists x, length x = (n * bs)%nat /\
      is_prod (n * bs) (mprod (n * bs) L U) x (scaled_rhs scale r) /\
      (forall x', length x' = (n * bs)%nat -> is_prod (n * bs) (mprod (n * bs) L U) x' (scaled_rhs scale r) -> x' = x) /\
      exists y, is_prod (n * bs) L y (scaled_rhs scale r) /\
      forall ytemp z nsweeps chunk usethreads nthr init,
        length ytemp = (n * bs)%nat -> length z = (n * bs)%nat ->
        (1 <= nsweeps)%nat -> (1 <= chunk)%nat -> init <> INIT_A_NONE ->
        usethreads = false \/ nthr = 1%nat ->
        nok (block_ilu0_apply so bs M ilu scale ytemp nsweeps chunk usethreads nthr init r z)
            (fun out => out = (y, scaled_sol scale x)).
  Proof.
    destruct HM as (Hw & Hd & Hs). intros Hb Hl Hp Hsc Hr L U.
    assert (length (scaled_rhs scale r) = n * bs)%nat as Hsl by (apply scaled_rhs_length; auto).
    destruct (ilu0_apply_sequential bs n (block_lowC so bs M ilu) (block_upC so bs M ilu) (lowdep M) (updep M)) with (scale := scale) (r := r)
      as (ys & xs & Hy & Hx & Hrun); auto.
    - intros z i Hz Hi. apply block_lowC_ok; auto.
    - intros z i Hz Hi. apply block_upC_ok; auto.
    - intros i c. apply lowdep_lt; auto.
    - intros i c Hi H. apply (updep_lt M i c Hw Hd Hs Hi H).
    - destruct (lower_sweeps bs n (block_lowC so bs M ilu) (lowdep M)) with (rhs := scaled_rhs scale r) as (ys' & Hy' & Huy & _).
      { intros z i Hz Hi. apply block_lowC_ok; auto. }
      { intros i c. apply lowdep_lt; auto. }
      { lia. }
      assert (ys' = ys) as -> by (symmetry; auto).
      destruct (upper_sweeps bs n (block_upC so bs M ilu) (updep M)) with (y := ys) as (xs' & Hx' & Hux & _).
      { intros z i Hz Hi. apply block_upC_ok; auto. }
      { intros i c Hi H. apply (updep_lt M i c Hw Hd Hs Hi H). }
      { apply Hy. }
      assert (xs' = xs) as -> by (symmetry; auto).
      pose proof (proj1 (block_lower_solution so bs M ilu Hw Hd Hs Hb (scaled_rhs scale r) ys Hl Hsl) Hy) as [Hyl Hyp].
      pose proof (proj1 (block_upper_solution so bs M ilu Hw Hd Hs Hb D ys xs Hl Hyl Hp) Hx) as [Hxl Hxp].
      exists xs. split; [exact Hxl|]. split; [eapply is_prod_mprod; eauto|]. split.
      + intros x' Hx'l Hx'p. apply is_prod_mprod_inv in Hx'p.
        assert (mvec (n * bs) U x' = ys) as E.
        { apply Huy. apply block_lower_solution; auto. split; [apply mvec_length|auto]. }
        apply Hux. apply (block_upper_solution so bs M ilu Hw Hd Hs Hb D); auto. split; [auto|]. rewrite <- E. apply mvec_prod.
      + exists ys. split; [exact Hyp|]. intros. apply Hrun; auto.
  Qed.
End SeqB.

(** ** Asynchronous sweeps *)
Section Separated.
  Context {F : Type}.
  Variables (w n : nat) (C : nat -> @P F (list F)) (dep : nat -> nat -> Prop) (rank : nat -> nat).
  Context `{forall i c, Decision (dep i c)}.
  Hypothesis Hk : forall i, i < n -> kernel_ok w C n dep i.
  Hypothesis Hrank : forall i c, i < n -> c < n -> dep i c -> rank c < rank i.
  Hypothesis Hrn : forall i, i < n -> rank i < n.
  (** [K] separated sweeps, [K] the length of the longest dependency chain *)
  Lemma separated_exact nthr ms qs m :
    length ms = n * w -> length m = n * w -> (forall i, i < n -> fix_at w C ms i) ->
    chains_at_most dep n (length qs) ->
    (forall q, q ∈ qs -> forall r, r ∈ concat q <-> r < n) ->
    regions_safe (T w C) nthr qs m /\ forall m', regions (T w C) nthr qs m m' -> m' = ms.
  Proof.
    intros Hms Hm Hf HK Hq. destruct (depth_exists dep n rank Hrank _ HK Hrn) as (d & Hd1 & Hd2).
    destruct (sweeps_converge w C n dep nthr d ms qs m) as [Hsafe Hreg]; auto.
    split; [exact Hsafe|]. intros m' Hm'. destruct (Hreg m' Hm') as [Hl He].
    apply list_eq_lt; [lia|]. intros l Hlt.
    destruct (own_ex w n l ltac:(lia)) as (r & Hr & Ho). apply (He r l); auto.
  Qed.
End Separated.

(** ** Level scheduling *)
Section Levels.
  Context {A : Type}.
  Implicit Type M : srmat A.
  (** a partition of the rows into consecutive ranges in which no two different
      rows are coupled by an entry of the matrix *)
  Definition valid_levels M (levels : list nat) : Prop :=
    levels !! 0 = Some 0 /\ last levels = Some (nbrows M) /\
    (forall l a b, levels !! l = Some a -> levels !! (l + 1) = Some b -> a <= b) /\
    (forall l a b i c, levels !! l = Some a -> levels !! (l + 1) = Some b ->
       a <= i < b -> a <= c < b -> i <> c -> pos M i c = None).
  Lemma valid_levels_for M (dep : nat -> nat -> Prop) levels : valid_levels M levels ->
    (forall i c, i < nbrows M -> dep i c -> c <> i /\ pos M i c <> None) ->
    levels_for (nbrows M) dep levels.
  Proof.
    intros (H0 & Hl & Hm & Hi) Hdep. split; [auto|]. split; [auto|]. split; [auto|].
    intros l a b i c Ha Hb Hia Hca Hd.
    assert (i < nbrows M) as Hin.
    { destruct (decide (i < nbrows M)); [auto|exfalso].
      assert (b <= nbrows M); [|lia].
      apply (levels_le (nbrows M) (fun _ _ => False) levels) with (l := l + 1); [|exact Hb].
      split; [auto|]. split; [auto|]. split; [auto|]. intros; tauto. }
    destruct (Hdep i c Hin Hd) as [Hne Hp]. apply Hp. apply (Hi l a b i c); auto.
  Qed.
  Lemma lowdep_pos M i c : wf_mat M -> i < nbrows M -> lowdep M i c -> c <> i /\ pos M i c <> None.
  Proof.
    intros (Hw & Hd & Hs) Hi H. pose proof (row_bounds M Hw Hd i Hi) as Hb.
    pose proof (lowdep_lt M i c Hw Hd Hs Hi H). split; [lia|]. destruct H as (j & Hj & E). intros Hp.
    rewrite pos_None in Hp by done. apply (Hp j); [split; [auto|lia]|auto].
  Qed.
  Lemma updep_pos M i c : wf_mat M -> i < nbrows M -> updep M i c -> c <> i /\ pos M i c <> None.
  Proof.
    intros (Hw & Hd & Hs) Hi H. pose proof (row_bounds M Hw Hd i Hi) as Hb.
    pose proof (updep_lt M i c Hw Hd Hs Hi H). split; [lia|]. destruct H as (j & Hj & E). intros Hp.
    rewrite pos_None in Hp by done. apply (Hp j); [split; [auto|lia]|auto].
  Qed.
End Levels.
Section LevelApply.
  Context {F : Type} {O : SOps F}.
  Variables (so : storage) (bs : nat) (M : srmat F) (ilu : list F).
  Hypothesis HM : wf_mat M.
  Notation n := (nbrows M).

  Lemma level_apply_gen w lowC upC (levels : list nat) scale r :
    (forall z i, length z = n * w -> i < n -> kernel_ok w (lowC z) n (lowdep M) i) ->
    (forall y i, length y = n * w -> i < n -> kernel_ok w (upC y) n (updep M) i) ->
    valid_levels M levels -> scale_ok scale (n * w) -> length r = n * w ->
    exists out, (forall ytemp z nthr, 1 <= nthr -> length ytemp = n * w -> length z = n * w ->
        nok (level_ilu0_apply w n lowC upC levels scale ytemp nthr r z) (fun o => o = out)) /\
      (forall ytemp z nsweeps chunk usethreads nthr init,
        length ytemp = n * w -> length z = n * w -> 1 <= nsweeps -> 1 <= chunk -> init <> INIT_A_NONE ->
        usethreads = false \/ nthr = 1 ->
        nok (ilu0_apply w n lowC upC scale ytemp nsweeps chunk usethreads nthr init r z) (fun o => o = out)).
  Proof.
    destruct HM as (Hw & Hd & Hs). intros Hlo Hup Hlev Hsc Hr.
    assert (forall i c, i < n -> lowdep M i c -> c < i) as Hlt by (intros i c; apply lowdep_lt; auto).
    assert (forall i c, i < n -> updep M i c -> i < c) as Hut.
    { intros i c Hi H. apply (updep_lt M i c Hw Hd Hs Hi H). }
    destruct (ilu0_apply_sequential w n lowC upC (lowdep M) (updep M) Hlo Hup Hlt Hut scale r Hsc Hr)
      as (ys & xs & Hy & Hx & Hrun).
    exists (ys, scaled_sol scale xs). split; [|exact Hrun].
    intros ytemp z nthr Hn Hyt Hz. eapply nok_mono.
    - apply (level_ilu0_apply_spec w n lowC upC (lowdep M) (updep M) Hlo Hup Hlt Hut levels scale r ytemp z nthr); auto.
      + apply valid_levels_for; auto. intros i c Hi. apply lowdep_pos; auto.
      + apply valid_levels_for; auto. intros i c Hi. apply updep_pos; auto.
    - intros out (ys' & xs' & Hy' & Hx' & ->).
      destruct (lower_sweeps w n lowC (lowdep M) Hlo Hlt (scaled_rhs scale r)) as (y0 & _ & Hu & _).
      { apply scaled_rhs_length; auto. }
      assert (ys' = ys) as -> by (rewrite (Hu ys'), (Hu ys); auto).
      destruct (upper_sweeps w n upC (updep M) Hup Hut ys (proj1 Hy)) as (x0 & _ & Hu2 & _).
      rewrite (Hu2 xs'), (Hu2 xs); auto.
  Qed.
End LevelApply.
