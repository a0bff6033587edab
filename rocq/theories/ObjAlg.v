(** * ObjAlg: the members of used objects, and apply() and compute() return *)
From Coq Require Import ZArith.
From Verif Require Import Base Alg SRMatrix Async AsyncTheory AsyncSystem AsyncSweeps Nd Kernels KernelFacts IluApply IluApplyFacts TriSpec TriFacts
  IluApplyMain IluPattern IluFactor IluFactorMain Sgs SgsFacts SgsProofs SgsForms SgsMain Memory Levels PropLevels ColMat PropColMat Coo CooFacts PropIluInit
  PropIluFactor PropIluApply Factory Petsc Objects ObjFacts ObjHistory.
Open Scope nat_scope.

(** the matrix as a table of numbers *)
Definition matrix_of {F} {O : SOps F} (sh : shape) (M : srmat F) : nat -> nat -> F :=
  match sh with Scalar => dense M | Blocks bs so => bdense so bs M end.

Lemma nok_same {A} (m : nd A) a b : nok m (fun x => x = a) -> nok m (fun x => x = b) -> a = b.
Proof. intros Ha Hb. destruct (nok_exists _ _ Ha) as (x & Hx & ->). exact (nok_out _ _ _ Hb Hx). Qed.
Lemma nok_self {A} (m : nd A) Q : nok m Q -> nok m (fun x => m (Ok x)).
Proof. intros [He H]. split; [exact He|]. intros o Ho. specialize (H o Ho). destruct o; simpl in *; tauto. Qed.

Section Alg.
  Context {F : Type} {O : SOps F} {R : Field F}.
  Variable inv : list F -> list F.
  Implicit Types (M : srmat F) (sh : shape) (st : @pstate F).

  Lemma bdiag_nonzero (A E : nat -> nat -> F) n i : is_inverse (n * 1) (bdiag 1 A) E -> i < n -> A i i <> s0.
  Proof.
    intros H Hi Hz. destruct (H i i) as [H1 _]; [lia|lia|]. unfold ident in H1. rewrite decide_True in H1 by done.
    apply field_10. rewrite <- H1. unfold mprod. apply bsum_zero. intros k Hk. unfold bdiag. rewrite !Nat.div_1_r.
    destruct (decide (i = k)) as [->|]; [rewrite Hz|]; apply smul_0_l.
  Qed.
  Lemma diag_good sh M E : wf_mat M -> fits sh M -> lawful inv sh ->
    is_inverse (nbrows M * width sh) (bdiag (width sh) (matrix_of sh M)) E ->
    exists d dinv, length d = nbrows M * bsize sh /\
      good (width sh) (nbrows M) (matrix_of sh M) dinv (fgs_of sh M) (bgs_of sh M) (relax_of sh M) (lowdep M) (updep M) (offdep M) d /\
      forall st, holds_d inv sh M st -> p_d st = Some d.
  Proof.
    intros HM Hf Hl HE. destruct (setup_det inv sh M HM Hf Hl) as (e & He & Hdet).
    assert (forall st, holds_d inv sh M st -> p_d st = Some e) as Hst.
    { intros st (d & E1 & _ & E2). rewrite E1. f_equal. eapply nok_same; [apply (E2 e He)|apply (Hdet e He)]. }
    exists e. unfold fits in Hf. destruct sh as [|bs so]; cbn [bsize width matrix_of lawful setup_of] in *.
    - exists sdinv. split; [exact He|]. split; [|exact Hst]. rewrite Nat.mul_1_r in *.
      specialize (Hdet e He). destruct (nok_exists _ _ Hdet) as (x & Hx & ->).
      refine (nok_out _ _ _ (scalar_good M HM Hf _ e He) Hx). intros i Hi. eapply bdiag_nonzero; [rewrite Nat.mul_1_r; exact HE|exact Hi].
    - exists (bdinv so bs). split; [exact He|]. split; [|exact Hst]. destruct Hl as [Hb Hor].
      specialize (Hdet e He). destruct (nok_exists _ _ Hdet) as (x & Hx & ->).
      exact (nok_out _ _ _ (block_good so bs inv M E HM Hb Hf Hor HE e He) Hx).
  Qed.
End Alg.

(** ** Regions of asynchronous sweeps always end *)
Lemma region_total {F} w n (C : nat -> @P F (list F)) dep ut nthr q y : 1 <= nthr -> length y = n * w ->
  (forall r, r ∈ concat q -> kernel_ok w C n dep r) ->
  nok (omp_region ut (T w C) nthr q y) (fun y' => length y' = n * w).
Proof.
  intros Hn Hy Hk. destruct (exec_seq_total w C n dep _ y Hk Hy) as (ms & He & Hms). unfold omp_region. destruct (ut && negb (nthr =? 1)).
  - apply nok_par_region; [exact Hn|eauto| |intros m Hm; rewrite (region_length _ _ _ _ _ Hm); exact Hy].
    destruct (region_settles (T w C) y (fun _ => False) (fun _ => False) nthr q y) as [Hsafe _]; auto.
    + intros l [].
    + intros r0 H0. right. eapply wp_mono; [apply (avoids_T w _ n dep (length y) (fun _ => False) r0); auto|..]; simpl; auto.
      intros l v [H _]. split; [exact H|]. intros [[]|[]].
  - apply nok_lift. rewrite He. simpl. exact Hms.
Qed.
Lemma ilu0_apply_total {F} {O : SOps F} w n (lowC upC : list F -> nat -> @P F (list F)) ldep udep scale ytemp k chunk ut nthr init r z :
  (forall z i, length z = n * w -> i < n -> kernel_ok w (lowC z) n ldep i) ->
  (forall z i, length z = n * w -> i < n -> kernel_ok w (upC z) n udep i) ->
  scale_ok scale (n * w) -> length r = n * w -> length ytemp = n * w -> length z = n * w -> 1 <= chunk -> 1 <= nthr -> init <> INIT_A_NONE ->
  nok (ilu0_apply w n lowC upC scale ytemp k chunk ut nthr init r z) (fun _ => True).
Proof.
  intros Hlow Hup Hs Hr Hyt Hz Hc Hn Hi. pose proof (scaled_rhs_length scale r _ Hs Hr) as Hsl. unfold ilu0_apply.
  eapply nok_bind; [apply init_z_spec; auto|]. intros z1 ->.
  apply (nok_bind _ _ (fun y => length y = n * w)).
  { destruct init; [| |congruence]; (eapply nok_mono; [apply fill_spec, Hyt|intros ? ->; apply replicate_length]). }
  intros y Hy. eapply nok_bind.
  { apply (region_total w n _ ldep); [exact Hn|exact Hy|]. intros r0 H0. rewrite concat_nowait in H0 by done.
    apply elem_of_concat_replicate, elem_of_seq in H0. apply Hlow; [exact Hsl|lia]. }
  intros y1 Hy1. cbn beta in Hy1. apply (nok_bind _ _ (fun z => length z = n * w)).
  { destruct init; [| |congruence].
    - eapply nok_mono; [apply fill_spec, Hsl|intros ? ->; apply replicate_length].
    - eapply nok_mono; [apply (vcopy_spec (n * w)); auto|intros ? ->; exact Hy1]. }
  intros z2 Hz2. eapply nok_bind.
  { apply (region_total w n _ udep); [exact Hn|exact Hz2|]. intros r0 H0. rewrite concat_nowait in H0 by done.
    apply elem_of_concat_replicate in H0. rewrite <- reverse_rev, elem_of_reverse, elem_of_seq in H0. apply Hup; [exact Hy1|lia]. }
  intros z3 Hz3. cbn beta in Hz3. eapply nok_bind; [apply final_scale_spec; auto|]. intros z4 _. apply nok_ret. exact Logic.I.
Qed.
