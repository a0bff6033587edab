(** * Memory: applying a preconditioner repeatedly *)
From Verif Require Import Base Alg SRMatrix Async AsyncTheory AsyncSystem AsyncSweeps Nd Kernels KernelFacts
  IluApply IluApplyFacts TriSpec IluApplyMain Sgs SgsFacts SgsMain.

(** A preconditioner object keeps a work vector between calls of apply. [ap y c] are
    the possible outcomes (work vector, output) of the call [c] (right-hand side,
    output buffer, number of threads) when the work vector holds [y]. A history is a
    sequence of calls on one object; its outcome is the list of outputs. *)
Section History.
  Context {F C : Type} (ap : list F -> C -> nd (list F * list F)).
  Fixpoint history (calls : list C) (y : list F) : nd (list (list F)) :=
    match calls with
    | [] => nret []
    | c :: cs =>
        ndo (y', z) := ap y c in
        ndo zs := history cs y' in
        nret (z :: zs)
    end.
  (** the outputs [c] can give on an object whose work vector holds [y] *)
  Definition output_of (y : list F) (c : C) (z : list F) : Prop := exists y', ap y c (Ok (y', z)).

  Lemma history_memoryless (good : list F -> Prop) (callok : C -> Prop) y0 calls y :
    (forall y y' c, good y -> good y' -> callok c -> forall o, ap y c o <-> ap y' c o) ->
    (forall y c y' z, good y -> callok c -> ap y c (Ok (y', z)) -> good y') ->
    good y0 -> good y -> Forall callok calls ->
    forall zs, history calls y (Ok zs) <-> Forall2 (output_of y0) calls zs.
  Proof.
    intros Hsame Hgood Hg0. revert y. induction calls as [|c cs IH]; intros y Hy Hc zs; cbn [history].
    - split.
      + intros H. injection H as ->. constructor.
      + intros H. inversion H. reflexivity.
    - inversion Hc as [|? ? Hc1 Hc2]; subst. split.
      + intros ([[y' z]| | |] & H1 & H2); try discriminate.
        destruct H2 as ([zs'| | |] & H2 & H3); try discriminate. injection H3 as ->.
        constructor.
        * exists y'. apply (Hsame y y0); auto.
        * apply (IH y'); eauto.
      + intros H. inversion H as [|? z ? zs' [y' Hz] Hzs]; subst.
        apply (Hsame y0 y) in Hz; auto. exists (Ok (y', z)). split; [exact Hz|].
        exists (Ok zs'). split; [|reflexivity]. apply IH; eauto.
  Qed.
End History.

(** regions keep the length of the shared array *)
Lemma set_length' {V} (m : list V) l v m' : set m l v = Ok m' -> length m' = length m.
Proof. unfold set. destruct (decide _); [|discriminate]. intros E. injection E as <-. apply insert_length. Qed.
Lemma step_length {V} (T : nat -> @P V unit) x s s' : step T x s = Ok s' -> length (mcur s') = length (mcur s).
Proof.
  destruct x as [t pick]. unfold step. destruct (mt s !! t) as [[|[[]|l k|l v k|] rs]|].
  - destruct (mq s); intros E; injection E as <-; reflexivity.
  - intros E. injection E as <-. reflexivity.
  - destruct (get _ l); try discriminate. intros E. injection E as <-. reflexivity.
  - destruct (set (mcur s) l v) as [m'| | |] eqn:E'; try discriminate. intros E. injection E as <-. simpl.
    eapply set_length'; eauto.
  - discriminate.
  - intros E. injection E as <-. reflexivity.
Qed.
Lemma run_length {V} (T : nat -> @P V unit) sched : forall s s', run T sched s = Ok s' -> length (mcur s') = length (mcur s).
Proof.
  induction sched as [|x sched IH]; intros s s' E; cbn [run] in E.
  - injection E as <-. reflexivity.
  - destruct (step T x s) as [s1| | |] eqn:E1; try discriminate. simpl in E.
    rewrite (IH _ _ E). eapply step_length; eauto.
Qed.
Lemma region_length {V} (T : nat -> @P V unit) nthr q m m' : region T nthr q m m' -> length m' = length m.
Proof. intros (sched & s' & E & _ & <-). apply run_length in E. exact E. Qed.
Lemma exec_length {V A} (p : @P V A) : forall m a m', exec m p = Ok (a, m') -> length m' = length m.
Proof.
  induction p as [a|l k IH|l v k IH|]; intros m a' m' E; cbn [exec] in E.
  - injection E as _ <-. reflexivity.
  - destruct (get m l); try discriminate. eapply IH; eauto.
  - destruct (set m l v) as [m1| | |] eqn:E1; try discriminate. apply IH in E. apply set_length' in E1. congruence.
  - discriminate.
Qed.
Lemma exec_seq_length {V} (T : nat -> @P V unit) rs : forall m m', exec_seq T rs m = Ok m' -> length m' = length m.
Proof.
  induction rs as [|r rs IH]; intros m m' E; cbn [exec_seq] in E.
  - injection E as <-. reflexivity.
  - destruct (exec m (T r)) as [[[] m1]| | |] eqn:E1; try discriminate. simpl in E.
    rewrite (IH _ _ E). eapply exec_length; eauto.
Qed.
Lemma omp_region_length {V} ut (T : nat -> @P V unit) nthr q m m' :
  omp_region ut T nthr q m (Ok m') -> length m' = length m.
Proof.
  unfold omp_region. destruct (_ && _).
  - intros [(m1 & H & E)|[E _]]; [|discriminate]. injection E as ->. eapply region_length; eauto.
  - intros E. symmetry in E. eapply exec_seq_length; eauto.
Qed.

Section Memory.
  Context {F : Type} {O : SOps F}.
  Variables (w n : nat).
  Notation N := (n * w)%nat.

  Lemma det_ext {A} (m m' : nd A) (a : A) : nok m (fun x => x = a) -> nok m' (fun x => x = a) ->
    forall o, m o <-> m' o.
  Proof.
    intros [[o1 H1] Ha] [[o2 H2] Hb] o. split; intros H.
    - pose proof (Ha o H) as E. pose proof (Hb o2 H2) as E2. destruct o, o2; simpl in E, E2; try tauto. subst. exact H2.
    - pose proof (Hb o H) as E. pose proof (Ha o1 H1) as E2. destruct o, o1; simpl in E, E2; try tauto. subst. exact H1.
  Qed.
  Lemma nok_outcome {A} (m : nd A) Q a : nok m Q -> m (Ok a) -> Q a.
  Proof. intros [_ H] Ha. apply (H _ Ha). Qed.

  Lemma sgs_apply_memory (fgsC bgsC : list F -> nat -> @P F (list F))
      ytemp ytemp' nsweeps chunk nthr init r z z' :
    length ytemp = N -> length ytemp' = N -> length z = N -> length z' = N -> length r = N ->
    init <> INIT_A_NONE ->
    forall o, sgs_apply w n fgsC bgsC ytemp nsweeps chunk nthr init r z o <->
              sgs_apply w n fgsC bgsC ytemp' nsweeps chunk nthr init r z' o.
  Proof.
    intros Hy Hy' Hz Hz' Hr Hi. unfold sgs_apply.
    assert (forall v, length v = N -> nok (match init with INIT_A_NONE => nret v | _ => fill N s0 v end)
      (fun y => y = replicate N s0)) as Hfill.
    { intros v Hv. destruct init; [apply fill_spec; auto..|congruence]. }
    apply nbind_ext with (Q := fun y => length y = N).
    { destruct init; [apply fill_det; auto..|congruence]. }
    { intros y Hyo. assert (y = replicate N s0) as ->; [|apply replicate_length].
      destruct init; [| |congruence]; exact (nok_outcome _ _ y (fill_spec N s0 ytemp Hy) Hyo). }
    intros y1 Hy1. apply nbind_ext with (Q := fun y => length y = N); [reflexivity| |].
    { intros y E. symmetry in E. apply exec_seq_length in E. congruence. }
    intros y Hyl. apply nbind_ext with (Q := fun _ => True); [|auto|reflexivity].
    destruct init; [apply fill_det; auto|apply vcopy_det; auto|congruence].
  Qed.
  Lemma ilu0_apply_memory (lowC upC : list F -> nat -> @P F (list F))
      scale ytemp ytemp' nsweeps chunk ut nthr init r z z' :
    length ytemp = N -> length ytemp' = N -> length z = N -> length z' = N -> length r = N ->
    scale_ok scale N -> init <> INIT_A_NONE ->
    forall o, ilu0_apply w n lowC upC scale ytemp nsweeps chunk ut nthr init r z o <->
              ilu0_apply w n lowC upC scale ytemp' nsweeps chunk ut nthr init r z' o.
  Proof.
    intros Hy Hy' Hz Hz' Hr Hsc Hi. unfold ilu0_apply.
    apply nbind_ext with (Q := fun z => length z = N).
    { eapply det_ext; apply init_z_spec; auto. }
    { intros z1 Hz1. assert (z1 = scaled_rhs scale r) as ->; [|apply scaled_rhs_length; auto].
      exact (nok_outcome _ _ z1 (init_z_spec N scale r z Hsc Hr Hz) Hz1). }
    intros z1 Hz1. apply nbind_ext with (Q := fun y => length y = N).
    { destruct init; [apply fill_det; auto..|congruence]. }
    { intros y Hyo. assert (y = replicate N s0) as ->; [|apply replicate_length].
      destruct init; [| |congruence]; exact (nok_outcome _ _ y (fill_spec N s0 ytemp Hy) Hyo). }
    intros y1 Hy1. apply nbind_ext with (Q := fun y => length y = N); [reflexivity| |].
    { intros y Hyo. apply omp_region_length in Hyo. congruence. }
    intros y Hyl. apply nbind_ext with (Q := fun _ => True); [|auto|reflexivity].
    destruct init; [apply fill_det; auto|apply vcopy_det; auto|congruence].
  Qed.

  (** the work vector keeps its length *)
  Lemma sgs_apply_work (fgsC bgsC : list F -> nat -> @P F (list F)) ytemp nsweeps chunk nthr init r z y' z' :
    length ytemp = N ->
    sgs_apply w n fgsC bgsC ytemp nsweeps chunk nthr init r z (Ok (y', z')) -> length y' = N.
  Proof.
    intros Hy H. destruct H as ([y1| | |] & H1 & H); try discriminate.
    destruct H as ([y2| | |] & H2 & H); try discriminate. destruct H as ([z1| | |] & H3 & H); try discriminate.
    destruct H as ([z2| | |] & H4 & H5); try discriminate.
    injection H5 as -> ->. symmetry in H2. apply exec_seq_length in H2. rewrite H2.
    destruct init.
    - rewrite (nok_outcome _ _ y1 (fill_spec N s0 ytemp Hy) H1). apply replicate_length.
    - rewrite (nok_outcome _ _ y1 (fill_spec N s0 ytemp Hy) H1). apply replicate_length.
    - injection H1 as ->. exact Hy.
  Qed.
  Lemma ilu0_apply_work (lowC upC : list F -> nat -> @P F (list F)) scale ytemp nsweeps chunk ut nthr init r z y' z' :
    length ytemp = N ->
    ilu0_apply w n lowC upC scale ytemp nsweeps chunk ut nthr init r z (Ok (y', z')) -> length y' = N.
  Proof.
    intros Hy H. destruct H as ([z0| | |] & H0 & H); try discriminate. destruct H as ([y1| | |] & H1 & H); try discriminate.
    destruct H as ([y2| | |] & H2 & H); try discriminate. destruct H as ([z1| | |] & H3 & H); try discriminate.
    destruct H as ([z2| | |] & H4 & H); try discriminate. destruct H as ([z3| | |] & H5 & H6); try discriminate.
    injection H6 as -> ->. apply omp_region_length in H2. rewrite H2.
    destruct init.
    - rewrite (nok_outcome _ _ y1 (fill_spec N s0 ytemp Hy) H1). apply replicate_length.
    - rewrite (nok_outcome _ _ y1 (fill_spec N s0 ytemp Hy) H1). apply replicate_length.
    - injection H1 as ->. exact Hy.
  Qed.
End Memory.
