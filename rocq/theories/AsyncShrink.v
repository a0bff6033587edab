(** * AsyncShrink: relaxations whose rows map values of one kind to values of a better
    kind, over and over

    No laws are assumed about the scalars, so this holds for any arithmetic. *)
From Verif Require Import Base Alg SRMatrix Async AsyncTheory AsyncSystem AsyncSweeps AsyncSets Nd Reduction Kernels KernelFacts
  IluApply IluApplyFacts TriSpec TriFacts IluApplyProofs IluApplyMain Sgs SgsFacts SgsProofs SgsForms SgsMain.

Section Shrink.
  Context {F : Type} {O : SOps F}.
  Variables (w n : nat) (relaxC : list F -> nat -> @P F (list F)) (dep : nat -> nat -> Prop) (b : list F).
  Notation N := (n * w).
  (** [K k]: the kinds, better with growing [k] *)
  Variable K : nat -> nat -> F -> Prop.
  Hypothesis HK : forall k l v, l < N -> K (S k) l v -> K k l v.
  Hypothesis Himp : forall k i, i < n -> improves w n (relaxC b) (K k) (K (S k)) i.
  Hypothesis Hker : forall z i, length z = N -> i < n -> kernel_ok w (relaxC z) n dep i.
  Hypothesis Hb : length b = N.
  Notation inK k := (all_in N (K k)).

  Lemma shrink_region ut nthr q k x : 1 <= nthr -> (forall i, i ∈ concat q -> i < n) -> inK k x ->
    nok (omp_region ut (T w (relaxC b)) nthr q x) (fun x' => inK k x' /\
      ((forall i, i < n -> i ∈ concat q) -> inK (S k) x')).
  Proof.
    intros Hn Hq Hx. eapply nok_mono.
    - apply (region_improves w n (relaxC b) (K k) (K (S k)) (HK k) ut nthr q x dep Hn); [|exact Hx].
      intros i Hi. split; [apply Himp; auto|apply Hker; auto].
    - intros x' [Ha Hown]. split; [exact Ha|]. intros Hall. split; [apply Ha|].
      intros l v Hv. assert (l < N) as Hl by (rewrite <- (proj1 Ha); eapply lookup_lt_Some; eauto).
      destruct (own_ex w n l Hl) as (i & Hi & Ho). eapply Hown; eauto.
  Qed.
  (** a call with any number of threads gains one step *)
  Lemma shrink_chaotic steps chunk nthr k x : 1 <= steps -> 1 <= chunk -> 1 <= nthr -> inK k x ->
    nok (chaotic_relax w n relaxC steps chunk nthr b x) (inK (S k)).
  Proof.
    intros Hs Hc Hn Hx. unfold chaotic_relax.
    assert (concat (nowait_sweeps steps chunk (seq 0 n)) = concat (replicate steps (seq 0 n))) as Hq by (apply concat_nowait; exact Hc).
    eapply nok_mono; [apply (shrink_region true nthr _ k x Hn); [|exact Hx]|].
    - intros i Hi. rewrite Hq in Hi. apply elem_of_concat_replicate, elem_of_seq in Hi. lia.
    - intros x' [_ H]. apply H. intros i Hi. rewrite Hq. destruct steps as [|m]; [lia|]. simpl.
      apply elem_of_app. left. apply elem_of_seq. lia.
  Qed.
  Lemma shrink_sgs its chunk nthr k x : 1 <= its -> 1 <= chunk -> 1 <= nthr -> inK k x ->
    nok (sgs_relax w n relaxC its chunk nthr b x) (inK (S k)).
  Proof.
    intros Hs Hc Hn Hx. unfold sgs_relax. pose proof (sgs_queue n its chunk Hc) as Hq.
    eapply nok_mono; [apply (shrink_region true nthr _ k x Hn); [|exact Hx]|].
    - intros i Hi. rewrite Hq in Hi. apply elem_of_concat_replicate, elem_seq_rev in Hi. exact Hi.
    - intros x' [_ H]. apply H. intros i Hi. rewrite Hq. destruct its as [|m]; [lia|]. simpl.
      apply elem_of_app. left. apply elem_of_app. left. apply elem_of_seq. lia.
  Qed.
  (** sweeps one after the other gain one step each *)
  Lemma shrink_seq rs k x x' : (forall i, i ∈ rs <-> i < n) -> inK k x ->
    exec_seq (T w (relaxC b)) rs x = Ok x' -> inK (S k) x'.
  Proof.
    intros Hrs Hx Hex.
    destruct (shrink_region false 1 [rs] k x ltac:(lia)) as [_ H]; [intros i Hi; simpl in Hi; rewrite app_nil_r in Hi; apply Hrs, Hi|exact Hx|].
    specialize (H (Ok x')). rewrite omp_region_seq in H by auto. simpl in H. rewrite app_nil_r in H.
    destruct (H (eq_sym Hex)) as [_ H']. apply H'. intros i Hi. apply Hrs, Hi.
  Qed.
  Lemma shrink_sweeps (rs : list nat) s : (forall i, i ∈ rs <-> i < n) -> forall k x x', inK k x ->
    exec_seq (T w (relaxC b)) (concat (replicate s rs)) x = Ok x' -> inK (s + k) x'.
  Proof.
    intros Hrs. induction s as [|s IH]; intros k x x' Hx Hex; cbn [replicate concat] in *.
    - injection Hex as <-. exact Hx.
    - rewrite exec_seq_app in Hex. apply bind_Ok in Hex as (x1 & H1 & H2).
      apply (shrink_seq rs k x x1 Hrs Hx) in H1. replace (S s + k) with (s + S k) by lia. eapply IH; eauto.
  Qed.
  Lemma all_rows i : i ∈ seq 0 n <-> i < n.
  Proof. rewrite elem_of_seq. lia. Qed.
  Lemma all_rows_rev i : i ∈ rev (seq 0 n) <-> i < n.
  Proof. rewrite elem_of_list_In, <- in_rev, <- elem_of_list_In. apply all_rows. Qed.
  Lemma shrink_there_and_back s : forall k x x', inK k x ->
    exec_seq (T w (relaxC b)) (concat (replicate s (seq 0 n ++ rev (seq 0 n)))) x = Ok x' -> inK (2 * s + k) x'.
  Proof.
    induction s as [|s IH]; intros k x x' Hx Hex; cbn [replicate concat] in *.
    - injection Hex as <-. exact Hx.
    - rewrite exec_seq_app in Hex. apply bind_Ok in Hex as (x2 & H12 & H3).
      rewrite exec_seq_app in H12. apply bind_Ok in H12 as (x1 & H1 & H2).
      apply (shrink_seq _ k x x1 all_rows Hx) in H1. apply (shrink_seq _ (S k) x1 x2 all_rows_rev H1) in H2.
      replace (2 * S s + k) with (2 * s + S (S k)) by lia. eapply IH; eauto.
  Qed.
  Lemma shrink_chaotic_seq steps chunk k x : 1 <= chunk -> inK k x ->
    nok (chaotic_relax w n relaxC steps chunk 1 b x) (inK (steps + k)).
  Proof.
    intros Hc Hx. unfold chaotic_relax.
    assert (forall i, i ∈ concat (nowait_sweeps steps chunk (seq 0 n)) -> i < n) as Hq.
    { intros i Hi. rewrite concat_nowait in Hi by exact Hc. apply elem_of_concat_replicate, elem_of_seq in Hi. lia. }
    destruct (shrink_region true 1 _ k x ltac:(lia) Hq Hx) as [Hex Hall].
    split; [exact Hex|]. intros o Ho. pose proof (Hall o Ho) as Hok. destruct o as [x'| | |]; simpl in Hok |- *; try contradiction.
    rewrite omp_region_seq in Ho by auto. rewrite concat_nowait in Ho by done.
    eapply shrink_sweeps; [exact all_rows|exact Hx|]. symmetry. exact Ho.
  Qed.
  Lemma shrink_sgs_seq its chunk k x : 1 <= chunk -> inK k x ->
    nok (sgs_relax w n relaxC its chunk 1 b x) (inK (2 * its + k)).
  Proof.
    intros Hc Hx. unfold sgs_relax.
    assert (forall i, i ∈ concat (concat (replicate its (chunks chunk (seq 0 n) ++ chunks chunk (rev (seq 0 n))))) -> i < n) as Hq.
    { intros i Hi. rewrite sgs_queue in Hi by exact Hc. apply elem_of_concat_replicate, elem_seq_rev in Hi. exact Hi. }
    destruct (shrink_region true 1 _ k x ltac:(lia) Hq Hx) as [Hex Hall].
    split; [exact Hex|]. intros o Ho. pose proof (Hall o Ho) as Hok. destruct o as [x'| | |]; simpl in Hok |- *; try contradiction.
    rewrite omp_region_seq in Ho by auto. rewrite sgs_queue in Ho by done.
    eapply shrink_there_and_back; [exact Hx|]. symmetry. exact Ho.
  Qed.
  Lemma shrink_level levels its nthr k x : 1 <= nthr -> levels_for n dep levels -> inK k x ->
    nok (level_relax w relaxC levels its nthr b x) (inK (2 * its + k)).
  Proof.
    intros Hn Hlev Hx. eapply nok_mono; [apply (level_relax_spec w n relaxC dep Hker); auto; apply Hx|].
    intros x' [_ Hex]. eapply shrink_there_and_back; eauto.
  Qed.

  (** Jacobi's method, also with its test for convergence *)
  Lemma shrink_jacobi_sweep k x xtemp : inK k x -> length xtemp = N ->
    nok (par_for 0 n (jacobi_row w relaxC b x) xtemp) (inK (S k)).
  Proof.
    intros Hx Hxt.
    assert (forall i, i < n -> exists seg, exec x (relaxC b i) = Ok (seg, x) /\ length seg = w /\
      forall p v, seg !! p = Some v -> K (S k) (i * w + p) v) as Hrow.
    { intros i Hi. destruct (Himp k i Hi) as [_ Hwp].
      destruct (exec_wp x (relaxC b i) (fun seg => length seg = w /\ forall p v, seg !! p = Some v -> K (S k) (i * w + p) v)) as (seg & He & H1 & H2).
      { eapply wp_mono; [exact Hwp| | |auto|auto].
        - intros l (y & Hl & _). destruct (lookup_lt_is_Some_2 x l) as [v Hv]; [rewrite (proj1 Hx); exact Hl|eauto].
        - intros l y Hy (y' & Hl & _). split; [exact Hl|]. apply (proj2 Hx), Hy. }
      eauto. }
    set (segf := fun i => match exec x (relaxC b i) with Ok (s, _) => s | _ => [] end).
    apply (nok_par_for_seg n w _ xtemp segf); [exact Hxt| | |].
    - intros i Hi. destruct (Hrow i Hi) as (seg & He & Hl & _). unfold segf. rewrite He. exact Hl.
    - intros i v' Hi Hv'. unfold jacobi_row. destruct (Hrow i Hi) as (seg & He & Hl & _). unfold segf. rewrite He. reflexivity.
    - intros v' Hv' Hk. split; [exact Hv'|]. intros l v Hl. assert (l < N) as Hlt by (rewrite <- Hv'; eapply lookup_lt_Some; eauto).
      destruct (unflat w n l Hlt) as (i & p & -> & Hi & Hp). rewrite Hk in Hl by done.
      destruct (Hrow i Hi) as (seg & He & _ & Hs). unfold segf in Hl. rewrite He in Hl. apply Hs, Hl.
  Qed.
  Lemma jacobi_diff_copies len xtemp x : length xtemp = len -> length x = len ->
    nok (jacobi_diff len xtemp x) (fun '(_, x') => x' = xtemp).
  Proof.
    intros Ht Hx. unfold jacobi_diff.
    apply (nok_reduce_shared (fun _ _ => True) sadd (fun _ _ _ _ _ => Logic.I) (fun _ _ _ _ _ _ => Logic.I)
      (fun dn x' => length x' = len /\
       forall i, i < len -> x' !! i = if decide (i ∈ dn) then xtemp !! i else x !! i)); [exact Logic.I|exact Logic.I| | |].
    - split; [exact Hx|]. intros i Hi. rewrite decide_False by apply not_elem_of_nil. reflexivity.
    - intros dn l i s x' Hdn Hi Hni _ (Hl & Hk).
      destruct (lookup_lt_is_Some_2 xtemp i ltac:(lia)) as [t Et]. destruct (lookup_lt_is_Some_2 x i ltac:(lia)) as [y Ey].
      rewrite (proj2 (get_Some _ _ _) Et). simpl. pose proof (Hk i ltac:(lia)) as E1. rewrite decide_False in E1 by done. rewrite Ey in E1.
      rewrite (proj2 (get_Some _ _ _) E1). simpl. rewrite set_Ok by lia. simpl. split; [exact Logic.I|].
      split; [rewrite insert_length; exact Hl|].
      intros j Hj. destruct (decide (i = j)) as [<-|Hne].
      + rewrite list_lookup_insert by lia. rewrite decide_True by (apply elem_of_app; right; left). congruence.
      + rewrite list_lookup_insert_ne by done. rewrite Hk by done.
        destruct (decide (j ∈ dn)) as [Hj'|Hj'].
        * rewrite decide_True by (apply elem_of_app; auto). reflexivity.
        * rewrite decide_False; [reflexivity|]. rewrite elem_of_app, elem_of_list_singleton. intros [?|?]; [auto|congruence].
    - intros l s x' Hl _ (H1 & H3). apply list_eq. intros i. destruct (decide (i < len)) as [Hi|Hi].
      + rewrite H3 by exact Hi. rewrite decide_True; [reflexivity|]. rewrite Hl. apply elem_of_range. lia.
      + rewrite !lookup_ge_None_2 by lia. reflexivity.
  Qed.
  Lemma shrink_jacobi_loop ssqrt slt p s : forall k step ref xtemp x, inK k x -> length xtemp = N ->
    nok (jacobi_loop ssqrt slt w n relaxC p b s step ref xtemp x)
        (fun x' => exists m, m <= s /\ (ctol p = false -> m = s) /\ (1 <= s -> 1 <= m) /\ inK (m + k) x').
  Proof.
    induction s as [|s IH]; intros k step ref xtemp x Hx Hxt; cbn [jacobi_loop].
    - apply nok_ret. exists 0. repeat split; auto; apply Hx.
    - eapply nok_bind; [apply (shrink_jacobi_sweep k x xtemp Hx Hxt)|]. intros xt Hxt'.
      assert (length xt = N) as Hl by apply Hxt'. assert (length x = N) as Hlx by apply Hx.
      destruct (ctol p) eqn:Ec.
      + eapply nok_bind; [apply jacobi_diff_copies; eauto|]. intros [dn x'] ->.
        destruct (jacobi_stop _ _ _ _).
        * apply nok_ret. exists 1. split; [lia|]. split; [discriminate|]. split; [lia|]. exact Hxt'.
        * eapply nok_mono; [apply (IH (S k)); auto|]. intros y (m & H1 & H2 & H3 & H4). exists (S m).
          split; [lia|]. split; [discriminate|]. split; [lia|]. replace (S m + k) with (m + S k) by lia. exact H4.
      + eapply nok_bind; [apply vcopy_spec; eauto|]. intros x' ->.
        eapply nok_mono; [apply (IH (S k)); auto|]. intros y (m & H1 & H2 & H3 & H4). exists (S m).
        split; [lia|]. split; [intros _; rewrite H2 by done; reflexivity|]. split; [lia|]. replace (S m + k) with (m + S k) by lia. exact H4.
  Qed.
  Lemma shrink_jacobi ssqrt slt p k xtemp x : inK k x -> length xtemp = N ->
    nok (jacobi_relax ssqrt slt w n relaxC p xtemp b x)
        (fun x' => exists m, m <= maxits p /\ (ctol p = false -> m = maxits p) /\ (1 <= maxits p -> 1 <= m) /\ inK (m + k) x').
  Proof. intros Hx Hxt. apply shrink_jacobi_loop; auto. Qed.
End Shrink.
