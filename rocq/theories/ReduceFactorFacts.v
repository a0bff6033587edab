(** * ReduceFactorFacts: the factorisation in exact arithmetic does not depend on the order
    of the subtractions; whatever they are, the sweeps read the same entries *)
From Verif Require Import Base Alg SRMatrix Async AsyncTheory AsyncSystem AsyncSweeps AsyncFlat Nd Reduction Kernels KernelFacts
  Helpers IluPattern IluPatternFacts IluApply IluApplyFacts Sgs SgsForms Chains IluApplyMain IluFactor TriSpec
  IluFactorFacts IluFactorInit IluFactorMain Reduce ReduceFacts ReduceFactor.

Section Wp.
  Context {V : Type}.
  Lemma wp_prel {A B} rd wr (R : A -> B -> Prop) (p : @P V A) (p' : @P V B) (Q : A -> Prop) (Q' : B -> Prop) :
    prel R p p' -> (forall a b, R a b -> Q a -> Q' b) -> wp rd wr p Q -> wp rd wr p' Q'.
  Proof.
    intros H HQ. revert p' H. induction p as [a|l k IH|l v k IH|]; intros [b|l' k'|l' v' k'|]; simpl; try tauto.
    - intros H Hq. eapply HQ; eauto.
    - intros [<- H] [Hex Hw]. split; [exact Hex|]. intros v Hv. apply (IH v); auto.
    - intros (<- & <- & H) [Hx Hw]. auto.
  Qed.
  Lemma prel_plift {A B C} (Q : B -> C -> Prop) (m : res A) (f : A -> @P V B) (g : A -> @P V C) :
    (forall a, m = Ok a -> prel Q (f a) (g a)) -> prel Q (pbind (plift m) f) (pbind (plift m) g).
  Proof. intros H. destruct m; simpl; auto. Qed.
  Lemma prel_ret_r {A B C} (Q : A -> B -> Prop) (Q' : A -> C -> Prop) (g : B -> C) (p : @P V A) (p' : @P V B) :
    prel Q p p' -> (forall a b, Q a b -> Q' a (g b)) -> prel Q' p (pbind p' (fun b => Ret (g b))).
  Proof.
    intros H Hg. revert p' H. induction p as [a|l k IH|l v k IH|]; intros [b|l' k'|l' v' k'|]; simpl; auto; try tauto.
    - intros [E H]. auto.
    - intros (E & E' & H). auto.
  Qed.
End Wp.

Section Plain.
  Context {F : Type} {O : SOps F}.
  Lemma factor_plain : factor_with entry_sum = factor_entry.
  Proof. reflexivity. Qed.
  Lemma compute_plain ssqrt sabs : compute_with ssqrt sabs entry_sum entry_sum msub_plain = scalar_ilu0_compute ssqrt sabs.
  Proof. reflexivity. Qed.
End Plain.

(** ** The same reads *)
Section Same.
  Context {F : Type} {O : SOps F}.
  Variable (R : F -> F -> Prop).
  Variables es es' : srmat F -> ilupos -> option (list F) -> nat -> nat -> @P F F.
  Notation alike R := (forall M pl scale irow j, prel R (es M pl scale irow j) (es' M pl scale irow j)).
  Lemma factor_alike : alike (fun _ _ => True) -> forall M pl scale irow j,
    prel (fun a b => length a = length b) (factor_with es M pl scale irow j) (factor_with es' M pl scale irow j).
  Proof.
    intros H M pl scale irow j. unfold factor_with. eapply prel_bind; [apply H|]. intros s s' _. apply prel_plift. intros c _.
    destruct (c <? irow); [|reflexivity]. apply prel_plift. intros d _. simpl. split; reflexivity.
  Qed.
  Lemma factor_same : alike eq -> forall M pl scale irow j,
    peq (factor_with es M pl scale irow j) (factor_with es' M pl scale irow j).
  Proof. intros H M pl scale irow j. unfold factor_with. eapply prel_bind; [apply H|]. intros s s' ->. apply peq_refl. Qed.
  Lemma res_alike ms ms' : alike (fun _ _ => True) -> forall M pl scale irow j,
    prel (fun _ _ => True) (res_entry_with es ms M pl scale irow j) (res_entry_with es' ms' M pl scale irow j).
  Proof.
    intros H M pl scale irow j. unfold res_entry_with. eapply prel_bind; [apply H|]. intros s s' _. apply prel_plift. intros c _.
    simpl. split; [reflexivity|]. intros x. destruct (c <? irow); [|exact I]. apply prel_plift. intros d _. simpl. split; auto.
  Qed.
  Lemma res_same ms ms' : (forall a b c, ms a b c = ms' a b c) -> alike eq -> forall M pl scale irow j,
    peq (res_entry_with es ms M pl scale irow j) (res_entry_with es' ms' M pl scale irow j).
  Proof.
    intros Hm H M pl scale irow j. unfold res_entry_with. eapply prel_bind; [apply H|]. intros s s' ->. apply prel_plift. intros c _.
    simpl. split; [reflexivity|]. intros x. destruct (c <? irow); [|reflexivity]. apply prel_plift. intros d _. simpl. split; auto.
  Qed.
  Lemma row_task_peq w M (EC EC' : nat -> nat -> @P F (list F)) : (forall i j, peq (EC i j) (EC' i j)) ->
    forall r, peq (row_task w M EC r) (row_task w M EC' r).
  Proof.
    intros H r. unfold row_task. apply prel_plift. intros rs _. apply prel_plift. intros re _.
    induction (range rs re) as [|j l IH]; simpl; [reflexivity|]. eapply prel_bind; [|intros ? ? _; exact IH].
    eapply prel_bind; [apply H|]. intros a b ->. apply peq_refl.
  Qed.
End Same.

(** ** The same outcomes of a computation *)
Section Outcomes.
  Context {F : Type} {O : SOps F}.
  Variables es1 es2 es1' es2' : srmat F -> ilupos -> option (list F) -> nat -> nat -> @P F F.
  Variables (ssqrt sabs : F -> F) (ms ms' : F -> F -> F -> F).
  Hypothesis (H1 : forall M pl scale irow j, peq (es1 M pl scale irow j) (es1' M pl scale irow j)).
  Hypothesis (H2 : forall M pl scale irow j, peq (es2 M pl scale irow j) (es2' M pl scale irow j)).
  Hypothesis (Hm : forall a b c, ms a b c = ms' a b c).
  Lemma neq_res M pl scale ilu : neq (nonlinear_res_with sabs es2 ms M pl scale ilu) (nonlinear_res_with sabs es2' ms' M pl scale ilu).
  Proof.
    intros o. apply reduce_for_ext. intros i acc. destruct (get (browptr M) i); simpl; auto. destruct (get (browptr M) (i + 1)); simpl; auto.
    unfold for_. match goal with |- for_n ?n ?a _ _ = _ => generalize n; intros m; generalize a end. clear -H2 Hm.
    intros lo. revert lo acc. induction m as [|m IH]; intros lo acc; simpl; [reflexivity|].
    rewrite (exec_peq _ _ ilu (res_same es2 es2' ms ms' Hm H2 M pl scale i lo)).
    destruct (exec ilu _) as [[r ?]| | |]; simpl; auto.
  Qed.
  Lemma neq_execute M pl scale k chunk ut nthr ilu : neq (execute_with es1 M pl scale k chunk ut nthr ilu) (execute_with es1' M pl scale k chunk ut nthr ilu).
  Proof. apply neq_region, row_task_peq. intros i j. apply factor_same, H1. Qed.
  Lemma neq_factorize M pl k chunk ut nthr finit info ilu scale :
    neq (factorize_with ssqrt sabs es1 es2 ms M pl k chunk ut nthr finit info ilu scale)
        (factorize_with ssqrt sabs es1' es2' ms' M pl k chunk ut nthr finit info ilu scale).
  Proof.
    unfold factorize_with. apply neq_bind; [apply neq_refl|]. intros sc. apply neq_bind; [apply neq_refl|]. intros o.
    apply neq_bind; [destruct info; [apply neq_res|apply neq_refl]|]. intros r0. apply neq_bind; [apply neq_execute|]. intros lu.
    apply neq_bind; [destruct info; [apply neq_res|apply neq_refl]|]. intros r1. apply neq_refl.
  Qed.
  Lemma neq_compute k chunk ut nthr finit us info gi gs M st :
    neq (compute_with ssqrt sabs es1 es2 ms k chunk ut nthr finit us info gi gs M st)
        (compute_with ssqrt sabs es1' es2' ms' k chunk ut nthr finit us info gi gs M st).
  Proof.
    unfold compute_with. apply neq_bind; [apply neq_refl|]. intros [[ilu sc] pl]. apply neq_bind; [apply neq_factorize|].
    intros [[lu s] i]. apply neq_refl.
  Qed.
End Outcomes.

(** ** Sums *)
Section Sums.
  Context {F : Type} {O : SOps F}.
  Variable sfnma : F -> F -> F -> F.
  Lemma rsum_alike ord M pl scale irow j : prel (fun _ _ => True) (entry_sum M pl scale irow j) (entry_rsum sfnma ord M pl scale irow j).
  Proof.
    unfold entry_sum, entry_rsum. apply prel_plift. intros sum _. apply prel_plift. intros lo _. apply prel_plift. intros hi _.
    apply (prel_ret_r (fun _ _ => True)); [|auto].
    apply (prel_pfor_n (fun _ _ _ => True)); [|exact I]. intros k a vx Hk _.
    apply prel_plift. intros l _. apply prel_plift. intros u _. simpl. auto.
  Qed.
  Context {R : CRing F}.
  Add Ring Fr : cring.
  Hypothesis Hfnma : forall a b c, sfnma a b c = (c - a * b)%s.
  Lemma seval_exact v x init o :
    seval sfnma v x init o = lsum (fun u => match u with None => init | Some k => (s0 - v k * x k)%s end) (suses o).
  Proof.
    induction o as [|f k|f a IH k|a IHa b IHb]; simpl.
    - ring.
    - rewrite (msub_exact sfnma Hfnma). unfold msub_plain. ring.
    - rewrite (msub_exact sfnma Hfnma), IH. unfold msub_plain. ring.
    - rewrite lsum_app, IHa, IHb. reflexivity.
  Qed.
  Lemma seval_covers v x init o lo hi : scovers o lo hi ->
    seval sfnma v x init o = (init - lsum (fun k => v k * x k) (range lo hi))%s.
  Proof.
    intros Ho. rewrite seval_exact, (lsum_perm _ _ _ Ho). simpl.
    transitivity (init + lsum (fun k => s0 - v k * x k) (range lo hi))%s.
    - f_equal. unfold lsum. induction (range lo hi) as [|k l IH]; simpl; [reflexivity|]. f_equal. exact IH.
    - unfold lsum. induction (range lo hi) as [|k l IH]; simpl; [ring|].
      transitivity (init + foldr (fun a acc => (s0 - v a * x a) + acc) s0 l - v k * x k)%s; [ring|]. rewrite IH. ring.
  Qed.
  Lemma rsum_same ord : valid_sorder ord -> forall M pl scale irow j, peq (entry_sum M pl scale irow j) (entry_rsum sfnma ord M pl scale irow j).
  Proof.
    intros Hord M pl scale irow j.
    unfold entry_sum, entry_rsum. apply prel_plift. intros sum _. apply prel_plift. intros lo _. apply prel_plift. intros hi _.
    set (RR := fun (k : nat) (a : F) (vx : nat -> F * F) => a = (sum - lsum (fun k => (vx k).1 * (vx k).2) (range lo k))%s).
    apply (prel_ret_r (RR (lo + (hi - lo)))).
    - apply prel_pfor_n.
      + intros k a vx Hk ->. apply prel_plift. intros l _. apply prel_plift. intros u _. simpl.
        split; [reflexivity|]. intros x. split; [reflexivity|]. intros y. unfold RR. replace (range lo (k + 1)) with (range lo k ++ [k]).
        2: { unfold range. replace (k + 1 - lo) with (k - lo + 1) by lia. rewrite seq_app. f_equal. simpl. f_equal. lia. }
        rewrite lsum_app. simpl. rewrite decide_True by done. simpl.
        rewrite (lsum_ext (fun k' => (if decide (k' = k) then (x, y) else vx k').1 * (if decide (k' = k) then (x, y) else vx k').2) (fun k => (vx k).1 * (vx k).2))%s.
        * ring.
        * intros k' Hk'. apply elem_of_range in Hk'. rewrite decide_False by lia. reflexivity.
      + unfold RR. rewrite range_same. simpl. ring.
    - intros a vx ->. rewrite (seval_covers _ _ _ _ lo hi (Hord lo hi)). f_equal. f_equal. destruct (decide (lo <= hi)).
      + replace (lo + (hi - lo)) with hi by lia. reflexivity.
      + replace (lo + (hi - lo)) with lo by lia. rewrite range_same. unfold range. replace (hi - lo) with 0 by lia. reflexivity.
  Qed.
End Sums.

(** ** Sequential computations *)
Section Sequential.
  Context {F : Type} {O : SOps F}.
  Variables (ssqrt sabs : F -> F) (ms : F -> F -> F -> F).
  Variables es es' : srmat F -> ilupos -> option (list F) -> nat -> nat -> @P F F.
  Hypothesis (H1 : forall M pl scale irow j, prel (fun _ _ => True) (entry_sum M pl scale irow j) (es M pl scale irow j)).
  Hypothesis (H2 : forall M pl scale irow j, prel (fun _ _ => True) (entry_sum M pl scale irow j) (es' M pl scale irow j)).
  Variable (M : srmat F).
  Hypothesis (Hw : wf_pat M) (Hd : wf_diag M) (Hs : wf_sorted M) (Hv : length (vals M) = nnz M).
  Notation n := (nbrows M).
  Notation N := (nnz M).
  Notation pl := (positions M).
  Notation sc_of us := (if (us : bool) then Some (scaling_list ssqrt M 1) else None).
  Lemma factor_with_ok scale j : scale_ok scale n -> j < N -> kernel_ok 1 (entC M (factor_with es M pl scale)) N (fdep M) j.
  Proof.
    intros Hsc Hj. destruct (scalar_factor_ok M Hw Hd Hs scale j Hv Hsc Hj) as [_ Hk]. split; [exact Hj|].
    eapply wp_prel; [apply (factor_alike entry_sum es H1)| |exact Hk]. intros a b E Ha. congruence.
  Qed.
  Lemma res_with_ok scale ilu : scale_ok scale n -> length ilu = N -> nok (nonlinear_res_with sabs es' ms M pl scale ilu) (fun _ => True).
  Proof.
    intros Hsc Hl. unfold nonlinear_res_with.
    apply (rows_reduce_ok M Hw (fun irow j acc => let! (r, _) := exec ilu (res_entry_with es' ms M pl scale irow j) in Ok (acc + sabs r)%s)).
    intros i j acc Hj. destruct (res_entry_ok M scale Hw Hd Hs ilu i j Hv Hsc Hl Hj) as (r & Hr).
    assert (exists r', exec ilu (res_entry_with es' ms M pl scale i j) = Ok (r', ilu)) as (r' & ->); [|exact I].
    revert Hr. pose proof (res_alike entry_sum es' msub_plain ms H2 M pl scale i j) as H.
    change (res_entry_with entry_sum msub_plain M pl scale i j) with (res_entry M pl scale i j) in H.
    revert H. generalize (res_entry M pl scale i j) (res_entry_with es' ms M pl scale i j). clear. intros p.
    assert (forall m m' a p', prel (fun _ _ : F => True) p p' -> exec m p = Ok (a, m') -> exists a', exec m p' = Ok (a', m')) as H.
    { induction p as [b|l k IH|l v k IH|]; intros m m' a [b'|l' k'|l' v' k'|]; simpl; try tauto; try discriminate.
      - intros _ E. injection E as <- <-. eauto.
      - intros [<- H]. destruct (get m l) as [v| | |]; simpl; try discriminate. apply IH, H.
      - intros (<- & <- & H). destruct (set m l v) as [m1| | |]; simpl; try discriminate. apply IH, H. }
    intros p' Hp Hr. eapply H; eauto.
  Qed.
  Lemma compute_with_sequential us : exists lu, consistent 1 M (factor_with es M pl (sc_of us)) lu /\
    (forall x', consistent 1 M (factor_with es M pl (sc_of us)) x' -> x' = lu) /\
    forall k chunk ut nthr finit info gi gs, length gi = N -> length gs = n ->
      (finit = INIT_F_SGS -> us = true -> sgs_reads_ok M) ->
      1 <= k -> 1 <= chunk -> ut = false \/ nthr = 1 ->
      nok (compute_with ssqrt sabs es es' ms k chunk ut nthr finit us info gi gs M ilu_new)
          (fun '(st', i) => st' = IluState (Some lu) (sc_of us) pl /\ (i = None <-> info = false)).
  Proof.
    assert (scale_ok (sc_of us) n) as Hsc by apply sc_of_ok1.
    destruct (factor_sequential 1 M (factor_with es M pl (sc_of us)) Hw Hd Hs) as (lu & Hc & Hrun & Hu).
    { intros j Hj. apply factor_with_ok; auto. }
    exists lu. split; [exact Hc|]. split; [exact Hu|]. pose proof Hc as [Hlu _]. rewrite Nat.mul_1_r in Hlu.
    intros k chunk ut nthr finit info gi gs Hgi Hgs Hsgs Hk Hch Hseq. unfold compute_with. simpl st_ilu. cbv iota.
    eapply nok_bind with (P := fun x => x = (vals M, setup_scale us gs, pl)).
    { eapply nok_bind; [apply nok_lift, (ok_browptr' M Hw n (fun x => x = N)); [lia|reflexivity]|]. intros len ->.
      eapply nok_bind; [apply vcopy_spec; lia|]. intros o ->.
      eapply nok_bind with (P := fun x => x = pl); [apply nok_lift; rewrite compute_ILU_positions_spec by auto; reflexivity|]. intros p ->.
      apply nok_ret. reflexivity. }
    intros ? ->. eapply nok_bind with (P := fun '(l, s, i) => l = lu /\ s = sc_of us /\ (i = None <-> info = false)).
    2: { intros [[l s] i] (-> & -> & Hi). apply nok_ret. auto. }
    unfold factorize_with. eapply nok_bind.
    { apply (scale_det ssqrt M Hw Hd 1 (setup_scale us gs)); [lia|]. destruct us; simpl; [lia|exact I]. }
    intros sc ->. assert (the_scale ssqrt M 1 (setup_scale us gs) = sc_of us) as -> by (destruct us; reflexivity).
    eapply nok_bind with (P := fun o => length o = N).
    { assert (finit = INIT_F_NONE \/ finit <> INIT_F_NONE) as [->|Hne] by (destruct finit; auto; right; discriminate); [apply nok_ret; exact Hv|].
      destruct (fact_init_det M Hw Hd finit (sc_of us)) as (o & Ho & _ & Hdet); auto.
      - destruct finit; simpl; auto. destruct us; auto.
      - eapply nok_mono; [apply Hdet, Hv|]. intros x ->. exact Ho. }
    intros o Ho. eapply nok_bind with (P := fun _ => True); [destruct info; [apply res_with_ok; auto|apply nok_ret; auto]|]. intros r0 _.
    eapply nok_bind with (P := fun x => x = lu).
    { unfold execute_with. rewrite omp_region_seq by done. apply nok_lift. rewrite Hrun by lia. reflexivity. }
    intros l ->. eapply nok_bind with (P := fun _ => True); [destruct info; [apply res_with_ok; auto|apply nok_ret; auto]|]. intros r1 _.
    apply nok_ret. split; [reflexivity|]. split; [reflexivity|]. destruct info; split; congruence.
  Qed.
End Sequential.
