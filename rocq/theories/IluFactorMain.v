(** * IluFactorMain: the factorisation functions and the preconditioner objects as a whole *)
From Verif Require Import Base Alg SRMatrix Async AsyncTheory AsyncSystem AsyncSweeps AsyncFlat Nd Reduction Kernels KernelFacts
  Helpers IluPattern IluPatternFacts IluApply IluApplyFacts TriSpec TriFacts IluApplyProofs Sgs SgsFacts SgsForms SgsMain Memory
  Chains IluApplyMain IluFactor IluFactorFacts IluFactorProofs IluFactorInit.

Lemma nok_and {A} (m : nd A) (P Q : A -> Prop) : nok m P -> nok m Q -> nok m (fun a => P a /\ Q a).
Proof.
  intros [H1 H2] [_ H3]. split; [exact H1|]. intros o Ho. specialize (H2 o Ho). specialize (H3 o Ho).
  destruct o; simpl in *; tauto.
Qed.
Lemma nbind_det {A B} (m : nd A) (k : A -> nd B) a :
  nok m (fun x => x = a) -> forall o, nbind m k o <-> k a o.
Proof.
  intros [[x Hx] H] o. split.
  - intros (y & Hy & Hk). specialize (H y Hy). destruct y; simpl in H; try tauto. subst. exact Hk.
  - intros Hk. specialize (H x Hx). destruct x; simpl in H; try tauto. subst. exists (Ok a). auto.
Qed.
Lemma nok_iff {A} (m m' : nd A) Q : (forall o, m o <-> m' o) -> nok m' Q -> nok m Q.
Proof. intros H [[o Ho] H2]. split; [exists o; apply H; exact Ho|]. intros o' Ho'. apply H2, H, Ho'. Qed.
Lemma nbind_ext_l {A B} (m m' : nd A) (k : A -> nd B) :
  (forall o, m o <-> m' o) -> forall o, nbind m k o <-> nbind m' k o.
Proof. intros H o. unfold nbind. split; intros (x & Hx & Hk); exists x; (split; [apply H; exact Hx|exact Hk]). Qed.
Lemma nbind_ext_r {A B} (m : nd A) (k k' : A -> nd B) :
  (forall a, m (Ok a) -> forall o, k a o <-> k' a o) -> forall o, nbind m k o <-> nbind m k' o.
Proof.
  intros H o. unfold nbind. split; intros (x & Hx & Hk); exists x; (split; [exact Hx|]); destruct x; auto; apply (H a Hx); auto.
Qed.

(** ** Sweeps *)
Section Sweeps.
  Context {F : Type} {O : SOps F}.
  Variables (M : srmat F) (scale : option (list F)).
  Hypothesis (Hw : wf_pat M) (Hd : wf_diag M) (Hs : wf_sorted M).
  Notation n := (nbrows M).
  Notation N := (nnz M).
  Notation pl := (positions M).
  Section SweepS.
    Hypothesis (Hv : length (vals M) = N) (Hsc : scale_ok scale n).
    Lemma Hks j : j < N -> kernel_ok 1 (entC M (factor_entry M pl scale)) N (fdep M) j.
    Proof. apply scalar_factor_ok; auto. Qed.
    (** what any number of sequential sweeps gives, from any contents *)
    Lemma execute_sequential : exists lu, consistent 1 M (factor_entry M pl scale) lu /\
      (forall ilu k chunk usethreads nthr, length ilu = N -> 1 <= k -> 1 <= chunk -> usethreads = false \/ nthr = 1 ->
         nok (execute_ilu0 M pl scale k chunk usethreads nthr ilu) (fun x => x = lu)) /\
      (forall ilu, consistent 1 M (factor_entry M pl scale) ilu -> ilu = lu).
    Proof.
      destruct (factor_sequential 1 M (factor_entry M pl scale) Hw Hd Hs Hks) as (lu & Hc & Hrun & Hu).
      exists lu. split; [exact Hc|]. split; [|exact Hu]. intros ilu k chunk ut nthr Hl Hk Hch Hseq.
      unfold execute_ilu0. rewrite omp_region_seq by done. apply nok_lift. rewrite Hrun by lia. reflexivity.
    Qed.
    Lemma execute_ok k chunk usethreads nthr ilu : 1 <= nthr -> 1 <= chunk -> length ilu = N ->
      nok (execute_ilu0 M pl scale k chunk usethreads nthr ilu) (fun x => length x = N).
    Proof.
      intros Hn Hc Hl. eapply nok_mono; [apply (factor_region_ok 1 M); auto; [apply Hks|lia]|]. simpl. intros; lia.
    Qed.
    Lemma execute_stable k chunk usethreads nthr ilu : 1 <= nthr -> 1 <= chunk ->
      consistent 1 M (factor_entry M pl scale) ilu ->
      nok (execute_ilu0 M pl scale k chunk usethreads nthr ilu) (fun x => x = ilu).
    Proof. intros Hn Hc Hl. apply (factor_region_stable 1 M); auto. apply Hks. Qed.
  End SweepS.
  Section SweepB.
    Variables (inv : list F -> list F) (so : storage) (bs : nat).
    Notation bb := (bs * bs).
    Hypothesis (Hinv : forall b, length b = bb -> length (inv b) = bb).
    Hypothesis (Hv : length (vals M) = N * bb) (Hsc : scale_ok scale (n * bs)).
    Lemma Hkb j : j < N -> kernel_ok bb (entC M (bfactor_entry inv so bs M pl scale)) N (fdep M) j.
    Proof. apply block_factor_ok; auto. Qed.
    Lemma bexecute_sequential : exists lu, consistent bb M (bfactor_entry inv so bs M pl scale) lu /\
      (forall ilu k chunk usethreads nthr, length ilu = N * bb -> 1 <= k -> 1 <= chunk -> usethreads = false \/ nthr = 1 ->
         nok (bilu0_sweeps inv so bs M pl scale k chunk usethreads nthr ilu) (fun x => x = lu)) /\
      (forall ilu, consistent bb M (bfactor_entry inv so bs M pl scale) ilu -> ilu = lu).
    Proof.
      destruct (factor_sequential bb M (bfactor_entry inv so bs M pl scale) Hw Hd Hs Hkb) as (lu & Hc & Hrun & Hu).
      exists lu. split; [exact Hc|]. split; [|exact Hu]. intros ilu k chunk ut nthr Hl Hk Hch Hseq.
      unfold bilu0_sweeps. rewrite omp_region_seq by done. apply nok_lift. rewrite Hrun by lia. reflexivity.
    Qed.
    Lemma bexecute_ok k chunk usethreads nthr ilu : 1 <= nthr -> 1 <= chunk -> length ilu = N * bb ->
      nok (bilu0_sweeps inv so bs M pl scale k chunk usethreads nthr ilu) (fun x => length x = N * bb).
    Proof. intros Hn Hc Hl. apply (factor_region_ok bb M); auto; apply Hkb. Qed.
    Lemma bexecute_stable k chunk usethreads nthr ilu : 1 <= nthr -> 1 <= chunk ->
      consistent bb M (bfactor_entry inv so bs M pl scale) ilu ->
      nok (bilu0_sweeps inv so bs M pl scale k chunk usethreads nthr ilu) (fun x => x = ilu).
    Proof. intros Hn Hc Hl. apply (factor_region_stable bb M); auto; apply Hkb. Qed.
  End SweepB.
End Sweeps.

(** ** The residual *)
Section Residual.
  Context {F : Type} {O : SOps F} {R : CRing F}.
  Add Ring Fr : cring.
  Variables (sabs : F -> F) (M : srmat F) (scale : option (list F)).
  Hypothesis (Hw : wf_pat M) (Hd : wf_diag M) (Hs : wf_sorted M).
  Notation n := (nbrows M).
  Notation N := (nnz M).
  Notation pl := (positions M).

  (** a parallel reduction over the rows that adds a value for each entry *)
  Lemma rows_reduce (g : nat -> F) (body : nat -> nat -> F -> res F) :
    (forall i j acc, inrow M i j -> body i j acc = Ok (acc + g j)%s) ->
    nok (reduce_for s0 sadd 0 n (fun irow acc =>
      let! rs := get (browptr M) irow in
      let! re := get (browptr M) (irow + 1) in
      for_ rs re (body irow) acc) s0) (fun x => x = lsum g (seq 0 N)).
  Proof.
    intros Hb. set (h := fun o : option nat => match o with None => s0 | Some i => lsum g (ents M i) end).
    apply (nok_reduce (fun l acc => acc = lsum h l)).
    - intros l l' s Hp ->. apply lsum_perm, Hp.
    - intros l1 l2 x y -> ->. rewrite lsum_app. reflexivity.
    - reflexivity.
    - simpl. ring.
    - intros l i acc Hi ->.
      eapply ok_bind; [apply (ok_browptr' M Hw i (fun x => x = rp M i)); [lia|reflexivity]|]. intros rs ->.
      eapply ok_bind; [apply (ok_browptr' M Hw (i + 1) (fun x => x = rp M (i + 1))); [lia|reflexivity]|]. intros re ->.
      pose proof (rp_mono M i (i + 1) Hw ltac:(lia) ltac:(lia)).
      apply (ok_for_post _ _ _ _ (fun j acc => acc = (lsum h l + lsum g (range (rp M i) j))%s)); [lia| | |].
      + rewrite range_same. simpl. ring.
      + intros j acc Hj ->. rewrite Hb by (split; [lia|auto]). simpl. rewrite lsum_snoc_range by lia. ring.
      + intros acc ->. rewrite lsum_app. simpl. change (lsum g (ents M i)) with (lsum g (range (rp M i) (rp M (i + 1)))). ring.
    - intros acc ->. rewrite <- (flat_all M Hw). simpl. unfold range. rewrite Nat.sub_0_r.
      assert (forall l, lsum h (Some <$> l) = lsum g (flat (ents M) l)) as E.
      { induction l as [|i l IH]; [reflexivity|]. unfold flat in *. cbn [fmap list_fmap map concat]. simpl. rewrite lsum_app, <- IH. reflexivity. }
      rewrite <- E. ring.
  Qed.
  Section ResS.
    Variable ilu : list F.
    Hypothesis (Hv : length (vals M) = N) (Hsc : scale_ok scale n) (Hl : length ilu = N).
    Notation A := (scaled_mat scale (dense M)).
    Notation B := (entry M ilu).
    Definition residual_sum : F :=
      lsum (fun j => sabs (A (rowof M j) (col M j) - mprod n (unitlower B) (upper B) (rowof M j) (col M j))%s) (seq 0 N).
    Lemma nonlinear_res_val : nok (nonlinear_res sabs M pl scale ilu) (fun x => x = residual_sum).
    Proof.
      unfold nonlinear_res, residual_sum.
      apply (rows_reduce _ (fun irow j acc => let! (r, _) := exec ilu (res_entry M pl scale irow j) in Ok (acc + sabs r)%s)).
      intros i j acc Hj. pose proof (inrow_lt M i j Hw Hj) as HjN.
      rewrite <- (rowof_inrow M i j Hw Hj). rewrite (exec_res_entry M Hw Hd Hs scale ilu) by done. reflexivity.
    Qed.
  End ResS.
  Section ResB.
    Variables (so : storage) (bs : nat) (ilu : list F).
    Notation bb := (bs * bs).
    Hypothesis (Hv : length (vals M) = N * bb) (Hsc : scale_ok scale (n * bs)) (Hl : length ilu = N * bb).
    Notation A := (scaled_mat scale (bdense so bs M)).
    Notation B := (bentry so bs M ilu).
    Definition bresidual_sum : F :=
      lsum (fun j => bsum bs (fun p => bsum bs (fun q => sabs (
        A (rowof M j * bs + p) (col M j * bs + q) -
        mprod (n * bs) (bunitlower bs B) (bupper bs B B) (rowof M j * bs + p) (col M j * bs + q))%s))) (seq 0 N).
    Lemma block_norm_val b : length b = bb -> block_norm sabs so bs b = Ok (bsum bs (fun p => bsum bs (fun q => sabs (bl so bs b p q)))).
    Proof.
      intros Hb. assert (ok (block_norm sabs so bs b) (fun x => x = bsum bs (fun p => bsum bs (fun q => sabs (bl so bs b p q))))) as H.
      { unfold block_norm.
        apply (ok_for_post _ _ _ _ (fun k x => x = bsum k (fun p => bsum bs (fun q => sabs (bl so bs b p q))))); [lia|reflexivity| |auto].
        intros p acc Hp ->. rewrite Nat.add_comm. cbn [bsum Nat.add].
        apply (ok_for_post _ _ _ _ (fun k x => x = (bsum p (fun p => bsum bs (fun q => sabs (bl so bs b p q))) + bsum k (fun q => sabs (bl so bs b p q)))%s)); [lia| | |auto].
        - simpl. ring.
        - intros k acc Hk ->. pose proof (lay_lt so bs p k ltac:(lia) ltac:(lia)). rewrite vat_get by lia. simpl.
          rewrite Nat.add_comm. simpl. rewrite bl_vat. ring. }
      apply ok_inv in H as (x & Hx & ->). exact Hx.
    Qed.
    Lemma bnonlinear_res_val : nok (bnonlinear_res sabs so bs M pl scale ilu) (fun x => x = bresidual_sum).
    Proof.
      unfold bnonlinear_res, bresidual_sum.
      apply (rows_reduce _ (fun irow j acc => let! (r, _) := exec ilu (bres_entry so bs M pl scale irow j) in
        let! x := block_norm sabs so bs r in Ok (acc + x)%s)).
      intros i j acc Hj. pose proof (inrow_lt M i j Hw Hj) as HjN.
      rewrite <- (rowof_inrow M i j Hw Hj).
      destruct (bres_entry_val so bs M Hw Hd Hs scale ilu Hv Hsc Hl j HjN) as (b & -> & Hbl & Hbv). cbn [bind].
      rewrite block_norm_val by done. cbn [bind]. do 2 f_equal.
      apply bsum_ext. intros p Hp. apply bsum_ext. intros q Hq. rewrite Hbv by done. reflexivity.
    Qed.
  End ResB.
End Residual.
(** without laws: the residuals can be computed *)
Section ResSafe.
  Context {F : Type} {O : SOps F}.
  Variables (sabs : F -> F) (M : srmat F) (scale : option (list F)).
  Hypothesis (Hw : wf_pat M) (Hd : wf_diag M) (Hs : wf_sorted M).
  Notation n := (nbrows M).
  Notation N := (nnz M).
  Notation pl := (positions M).
  Lemma rows_reduce_ok (body : nat -> nat -> F -> res F) :
    (forall i j acc, inrow M i j -> ok (body i j acc) (fun _ => True)) ->
    nok (reduce_for s0 sadd 0 n (fun irow acc =>
      let! rs := get (browptr M) irow in
      let! re := get (browptr M) (irow + 1) in
      for_ rs re (body irow) acc) s0) (fun _ => True).
  Proof.
    intros Hb. apply (nok_reduce (fun _ _ => True)); auto. intros dn i acc Hi _.
    eapply ok_bind; [apply (ok_browptr' M Hw i (fun x => x = rp M i)); [lia|reflexivity]|]. intros rs ->.
    eapply ok_bind; [apply (ok_browptr' M Hw (i + 1) (fun x => x = rp M (i + 1))); [lia|reflexivity]|]. intros re ->.
    pose proof (rp_mono M i (i + 1) Hw ltac:(lia) ltac:(lia)).
    apply (ok_for_post _ _ _ _ (fun _ _ => True)); auto. intros j acc' Hj _. apply Hb. split; [lia|auto].
  Qed.
  Lemma exec_ok {A} (m : list F) (p : @P F A) (Q : A -> Prop) :
    wp (fun l _ => l < length m) nowr p Q -> exists a, exec m p = Ok (a, m) /\ Q a.
  Proof.
    intros H. destruct (exec_wp m p Q) as (a & He & Ha).
    - eapply wp_mono; [exact H| | |auto|auto].
      + intros l [v Hl]. destruct (lookup_lt_is_Some_2 m l Hl) as [x Hx]. eauto.
      + intros l v Hl _. apply lookup_lt_Some in Hl. exact Hl.
    - eauto.
  Qed.
  Lemma res_entry_ok ilu i j : length (vals M) = N -> scale_ok scale n -> length ilu = N -> inrow M i j ->
    exists r, exec ilu (res_entry M pl scale i j) = Ok (r, ilu).
  Proof.
    intros Hv Hsc Hl Hij. pose proof (inrow_lt M i j Hw Hij) as Hj. rewrite <- (rowof_inrow M i j Hw Hij).
    destruct (exec_ok ilu (res_entry M pl scale (rowof M j) j) (fun _ => True)) as (r & Hr & _); [|eauto].
    unfold res_entry, entry_sum.
    apply wp_bind, wp_bind, wp_plift. eapply ok_mono; [apply ok_scaled_entry; auto|]. intros sum _.
    apply wp_bind, wp_plift, ok_pl; [lia|].
    apply wp_bind, wp_plift, ok_pl; [lia|].
    assert (forall j', fdep M j j' -> j' < length ilu) as HD by (intros j' H; pose proof (fdep_lt M Hw Hd Hs j j' Hj H); lia).
    eapply wp_pfor_post with (I := fun _ _ => True); [rewrite (allterms_next M j); lia|auto| |].
    - intros k s' Hk _. destruct (pl_loop M j k Hj Hk) as (a & b & Ha & Hb & Hab).
      destruct (tms_elem M _ _ _ _ Hab) as [Hfa Hfb].
      apply wp_bind, wp_plift. eapply ok_get; [exact Ha|].
      apply wp_bind, wp_plift. eapply ok_get; [exact Hb|].
      apply wp_bind, wp_pread; [exists s'; apply HD; auto|]. intros x _.
      apply wp_bind, wp_pread; [exists s'; apply HD; auto|]. intros y _. exact I.
    - intros s' _. apply wp_bind, wp_plift. eapply ok_get; [apply wf_bcolind; auto|].
      apply wp_bind, wp_pread; [exists s'; lia|]. intros x _.
      destruct (Nat.ltb_spec (col M j) (rowof M j)) as [Hlt|Hge]; [|exact I].
      apply wp_bind, wp_plift. apply (ok_diagind M Hd); [apply (wf_col M Hw j Hj)|].
      apply wp_bind, wp_pread; [exists s'; apply HD; right; right; auto|]. intros dv _. exact I.
  Qed.
  Lemma nonlinear_res_ok ilu : length (vals M) = N -> scale_ok scale n -> length ilu = N ->
    nok (nonlinear_res sabs M pl scale ilu) (fun _ => True).
  Proof.
    intros Hv Hsc Hl. unfold nonlinear_res.
    apply (rows_reduce_ok (fun irow j acc => let! (r, _) := exec ilu (res_entry M pl scale irow j) in Ok (acc + sabs r)%s)).
    intros i j acc Hj. destruct (res_entry_ok ilu i j Hv Hsc Hl Hj) as (r & ->). exact I.
  Qed.
  Section ResSafeB.
  Variables (so : storage) (bs : nat).
  Notation bb := (bs * bs).
  Lemma bres_entry_ok ilu i j : length (vals M) = N * bb -> scale_ok scale (n * bs) -> length ilu = N * bb -> inrow M i j ->
    exists r, exec ilu (bres_entry so bs M pl scale i j) = Ok (r, ilu) /\ length r = bb.
  Proof.
    intros Hv Hsc Hl Hij. pose proof (inrow_lt M i j Hw Hij) as Hj. rewrite <- (rowof_inrow M i j Hw Hij).
    apply (exec_ok ilu (bres_entry so bs M pl scale (rowof M j) j) (fun r => length r = bb)).
    unfold bres_entry, block_sum.
    apply wp_bind, wp_bind, wp_plift. eapply ok_mono; [apply ok_scaled_block; auto|]. intros sum Hsum.
    apply wp_bind, wp_plift, ok_pl; [lia|].
    apply wp_bind, wp_plift, ok_pl; [lia|].
    assert (forall j' e, fdep M j j' -> e < bb -> j' * bb + e < length ilu) as HD.
    { intros j' e H He. pose proof (fdep_lt M Hw Hd Hs j j' Hj H). nia. }
    eapply wp_pfor_post with (I := fun _ s => length s = bb); [rewrite (allterms_next M j); lia|auto| |].
    - intros k s' Hk Hs'. destruct (pl_loop M j k Hj Hk) as (a & b & Ha & Hb & Hab).
      destruct (tms_elem M _ _ _ _ Hab) as [Hfa Hfb].
      apply wp_bind, wp_plift. eapply ok_get; [exact Ha|].
      apply wp_bind, wp_plift. eapply ok_get; [exact Hb|].
      apply wp_bind. eapply wp_post; [apply (wp_pbmatmul so bs (fun l => l < length ilu)); intros; apply HD; auto|].
      intros c Hc. simpl. apply vsub_length; auto.
    - intros s' Hs'. apply wp_bind, wp_plift. eapply ok_get; [apply wf_bcolind; auto|].
      destruct (Nat.ltb_spec (col M j) (rowof M j)) as [Hlt|Hge].
      + apply wp_bind, wp_plift. apply (ok_diagind M Hd); [apply (wf_col M Hw j Hj)|].
        apply wp_bind. eapply wp_post; [apply (wp_pbmatmul so bs (fun l => l < length ilu)); intros|].
        * nia.
        * apply HD; [right; right|]; auto.
        * intros c Hc. simpl. apply vsub_length; auto.
      + apply wp_bind. eapply wp_post; [apply (wp_preadblk bs (fun l => l < length ilu)); intros; nia|].
        intros c Hc. simpl. apply vsub_length; auto.
  Qed.
  Lemma bnonlinear_res_ok ilu : length (vals M) = N * bb -> scale_ok scale (n * bs) -> length ilu = N * bb ->
    nok (bnonlinear_res sabs so bs M pl scale ilu) (fun _ => True).
  Proof.
    intros Hv Hsc Hl. unfold bnonlinear_res.
    apply (rows_reduce_ok (fun irow j acc => let! (r, _) := exec ilu (bres_entry so bs M pl scale irow j) in
      let! x := block_norm sabs so bs r in Ok (acc + x)%s)).
    intros i j acc Hj. destruct (bres_entry_ok ilu i j Hv Hsc Hl Hj) as (r & -> & Hr). cbn [bind].
    eapply ok_bind with (P := fun _ => True); [|intros x _; exact I].
    unfold block_norm. apply (ok_for_post _ _ _ _ (fun _ _ => True)); [lia|auto| |auto]. intros p a Hp _.
    apply (ok_for_post _ _ _ _ (fun _ _ => True)); [lia|auto| |auto]. intros q' a' Hq _.
    pose proof (lay_lt so bs p q' ltac:(lia) ltac:(lia)). rewrite vat_get by lia. exact I.
  Qed.
  End ResSafeB.
End ResSafe.

(** ** Scalar factorisation and compute *)
Section Compute.
  Context {F : Type} {O : SOps F}.
  Variables (ssqrt sabs : F -> F) (M : srmat F).
  Hypothesis (Hw : wf_pat M) (Hd : wf_diag M) (Hs : wf_sorted M).
  Notation n := (nbrows M).
  Notation N := (nnz M).
  Notation pl := (positions M).
  (** the scaling vector used *)
  Definition the_scale bs (scale : option (list F)) : option (list F) :=
    match scale with Some _ => Some (scaling_list ssqrt M bs) | None => None end.
  Lemma the_scale_ok bs scale : scale_ok (the_scale bs scale) (n * bs).
  Proof. destruct scale; simpl; [apply scaling_list_length|exact I]. Qed.
  Lemma scale_det bs scale : length (vals M) = N * (bs * bs) -> scale_ok scale (n * bs) ->
    nok (match scale with Some s => ndo s := getScalingVector ssqrt bs M s in nret (Some s) | None => nret None end)
        (fun x => x = the_scale bs scale).
  Proof.
    intros Hv Hsc. destruct scale as [s|]; simpl.
    - eapply nok_bind; [apply getScalingVector_spec; auto|]. intros s' ->. apply nok_ret. reflexivity.
    - apply nok_ret. reflexivity.
  Qed.

  Section S.
  Hypothesis (Hv : length (vals M) = N).
  (** the outcomes of scalar_ilu0_factorize, initialisation and scaling done *)
  Definition factorize_from k chunk usethreads nthr info sc ilu : nd (list F * option (list F) * option (F * F)) :=
    ndo r0 := if (info : bool) then nonlinear_res sabs M pl sc ilu else nret s0 in
    ndo ilu := execute_ilu0 M pl sc k chunk usethreads nthr ilu in
    ndo r1 := if info then nonlinear_res sabs M pl sc ilu else nret s0 in
    nret (ilu, sc, if info then Some (r0, r1) else None).
  Lemma factorize_init finit scale : init_ok M finit (the_scale 1 scale) -> scale_ok scale n ->
    exists o, length o = N /\ (forall k, k < N -> o !! k = Some (init_entry M finit (the_scale 1 scale) k)) /\
      forall k chunk usethreads nthr info ilu, length ilu = N ->
      forall out, scalar_ilu0_factorize ssqrt sabs M pl k chunk usethreads nthr finit info ilu scale out <->
        factorize_from k chunk usethreads nthr info (the_scale 1 scale) o out.
  Proof.
    intros Hi Hsc. pose proof (the_scale_ok 1 scale) as Hsc'. rewrite Nat.mul_1_r in Hsc'.
    destruct (fact_init_det M Hw Hd finit (the_scale 1 scale) Hi Hv Hsc') as (o & H1 & H2 & H3).
    exists o. split; [exact H1|]. split; [exact H2|]. intros k chunk ut nthr info ilu Hl out.
    unfold scalar_ilu0_factorize. rewrite (nbind_det _ _ (the_scale 1 scale)).
    - rewrite (nbind_det _ _ o) by auto. reflexivity.
    - apply scale_det; [lia|]. rewrite Nat.mul_1_r. exact Hsc.
  Qed.
  Lemma factorize_none scale : scale_ok scale n ->
    forall k chunk usethreads nthr info ilu, 
      forall out, scalar_ilu0_factorize ssqrt sabs M pl k chunk usethreads nthr INIT_F_NONE info ilu scale out <->
        factorize_from k chunk usethreads nthr info (the_scale 1 scale) ilu out.
  Proof.
    intros Hsc k chunk ut nthr info ilu out.
    unfold scalar_ilu0_factorize. rewrite (nbind_det _ _ (the_scale 1 scale)).
    - rewrite (nbind_det _ _ ilu) by (apply nok_ret; reflexivity). reflexivity.
    - apply scale_det; [lia|]. rewrite Nat.mul_1_r. exact Hsc.
  Qed.
  Lemma factorize_from_ok k chunk usethreads nthr (info : bool) sc ilu (Q : list F -> Prop) : scale_ok sc n -> length ilu = N ->
    (forall x, Q x -> length x = N) ->
    nok (execute_ilu0 M pl sc k chunk usethreads nthr ilu) Q ->
    nok (factorize_from k chunk usethreads nthr info sc ilu)
      (fun '(lu, sc', i) => Q lu /\ sc' = sc /\ (i = None <-> info = false)).
  Proof.
    intros Hsc Hl HQ He. unfold factorize_from.
    eapply nok_bind with (P := fun _ => True); [destruct info; [apply nonlinear_res_ok; auto|apply nok_ret; auto]|]. intros r0 _.
    eapply nok_bind; [exact He|]. intros lu Hlu.
    eapply nok_bind with (P := fun _ => True); [destruct info; [apply nonlinear_res_ok; auto|apply nok_ret; auto]|]. intros r1 _.
    apply nok_ret. split; [exact Hlu|]. split; [reflexivity|]. destruct info; split; congruence.
  Qed.
  (** the object after setup *)
  Definition setup_scale (usescaling : bool) (gs : list F) : option (list F) := if usescaling then Some gs else None.
  Lemma compute_new k chunk usethreads nthr finit usescaling info gi gs : length gi = N ->
    forall out, scalar_ilu0_compute ssqrt sabs k chunk usethreads nthr finit usescaling info gi gs M ilu_new out <->
      (ndo (ilu, scale, i) := scalar_ilu0_factorize ssqrt sabs M pl k chunk usethreads nthr finit info (vals M) (setup_scale usescaling gs) in
       nret (IluState (Some ilu) scale pl, i)) out.
  Proof.
    intros Hl out. unfold scalar_ilu0_compute. simpl st_ilu. cbv iota.
    rewrite (nbind_det _ _ (vals M, setup_scale usescaling gs, pl)).
    - reflexivity.
    - eapply nok_bind; [apply nok_lift, (ok_browptr' M Hw n (fun x => x = N)); [lia|reflexivity]|]. intros len ->.
      eapply nok_bind; [apply vcopy_spec; lia|]. intros o ->.
      eapply nok_bind with (P := fun x => x = pl); [apply nok_lift; rewrite compute_ILU_positions_spec by auto; reflexivity|]. intros p ->.
      apply nok_ret. reflexivity.
  Qed.
  Lemma compute_old k chunk usethreads nthr finit usescaling info gi gs st ilu : st_ilu st = Some ilu -> st_plist st = pl ->
    forall out, scalar_ilu0_compute ssqrt sabs k chunk usethreads nthr finit usescaling info gi gs M st out <->
      (ndo (ilu, scale, i) := scalar_ilu0_factorize ssqrt sabs M pl k chunk usethreads nthr finit info ilu (st_scale st) in
       nret (IluState (Some ilu) scale pl, i)) out.
  Proof.
    intros Hi Hp out. unfold scalar_ilu0_compute. rewrite Hi, Hp. cbv iota.
    rewrite (nbind_det _ _ (ilu, st_scale st, pl)) by (apply nok_ret; reflexivity). reflexivity.
  Qed.
  End S.
  Section B.
  Variables (inv : list F -> list F) (so : storage) (bs : nat).
  Notation bb := (bs * bs).
  Hypothesis (Hinv : forall b, length b = bb -> length (inv b) = bb).
  Hypothesis (Hv : length (vals M) = N * bb).
  Definition bfactorize_from k chunk usethreads nthr info sc ilu : nd (list F * option (list F) * option (F * F)) :=
    ndo r0 := if (info : bool) then bnonlinear_res sabs so bs M pl sc ilu else nret s0 in
    ndo ilu := bilu0_sweeps inv so bs M pl sc k chunk usethreads nthr ilu in
    ndo r1 := if info then bnonlinear_res sabs so bs M pl sc ilu else nret s0 in
    ndo ilu := invert_diag inv bs M ilu in
    nret (ilu, sc, if info then Some (r0, r1) else None).
  Lemma bfactorize_init finit scale : finit <> INIT_F_NONE -> wf_end M -> scale_ok scale (n * bs) ->
    exists o, length o = N * bb /\ (forall k, k < N -> blk bb o k = binit inv so bs M finit (the_scale bs scale) k) /\
      forall k chunk usethreads nthr info dblks ilu, length dblks = n * bb -> length ilu = N * bb ->
      forall out, block_ilu0_factorize ssqrt sabs inv so bs M pl k chunk usethreads nthr finit info dblks ilu scale out <->
        bfactorize_from k chunk usethreads nthr info (the_scale bs scale) o out.
  Proof.
    intros Hi He Hsc. pose proof (the_scale_ok bs scale) as Hsc'.
    destruct (bfact_init_det inv so bs M Hw Hd Hinv (the_scale bs scale) Hv Hsc' finit Hi He) as (o & H1 & H2 & H3).
    exists o. split; [exact H1|]. split; [exact H2|]. intros k chunk ut nthr info dblks ilu Hdl Hl out.
    unfold block_ilu0_factorize. rewrite (nbind_det _ _ (the_scale bs scale)).
    - rewrite (nbind_det _ _ o) by auto. reflexivity.
    - apply scale_det; auto.
  Qed.
  Lemma bfactorize_none scale : scale_ok scale (n * bs) ->
    forall k chunk usethreads nthr info dblks ilu,
      forall out, block_ilu0_factorize ssqrt sabs inv so bs M pl k chunk usethreads nthr INIT_F_NONE info dblks ilu scale out <->
        bfactorize_from k chunk usethreads nthr info (the_scale bs scale) ilu out.
  Proof.
    intros Hsc k chunk ut nthr info dblks ilu out.
    unfold block_ilu0_factorize. rewrite (nbind_det _ _ (the_scale bs scale)).
    - rewrite (nbind_det _ _ ilu) by (apply nok_ret; reflexivity). reflexivity.
    - apply scale_det; auto.
  Qed.
  Lemma invert_det ilu : length ilu = N * bb -> exists o, length o = N * bb /\
    (forall k, k < N -> blk bb o k = inverted inv bs M ilu k) /\ nok (invert_diag inv bs M ilu) (fun x => x = o).
  Proof.
    intros Hl. destruct (blocks_det bb N (inverted inv bs M ilu) (fun _ => invert_diag inv bs M ilu)) as (o & H1 & H2 & H3).
    - intros _ _. apply invert_diag_blk; auto.
    - intros k Hk. unfold inverted. pose proof (blk_length bb ilu k ltac:(nia)). destruct (_ =? _); auto.
    - exists o. split; [exact H1|]. split; [exact H2|]. apply (H3 ilu Hl).
  Qed.
  Lemma bfactorize_from_ok k chunk usethreads nthr (info : bool) sc ilu (Q : list F -> Prop) : scale_ok sc (n * bs) -> length ilu = N * bb ->
    (forall x, Q x -> length x = N * bb) ->
    nok (bilu0_sweeps inv so bs M pl sc k chunk usethreads nthr ilu) Q ->
    nok (bfactorize_from k chunk usethreads nthr info sc ilu)
      (fun '(lu, sc', i) => length lu = N * bb /\
        (exists x, Q x /\ forall k, k < N -> blk bb lu k = inverted inv bs M x k) /\ sc' = sc /\ (i = None <-> info = false)).
  Proof.
    intros Hsc Hl HQ He. unfold bfactorize_from.
    eapply nok_bind with (P := fun _ => True); [destruct info; [apply bnonlinear_res_ok; auto|apply nok_ret; auto]|]. intros r0 _.
    eapply nok_bind; [exact He|]. intros lu Hlu.
    eapply nok_bind with (P := fun _ => True); [destruct info; [apply bnonlinear_res_ok; auto|apply nok_ret; auto]|]. intros r1 _.
    eapply nok_bind; [apply invert_diag_blk; auto|]. intros lu' [Hx1 Hx2].
    apply nok_ret. split; [exact Hx1|]. split; [eauto|]. split; [reflexivity|]. destruct info; split; congruence.
  Qed.
  Lemma bcompute_new k chunk usethreads nthr finit usescaling info gi gs dblks : length gi = N * bb ->
    forall out, block_ilu0_compute ssqrt sabs inv so bs k chunk usethreads nthr finit usescaling info gi gs dblks M ilu_new out <->
      (ndo (ilu, scale, i) := block_ilu0_factorize ssqrt sabs inv so bs M pl k chunk usethreads nthr finit info dblks (vals M) (setup_scale usescaling gs) in
       nret (IluState (Some ilu) scale pl, i)) out.
  Proof.
    intros Hl out. unfold block_ilu0_compute. simpl st_ilu. cbv iota.
    rewrite (nbind_det _ _ (vals M, setup_scale usescaling gs, pl)).
    - reflexivity.
    - eapply nok_bind; [apply nok_lift, (ok_browptr' M Hw n (fun x => x = N)); [lia|reflexivity]|]. intros len ->.
      eapply nok_bind; [apply vcopy_spec; lia|]. intros o ->.
      eapply nok_bind with (P := fun x => x = pl); [apply nok_lift; rewrite compute_ILU_positions_spec by auto; reflexivity|]. intros p ->.
      apply nok_ret. reflexivity.
  Qed.
  Lemma bcompute_old k chunk usethreads nthr finit usescaling info gi gs dblks st ilu : st_ilu st = Some ilu -> st_plist st = pl ->
    forall out, block_ilu0_compute ssqrt sabs inv so bs k chunk usethreads nthr finit usescaling info gi gs dblks M st out <->
      (ndo (ilu, scale, i) := block_ilu0_factorize ssqrt sabs inv so bs M pl k chunk usethreads nthr finit info dblks ilu (st_scale st) in
       nret (IluState (Some ilu) scale pl, i)) out.
  Proof.
    intros Hi Hp out. unfold block_ilu0_compute. rewrite Hi, Hp. cbv iota.
    rewrite (nbind_det _ _ (ilu, st_scale st, pl)) by (apply nok_ret; reflexivity). reflexivity.
  Qed.
  End B.
End Compute.

(** ** Histories of one preconditioner object *)
Section History.
  Context {F : Type} {O : SOps F}.
  Variables (ssqrt sabs : F -> F).

  Lemma nbind_Ok {A B} (m : nd A) (k : A -> nd B) b : nbind m k (Ok b) -> exists a, m (Ok a) /\ k a (Ok b).
  Proof. intros (x & Hx & Hk). destruct x; try discriminate. eauto. Qed.
  Lemma scale_outcome bs M scale : wf_pat M -> wf_diag M -> length (vals M) = nnz M * (bs * bs) -> scale_ok scale (nbrows M * bs) ->
    forall x, (match scale with Some s => ndo s := getScalingVector ssqrt bs M s in nret (Some s) | None => nret None end) (Ok x) ->
    x = the_scale ssqrt M bs scale.
  Proof. intros Hw Hd Hv Hsc x Hx. apply (proj2 (scale_det ssqrt M Hw Hd bs scale Hv Hsc) _ Hx). Qed.

  (** what an object holds after its first compute *)
  Definition scale_shape (us : bool) (scale : option (list F)) (len : nat) : Prop :=
    match scale with Some s => us = true /\ length s = len | None => us = false end.
  Lemma scale_shape_ok us scale len : scale_shape us scale len -> scale_ok scale len.
  Proof. destruct scale; simpl; tauto. Qed.
  Lemma scale_shape_the us scale M bs : scale_shape us scale (nbrows M * bs) ->
    the_scale ssqrt M bs scale = if us then Some (scaling_list ssqrt M bs) else None.
  Proof. destruct scale as [s|]; simpl; [intros [-> _]|intros ->]; reflexivity. Qed.
  Lemma setup_shape (us : bool) (gs : list F) len : length gs = len -> scale_shape us (setup_scale us gs) len.
  Proof. destruct us; simpl; auto. Qed.
  Definition ready (w : nat) (us : bool) (M : srmat F) (bs : nat) (st : ilu_state) : Prop :=
    exists ilu, st_ilu st = Some ilu /\ length ilu = nnz M * w /\ st_plist st = positions M /\
      scale_shape us (st_scale st) (nbrows M * bs).

  Section S.
  Variable M : srmat F.
  Hypothesis (Hw : wf_pat M) (Hd : wf_diag M) (Hs : wf_sorted M) (Hv : length (vals M) = nnz M).
  Notation n := (nbrows M).
  Notation N := (nnz M).
  Notation pl := (positions M).
  Lemma factorize_Ok_init k chunk ut nthr finit info ilu scale r : scale_ok scale n ->
    scalar_ilu0_factorize ssqrt sabs M pl k chunk ut nthr finit info ilu scale (Ok r) ->
    finit = INIT_F_NONE \/ init_ok M finit (the_scale ssqrt M 1 scale).
  Proof.
    intros Hsc H. unfold scalar_ilu0_factorize in H. apply nbind_Ok in H as (sc & Hx & H).
    apply (scale_outcome 1) in Hx; [|auto|auto|lia|rewrite Nat.mul_1_r; auto]. subst sc.
    apply nbind_Ok in H as (o & H & _). destruct finit; simpl; auto. right.
    destruct (the_scale ssqrt M 1 scale) as [s|] eqn:E; [|exact I]. intros i j Hij Hlt.
    destruct (decide (dg M (col M j) < n)) as [|Hge]; [assumption|exfalso].
    assert (length s = n) as Hsl.
    { pose proof (the_scale_ok ssqrt M 1 scale) as Hx. rewrite E, Nat.mul_1_r in Hx. exact Hx. }
    exact (fact_init_sgs_oob M Hw Hd s ilu i j Hsl Hij Hlt ltac:(lia) _ H o eq_refl).
  Qed.
  Lemma factorize_Ok k chunk ut nthr finit info ilu scale lu sc i : scale_ok scale n -> 1 <= nthr -> 1 <= chunk -> length ilu = N ->
    scalar_ilu0_factorize ssqrt sabs M pl k chunk ut nthr finit info ilu scale (Ok (lu, sc, i)) ->
    length lu = N /\ sc = the_scale ssqrt M 1 scale.
  Proof.
    intros Hsc Hn Hc Hl H. pose proof (the_scale_ok ssqrt M 1 scale) as Hsc'. rewrite Nat.mul_1_r in Hsc'.
    assert (exists o, length o = N /\ factorize_from sabs M k chunk ut nthr info (the_scale ssqrt M 1 scale) o (Ok (lu, sc, i))) as (o & Hol & Ho).
    { destruct (factorize_Ok_init _ _ _ _ _ _ _ _ _ Hsc H) as [->|Hi].
      - exists ilu. split; [exact Hl|]. apply (factorize_none ssqrt sabs M Hw Hd Hv scale Hsc). exact H.
      - destruct (factorize_init ssqrt sabs M Hw Hd Hv finit scale Hi Hsc) as (o & H1 & _ & H3).
        exists o. split; [exact H1|]. apply (H3 k chunk ut nthr info ilu Hl). exact H. }
    pose proof (factorize_from_ok sabs M Hw Hd Hs Hv k chunk ut nthr info _ o (fun x => length x = N) Hsc' Hol ltac:(auto)
      (execute_ok M _ Hw Hd Hs Hv Hsc' k chunk ut nthr o Hn Hc Hol)) as [_ Hx].
    destruct (Hx _ Ho) as (Hx1 & Hx2 & _). auto.
  Qed.
  Lemma compute_ready us k chunk ut nthr finit info gi gs st st' i :
    st = ilu_new \/ ready 1 us M 1 st -> 1 <= nthr -> 1 <= chunk -> length gi = N -> length gs = n ->
    scalar_ilu0_compute ssqrt sabs k chunk ut nthr finit us info gi gs M st (Ok (st', i)) -> ready 1 us M 1 st'.
  Proof.
    intros Hst Hn Hc Hgi Hgs H.
    assert (exists ilu scale, length ilu = N /\ scale_shape us scale n /\
      (ndo (ilu, scale, i) := scalar_ilu0_factorize ssqrt sabs M pl k chunk ut nthr finit info ilu scale in
       nret (IluState (Some ilu) scale pl, i)) (Ok (st', i))) as (ilu & scale & Hl & Hsh & Hf).
    { destruct Hst as [->|(ilu & Hi & Hl & Hp & Hsh)].
      - exists (vals M), (setup_scale us gs). split; [exact Hv|]. split; [apply setup_shape; auto|].
        apply (compute_new ssqrt sabs M Hw Hd Hs Hv k chunk ut nthr finit us info gi gs Hgi). exact H.
      - exists ilu, (st_scale st). split; [lia|]. split; [rewrite Nat.mul_1_r in Hsh; exact Hsh|].
        apply (compute_old ssqrt sabs M k chunk ut nthr finit us info gi gs st ilu Hi Hp). exact H. }
    apply nbind_Ok in Hf as ([[lu sc] i'] & Hf & E). injection E as -> ->.
    apply factorize_Ok in Hf as [Hx1 ->]; auto; [|eapply scale_shape_ok; eauto].
    exists lu. split; [reflexivity|]. split; [lia|]. split; [reflexivity|].
    simpl st_scale. rewrite (scale_shape_the us) by (rewrite Nat.mul_1_r; exact Hsh).
    destruct us; simpl; [|reflexivity]. split; [reflexivity|]. apply scaling_list_length.
  Qed.
  (** outcomes of compute, for an object that has been used or not *)
  Lemma compute_outcomes us finit : finit <> INIT_F_NONE -> (finit = INIT_F_SGS -> us = true -> sgs_reads_ok M) ->
    exists o, length o = N /\
      (forall j, j < N -> o !! j = Some (init_entry M finit (if us then Some (scaling_list ssqrt M 1) else None) j)) /\
      forall k chunk ut nthr info gi gs st, st = ilu_new \/ ready 1 us M 1 st -> length gi = N -> length gs = n ->
      forall out, scalar_ilu0_compute ssqrt sabs k chunk ut nthr finit us info gi gs M st out <->
        (ndo (ilu, scale, i) := factorize_from sabs M k chunk ut nthr info (if us then Some (scaling_list ssqrt M 1) else None) o in
         nret (IluState (Some ilu) scale pl, i)) out.
  Proof.
    intros Hf Hu. set (sc := if us then Some (scaling_list ssqrt M 1) else None).
    assert (scale_ok sc n) as Hsc.
    { unfold sc. destruct us; simpl; [|exact I]. rewrite scaling_list_length. lia. }
    assert (init_ok M finit sc) as Hi.
    { unfold sc. destruct finit; simpl; auto. destruct us; auto. }
    assert (forall scale, scale_shape us scale n -> the_scale ssqrt M 1 scale = sc) as Hth.
    { intros scale Hsh. apply scale_shape_the. rewrite Nat.mul_1_r. exact Hsh. }
    destruct (fact_init_det M Hw Hd finit sc Hi Hv Hsc) as (o & H1 & H2 & H3).
    exists o. split; [exact H1|]. split; [exact H2|]. intros k chunk ut nthr info gi gs st Hst Hgi Hgs out.
    assert (forall ilu scale, length ilu = N -> scale_shape us scale n ->
      (ndo (ilu, scale, i) := scalar_ilu0_factorize ssqrt sabs M pl k chunk ut nthr finit info ilu scale in
         nret (IluState (Some ilu) scale pl, i)) out <->
      (ndo (ilu, scale, i) := factorize_from sabs M k chunk ut nthr info sc o in
         nret (IluState (Some ilu) scale pl, i)) out) as Hgen.
    { intros ilu scale Hl Hsh. apply nbind_ext_l. intros x.
      unfold scalar_ilu0_factorize. rewrite (nbind_det _ _ sc).
      - rewrite (nbind_det _ _ o) by auto. reflexivity.
      - rewrite <- (Hth scale Hsh). apply scale_det; auto; [lia|]. rewrite Nat.mul_1_r. eapply scale_shape_ok; eauto. }
    destruct Hst as [->|(ilu & Hil & Hl & Hp & Hsh)].
    - rewrite (compute_new ssqrt sabs M Hw Hd Hs Hv k chunk ut nthr finit us info gi gs Hgi).
      apply Hgen; [exact Hv|apply setup_shape; auto].
    - rewrite (compute_old ssqrt sabs M k chunk ut nthr finit us info gi gs st ilu Hil Hp).
      apply Hgen; [lia|]. rewrite Nat.mul_1_r in Hsh. exact Hsh.
  Qed.
  (** the same without initialisation: the result depends on the old contents only
      through the sweeps *)
  Lemma compute_none us k chunk ut nthr info gi gs st : st = ilu_new \/ ready 1 us M 1 st -> length gi = N -> length gs = n ->
    exists ilu, (length ilu = N /\ (st = ilu_new -> ilu = vals M) /\ (forall i, st_ilu st = Some i -> ilu = i)) /\
    forall out, scalar_ilu0_compute ssqrt sabs k chunk ut nthr INIT_F_NONE us info gi gs M st out <->
        (ndo (ilu, scale, i) := factorize_from sabs M k chunk ut nthr info (if us then Some (scaling_list ssqrt M 1) else None) ilu in
         nret (IluState (Some ilu) scale pl, i)) out.
  Proof.
    intros Hst Hgi Hgs.
    assert (forall out ilu scale, scale_shape us scale n ->
      (ndo (ilu, scale, i) := scalar_ilu0_factorize ssqrt sabs M pl k chunk ut nthr INIT_F_NONE info ilu scale in
         nret (IluState (Some ilu) scale pl, i)) out <->
      (ndo (ilu, scale, i) := factorize_from sabs M k chunk ut nthr info (if us then Some (scaling_list ssqrt M 1) else None) ilu in
         nret (IluState (Some ilu) scale pl, i)) out) as Hgen.
    { intros out ilu scale Hsh. apply nbind_ext_l. intros x.
      rewrite <- (scale_shape_the us scale M 1) by (rewrite Nat.mul_1_r; exact Hsh).
      apply (factorize_none ssqrt sabs M Hw Hd Hv). eapply scale_shape_ok; eauto. }
    destruct Hst as [->|(ilu & Hil & Hl & Hp & Hsh)].
    - exists (vals M). split; [split; [exact Hv|split; [auto|intros i; discriminate]]|]. intros out.
      rewrite (compute_new ssqrt sabs M Hw Hd Hs Hv k chunk ut nthr INIT_F_NONE us info gi gs Hgi).
      apply Hgen. apply setup_shape; auto.
    - exists ilu. split; [split; [lia|split; [intros ->; discriminate|congruence]]|]. intros out.
      rewrite (compute_old ssqrt sabs M k chunk ut nthr INIT_F_NONE us info gi gs st ilu Hil Hp).
      apply Hgen. rewrite Nat.mul_1_r in Hsh. exact Hsh.
  Qed.
  End S.
  Section B.
  Variables (inv : list F -> list F) (so : storage) (bs : nat) (M : srmat F).
  Notation bb := (bs * bs).
  Notation n := (nbrows M).
  Notation N := (nnz M).
  Notation pl := (positions M).
  Hypothesis (Hw : wf_pat M) (Hd : wf_diag M) (Hs : wf_sorted M) (He : wf_end M) (Hv : length (vals M) = N * bb).
  Hypothesis (Hinv : forall b, length b = bb -> length (inv b) = bb).
  Notation sc_of us := (if (us : bool) then Some (scaling_list ssqrt M bs) else None).
  Lemma sc_of_ok us : scale_ok (sc_of us) (n * bs).
  Proof. destruct us; simpl; [apply scaling_list_length|exact I]. Qed.
  Lemma bfactorize_none' us scale : scale_shape us scale (n * bs) ->
    forall k chunk ut nthr info dblks ilu out,
      block_ilu0_factorize ssqrt sabs inv so bs M pl k chunk ut nthr INIT_F_NONE info dblks ilu scale out <->
      bfactorize_from sabs M inv so bs k chunk ut nthr info (sc_of us) ilu out.
  Proof.
    intros Hsh k chunk ut nthr info dblks ilu out. rewrite <- (scale_shape_the us scale M bs Hsh).
    apply bfactorize_none; auto. eapply scale_shape_ok; eauto.
  Qed.
  Lemma bfactorize_init' us finit : finit <> INIT_F_NONE ->
    exists o, length o = N * bb /\ (forall k, k < N -> blk bb o k = binit inv so bs M finit (sc_of us) k) /\
      forall scale, scale_shape us scale (n * bs) ->
      forall k chunk ut nthr info dblks ilu, length dblks = n * bb -> length ilu = N * bb ->
      forall out, block_ilu0_factorize ssqrt sabs inv so bs M pl k chunk ut nthr finit info dblks ilu scale out <->
        bfactorize_from sabs M inv so bs k chunk ut nthr info (sc_of us) o out.
  Proof.
    intros Hf. destruct (bfact_init_det inv so bs M Hw Hd Hinv (sc_of us) Hv (sc_of_ok us) finit Hf He) as (o & H1 & H2 & H3).
    exists o. split; [exact H1|]. split; [exact H2|]. intros scale Hsh k chunk ut nthr info dblks ilu Hdl Hl out.
    unfold block_ilu0_factorize. rewrite (nbind_det _ _ (sc_of us)).
    - rewrite (nbind_det _ _ o) by auto. reflexivity.
    - rewrite <- (scale_shape_the us scale M bs Hsh). apply scale_det; auto. eapply scale_shape_ok; eauto.
  Qed.
  Lemma bcompute_ready us k chunk ut nthr finit info gi gs dblks st st' i :
    st = ilu_new \/ ready bb us M bs st -> 1 <= nthr -> 1 <= chunk -> length gi = N * bb -> length gs = n * bs -> length dblks = n * bb ->
    block_ilu0_compute ssqrt sabs inv so bs k chunk ut nthr finit us info gi gs dblks M st (Ok (st', i)) -> ready bb us M bs st'.
  Proof.
    intros Hst Hn Hc Hgi Hgs Hdl H.
    assert (exists ilu scale, length ilu = N * bb /\ scale_shape us scale (n * bs) /\
      (ndo (ilu, scale, i) := block_ilu0_factorize ssqrt sabs inv so bs M pl k chunk ut nthr finit info dblks ilu scale in
       nret (IluState (Some ilu) scale pl, i)) (Ok (st', i))) as (ilu & scale & Hl & Hsh & Hf).
    { destruct Hst as [->|(ilu & Hi & Hl & Hp & Hsh)].
      - exists (vals M), (setup_scale us gs). split; [exact Hv|]. split; [apply setup_shape; auto|].
        apply (bcompute_new ssqrt sabs M Hw Hd Hs inv so bs Hv k chunk ut nthr finit us info gi gs dblks Hgi). exact H.
      - exists ilu, (st_scale st). split; [lia|]. split; [exact Hsh|].
        apply (bcompute_old ssqrt sabs M inv so bs k chunk ut nthr finit us info gi gs dblks st ilu Hi Hp). exact H. }
    apply nbind_Ok in Hf as ([[lu sc] i'] & Hf & E). injection E as -> ->.
    assert (exists o, length o = N * bb /\ bfactorize_from sabs M inv so bs k chunk ut nthr info (sc_of us) o (Ok (lu, sc, i'))) as (o & Hol & Ho).
    { assert (finit = INIT_F_NONE \/ finit <> INIT_F_NONE) as [->|Hne] by (destruct finit; auto; right; discriminate).
      - exists ilu. split; [exact Hl|]. apply (bfactorize_none' us scale Hsh) in Hf. exact Hf.
      - destruct (bfactorize_init' us finit Hne) as (o & Hx1 & _ & Hx2). exists o. split; [exact Hx1|].
        apply (Hx2 scale Hsh) in Hf; auto. }
    pose proof (bfactorize_from_ok sabs M Hw Hd Hs inv so bs Hinv Hv k chunk ut nthr info (sc_of us) o (fun x => length x = N * bb)
      (sc_of_ok us) Hol ltac:(auto) (bexecute_ok M _ Hw Hd Hs inv so bs Hinv Hv (sc_of_ok us) k chunk ut nthr o Hn Hc Hol)) as [_ Hx].
    destruct (Hx _ Ho) as (Hx1 & _ & Hx2 & _).
    exists lu. split; [reflexivity|]. split; [lia|]. split; [reflexivity|].
    simpl st_scale. rewrite Hx2. destruct us; simpl; [|reflexivity]. split; [reflexivity|]. apply scaling_list_length.
  Qed.
  Lemma bcompute_outcomes us finit : finit <> INIT_F_NONE ->
    exists o, length o = N * bb /\ (forall k, k < N -> blk bb o k = binit inv so bs M finit (sc_of us) k) /\
      forall k chunk ut nthr info gi gs dblks st, st = ilu_new \/ ready bb us M bs st -> length gi = N * bb -> length gs = n * bs -> length dblks = n * bb ->
      forall out, block_ilu0_compute ssqrt sabs inv so bs k chunk ut nthr finit us info gi gs dblks M st out <->
        (ndo (ilu, scale, i) := bfactorize_from sabs M inv so bs k chunk ut nthr info (sc_of us) o in
         nret (IluState (Some ilu) scale pl, i)) out.
  Proof.
    intros Hf. destruct (bfactorize_init' us finit Hf) as (o & H1 & H2 & H3).
    exists o. split; [exact H1|]. split; [exact H2|]. intros k chunk ut nthr info gi gs dblks st Hst Hgi Hgs Hdl out.
    destruct Hst as [->|(ilu & Hil & Hl & Hp & Hsh)].
    - rewrite (bcompute_new ssqrt sabs M Hw Hd Hs inv so bs Hv k chunk ut nthr finit us info gi gs dblks Hgi).
      apply nbind_ext_l. apply H3; auto. apply setup_shape; auto.
    - rewrite (bcompute_old ssqrt sabs M inv so bs k chunk ut nthr finit us info gi gs dblks st ilu Hil Hp).
      apply nbind_ext_l. apply H3; auto.
  Qed.
  Lemma bcompute_none us k chunk ut nthr info gi gs dblks st : st = ilu_new \/ ready bb us M bs st -> length gi = N * bb -> length gs = n * bs ->
    exists ilu, length ilu = N * bb /\
    forall out, block_ilu0_compute ssqrt sabs inv so bs k chunk ut nthr INIT_F_NONE us info gi gs dblks M st out <->
        (ndo (ilu, scale, i) := bfactorize_from sabs M inv so bs k chunk ut nthr info (sc_of us) ilu in
         nret (IluState (Some ilu) scale pl, i)) out.
  Proof.
    intros Hst Hgi Hgs. destruct Hst as [->|(ilu & Hil & Hl & Hp & Hsh)].
    - exists (vals M). split; [exact Hv|]. intros out.
      rewrite (bcompute_new ssqrt sabs M Hw Hd Hs inv so bs Hv k chunk ut nthr INIT_F_NONE us info gi gs dblks Hgi).
      apply nbind_ext_l. apply bfactorize_none'. apply setup_shape; auto.
    - exists ilu. split; [lia|]. intros out.
      rewrite (bcompute_old ssqrt sabs M inv so bs k chunk ut nthr INIT_F_NONE us info gi gs dblks st ilu Hil Hp).
      apply nbind_ext_l. apply bfactorize_none'. exact Hsh.
  Qed.
  (** sequential compute with at least one sweep: one result *)
  Lemma bcompute_sequential us : exists x lu, length x = N * bb /\ length lu = N * bb /\
    consistent bb M (bfactor_entry inv so bs M pl (sc_of us)) x /\
    (forall k, k < N -> blk bb lu k = inverted inv bs M x k) /\
    (forall x', consistent bb M (bfactor_entry inv so bs M pl (sc_of us)) x' -> x' = x) /\
    forall k chunk ut nthr finit info gi gs dblks st, st = ilu_new \/ ready bb us M bs st -> length gi = N * bb -> length gs = n * bs -> length dblks = n * bb ->
      1 <= k -> 1 <= chunk -> ut = false \/ nthr = 1 ->
      nok (block_ilu0_compute ssqrt sabs inv so bs k chunk ut nthr finit us info gi gs dblks M st)
          (fun '(st', i) => st' = IluState (Some lu) (sc_of us) pl /\ (i = None <-> info = false)).
  Proof.
    destruct (bexecute_sequential M (sc_of us) Hw Hd Hs inv so bs Hinv Hv (sc_of_ok us)) as (x & Hx1 & Hx2 & Hx3).
    pose proof Hx1 as [Hxl _]. destruct (invert_det M Hw Hd inv bs Hinv Hv x Hxl) as (lu & Hlu1 & Hlu2 & Hlu3).
    exists x, lu. split; [exact Hxl|]. split; [exact Hlu1|]. split; [exact Hx1|]. split; [exact Hlu2|]. split; [exact Hx3|].
    intros k chunk ut nthr finit info gi gs dblks st Hst Hgi Hgs Hdl Hk Hc Hseq.
    assert (forall o, length o = N * bb -> nok (ndo (ilu, scale, i) := bfactorize_from sabs M inv so bs k chunk ut nthr info (sc_of us) o in
         nret (IluState (Some ilu) scale pl, i)) (fun '(st', i) => st' = IluState (Some lu) (sc_of us) pl /\ (i = None <-> info = false))) as Hgen.
    { intros o Ho. eapply nok_bind.
      - apply (bfactorize_from_ok sabs M Hw Hd Hs inv so bs Hinv Hv k chunk ut nthr info (sc_of us) o (fun y => y = x));
          [apply sc_of_ok|exact Ho|intros y ->; exact Hxl|apply Hx2; auto].
      - intros [[l s] i] (Hl1 & (y & -> & Hy) & -> & Hi). apply nok_ret. split; [|exact Hi].
        assert (l = lu) as ->; [|reflexivity]. apply (blk_eq bb N); auto. intros j Hj. rewrite Hy, Hlu2 by done. reflexivity. }
    assert (finit = INIT_F_NONE \/ finit <> INIT_F_NONE) as [->|Hne] by (destruct finit; auto; right; discriminate).
    - destruct (bcompute_none us k chunk ut nthr info gi gs dblks st Hst Hgi Hgs) as (o & Ho & Hiff).
      eapply nok_iff; [exact Hiff|]. apply Hgen, Ho.
    - destruct (bcompute_outcomes us finit Hne) as (o & Ho & _ & Hiff).
      eapply nok_iff; [intros out; apply Hiff; auto|]. apply Hgen, Ho.
  Qed.
  End B.
  Section S2.
  Variable M : srmat F.
  Hypothesis (Hw : wf_pat M) (Hd : wf_diag M) (Hs : wf_sorted M) (Hv : length (vals M) = nnz M).
  Notation n := (nbrows M).
  Notation N := (nnz M).
  Notation pl := (positions M).
  Notation sc_of us := (if (us : bool) then Some (scaling_list ssqrt M 1) else None).
  Lemma sc_of_ok1 us : scale_ok (sc_of us) n.
  Proof. pose proof (sc_of_ok 1 M us). rewrite Nat.mul_1_r in H. exact H. Qed.
  Lemma compute_sequential us : exists lu, consistent 1 M (factor_entry M pl (sc_of us)) lu /\
    (forall x', consistent 1 M (factor_entry M pl (sc_of us)) x' -> x' = lu) /\
    forall k chunk ut nthr finit info gi gs st, st = ilu_new \/ ready 1 us M 1 st -> length gi = N -> length gs = n ->
      (finit = INIT_F_SGS -> us = true -> sgs_reads_ok M) ->
      1 <= k -> 1 <= chunk -> ut = false \/ nthr = 1 ->
      nok (scalar_ilu0_compute ssqrt sabs k chunk ut nthr finit us info gi gs M st)
          (fun '(st', i) => st' = IluState (Some lu) (sc_of us) pl /\ (i = None <-> info = false)).
  Proof.
    destruct (execute_sequential M (sc_of us) Hw Hd Hs Hv (sc_of_ok1 us)) as (lu & Hx1 & Hx2 & Hx3).
    exists lu. split; [exact Hx1|]. split; [exact Hx3|]. pose proof Hx1 as [Hxl _]. rewrite Nat.mul_1_r in Hxl.
    intros k chunk ut nthr finit info gi gs st Hst Hgi Hgs Hsgs Hk Hc Hseq.
    assert (forall o, length o = N -> nok (ndo (ilu, scale, i) := factorize_from sabs M k chunk ut nthr info (sc_of us) o in
         nret (IluState (Some ilu) scale pl, i)) (fun '(st', i) => st' = IluState (Some lu) (sc_of us) pl /\ (i = None <-> info = false))) as Hgen.
    { intros o Ho. eapply nok_bind.
      - apply (factorize_from_ok sabs M Hw Hd Hs Hv k chunk ut nthr info (sc_of us) o (fun y => y = lu));
          [apply sc_of_ok1|exact Ho|intros y ->; exact Hxl|apply Hx2; auto].
      - intros [[l s] i] (-> & -> & Hi). apply nok_ret. split; [reflexivity|exact Hi]. }
    assert (finit = INIT_F_NONE \/ finit <> INIT_F_NONE) as [->|Hne] by (destruct finit; auto; right; discriminate).
    - destruct (compute_none M Hw Hd Hs Hv us k chunk ut nthr info gi gs st Hst Hgi Hgs) as (o & (Ho & _) & Hiff).
      eapply nok_iff; [exact Hiff|]. apply Hgen, Ho.
    - destruct (compute_outcomes M Hw Hd Hs Hv us finit Hne Hsgs) as (o & Ho & _ & Hiff).
      eapply nok_iff; [intros out; apply Hiff; auto|]. apply Hgen, Ho.
  Qed.
  End S2.
End History.
