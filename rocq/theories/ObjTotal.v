(** * ObjTotal: with valid arguments, compute(), apply() and apply_relax() return, with any number of threads and any scalars *)
From Coq Require Import ZArith.
From Verif Require Import Base Alg SRMatrix Async AsyncTheory AsyncSystem AsyncSweeps Nd Reduction Kernels KernelFacts IluApply IluApplyFacts TriSpec TriFacts
  IluApplyMain IluPattern IluPatternFacts IluFactor IluFactorFacts IluFactorInit IluFactorMain Sgs SgsFacts SgsProofs SgsForms SgsMain Memory Levels PropLevels ColMat ColMatFacts ColMatRing ReorderFacts PropColMat Coo CooFacts PropIluInit
  PropIluFactor PropIluApply Factory Petsc Objects ObjFacts ObjHistory ObjAlg.
Open Scope nat_scope.

(** the choices with which the classes work: a positive chunk size; an initial guess that is implemented for the factorisation and
    the triangular solves *)
Definition usable (p : prec) : Prop :=
  match p with
  | PJacobi _ | PLevelSgs _ | PNone _ => True
  | PChaotic _ _ c | PCscBgs _ c | PSgs _ _ _ c => (0 < c)%Z
  | PIlu sh i => (0 < i_chunk i)%Z /\ i_ainit i <> INIT_A_NONE /\ (sh = Scalar -> i_finit i <> INIT_F_SGS \/ i_scale i = false)
  | PLevelIlu sh i => (0 < i_chunk i)%Z /\ (sh = Scalar -> i_finit i <> INIT_F_SGS \/ i_scale i = false)
  | PReorderedIlu _ => False
  end.

Section Total.
  Context {F : Type} {O : SOps F}.
  Variables (ssqrt sabs : F -> F) (slt : F -> F -> bool) (inv : list F -> list F).
  Implicit Types (M : srmat F) (sh : shape) (st : @pstate F).

  Lemma chunked_pos {B} c (k : nat -> nd B) Q : (0 < c)%Z -> nok (k (Z.to_nat c)) Q -> nok (chunked c k) Q.
  Proof. intros Hc H. unfold chunked. destruct (Z.leb_spec c 0); [lia|exact H]. Qed.
  (** factorising, any number of threads *)
  Lemma ilu_of_total sh i chunk nthr gi gs gd M0 M s : wf_mat M0 -> wf_end M0 -> lawful inv sh -> same_pattern M0 M -> fits sh M ->
    (sh = Scalar -> i_finit i <> INIT_F_SGS \/ i_scale i = false) -> 1 <= nthr -> 1 <= chunk ->
    length gi = nnz M * bsize sh -> length gs = nbrows M * width sh -> length gd = nbrows M * bsize sh ->
    ilu_hist ssqrt sabs inv sh i M0 s -> nok (ilu_compute_of ssqrt sabs inv sh i chunk nthr gi gs gd M s) (fun _ => True).
  Proof.
    intros HM He0 Hl Hp Hf Hsgs Hn Hc L1 L2 L3 Hh. destruct (same_pattern_wf _ _ Hp HM) as (Hw & Hd & Hs). pose proof (same_pattern_end _ _ Hp He0) as He.
    unfold fits in Hf. destruct sh as [|bs so]; cbn [bsize width lawful ilu_hist ilu_compute_of] in *.
    - rewrite !Nat.mul_1_r in *. specialize (Hsgs eq_refl).
      assert (s = ilu_new \/ ready 1 (i_scale i) M 1 s) as Hr.
      { destruct (history_ready ssqrt sabs (i_scale i) M0 s HM Hh) as [Hr|Hr]; [auto|right]. apply (same_pattern_ready M0); auto. }
      assert (exists o, length o = nnz M /\ forall out,
        scalar_ilu0_compute ssqrt sabs (Z.to_nat (i_nbuild i)) chunk (i_tfactor i) nthr (i_finit i) (i_scale i) (i_info i) gi gs M s out <->
        (ndo (ilu, scale, inf) := factorize_from sabs M (Z.to_nat (i_nbuild i)) chunk (i_tfactor i) nthr (i_info i) (if i_scale i then Some (scaling_list ssqrt M 1) else None) o in
         nret (IluState (Some ilu) scale (positions M), inf)) out) as (o & Ho & Hiff).
      { assert (i_finit i = INIT_F_NONE \/ i_finit i <> INIT_F_NONE) as [E|Hne] by (destruct (i_finit i); (left; reflexivity) || (right; discriminate)).
        - rewrite E. destruct (compute_none ssqrt sabs M Hw Hd Hs Hf (i_scale i) (Z.to_nat (i_nbuild i)) chunk (i_tfactor i) nthr (i_info i) gi gs s) as (o & (H1 & _) & H2); auto.
          exists o. auto.
        - destruct (compute_outcomes ssqrt sabs M Hw Hd Hs Hf (i_scale i) (i_finit i) Hne) as (o & H1 & _ & H2).
          { intros E1 E2. destruct Hsgs; congruence. }
          exists o. split; [exact H1|]. intros out. apply H2; auto. }
      eapply nok_iff; [exact Hiff|]. pose proof (sc_of_ok1 ssqrt M (i_scale i)) as Hsc.
      eapply nok_bind; [apply (factorize_from_ok sabs M Hw Hd Hs Hf) with (Q := fun x => length x = nnz M); auto; apply execute_ok; auto|].
      intros [[a b] c] _. apply nok_ret. exact Logic.I.
    - destruct Hl as [Hb Hor]. assert (forall b, length b = bs * bs -> length (inv b) = bs * bs) as Hinv by (intros b Hbl; apply Hor; auto).
      assert (s = ilu_new \/ ready (bs * bs) (i_scale i) M bs s) as Hr.
      { destruct (bhistory_ready ssqrt sabs inv so bs (i_scale i) M0 s HM He0 Hinv Hh) as [Hr|Hr]; [auto|right]. apply (same_pattern_ready M0); auto. }
      assert (exists o, length o = nnz M * (bs * bs) /\ forall out,
        block_ilu0_compute ssqrt sabs inv so bs (Z.to_nat (i_nbuild i)) chunk (i_tfactor i) nthr (i_finit i) (i_scale i) (i_info i) gi gs gd M s out <->
        (ndo (ilu, scale, inf) := bfactorize_from sabs M inv so bs (Z.to_nat (i_nbuild i)) chunk (i_tfactor i) nthr (i_info i) (if i_scale i then Some (scaling_list ssqrt M bs) else None) o in
         nret (IluState (Some ilu) scale (positions M), inf)) out) as (o & Ho & Hiff).
      { assert (i_finit i = INIT_F_NONE \/ i_finit i <> INIT_F_NONE) as [E|Hne] by (destruct (i_finit i); (left; reflexivity) || (right; discriminate)).
        - rewrite E. destruct (bcompute_none ssqrt sabs inv so bs M Hw Hd Hs Hf (i_scale i) (Z.to_nat (i_nbuild i)) chunk (i_tfactor i) nthr (i_info i) gi gs gd s) as (o & H1 & H2); auto.
          exists o. auto.
        - destruct (bcompute_outcomes ssqrt sabs inv so bs M Hw Hd Hs He Hf Hinv (i_scale i) (i_finit i) Hne) as (o & H1 & _ & H2).
          exists o. split; [exact H1|]. intros out. apply H2; auto. }
      eapply nok_iff; [exact Hiff|]. pose proof (sc_of_ok ssqrt bs M (i_scale i)) as Hsc.
      eapply nok_bind; [apply (bfactorize_from_ok sabs M Hw Hd Hs inv so bs Hinv Hf) with (Q := fun x => length x = nnz M * (bs * bs)); auto; apply bexecute_ok; auto|].
      intros [[a b] c] _. apply nok_ret. exact Logic.I.
  Qed.

  (** ** Kernels of both kinds *)
  Lemma fgs_of_ok sh M d z i : wf_mat M -> fits sh M -> length d = nbrows M * bsize sh -> length z = nbrows M * width sh -> i < nbrows M ->
    kernel_ok (width sh) (fgs_of sh M d z) (nbrows M) (lowdep M) i.
  Proof.
    intros (Hw & Hd & Hs) Hf Hdl Hz Hi. unfold fits in Hf. destruct sh; cbn [bsize width fgs_of] in *.
    - apply scalar_fgsC_ok; auto; lia.
    - apply block_fgsC_ok; auto.
  Qed.
  Lemma bgs_of_ok sh M d z i : wf_mat M -> fits sh M -> length d = nbrows M * bsize sh -> length z = nbrows M * width sh -> i < nbrows M ->
    kernel_ok (width sh) (bgs_of sh M d z) (nbrows M) (updep M) i.
  Proof.
    intros (Hw & Hd & Hs) Hf Hdl Hz Hi. unfold fits in Hf. destruct sh; cbn [bsize width bgs_of] in *.
    - apply scalar_bgsC_ok; auto; lia.
    - apply block_bgsC_ok; auto.
  Qed.
  Lemma relax_of_ok sh M d z i : wf_mat M -> fits sh M -> length d = nbrows M * bsize sh -> length z = nbrows M * width sh -> i < nbrows M ->
    kernel_ok (width sh) (relax_of sh M d z) (nbrows M) (offdep M) i.
  Proof.
    intros (Hw & Hd & Hs) Hf Hdl Hz Hi. unfold fits in Hf. destruct sh; cbn [bsize width relax_of] in *.
    - apply scalar_relaxC_ok; auto; lia.
    - apply block_relaxC_ok; auto.
  Qed.

  (** ** Drivers *)
  Lemma seq_queue k chunk n r0 : 1 <= chunk -> r0 ∈ concat (nowait_sweeps k chunk (seq 0 n)) -> r0 < n.
  Proof. intros Hc H0. rewrite concat_nowait in H0 by done. apply elem_of_concat_replicate, elem_of_seq in H0. lia. Qed.
  Lemma rev_queue k chunk n r0 : 1 <= chunk -> r0 ∈ concat (nowait_sweeps k chunk (rev (seq 0 n))) -> r0 < n.
  Proof.
    intros Hc H0. rewrite concat_nowait in H0 by done. apply elem_of_concat_replicate in H0.
    rewrite <- reverse_rev, elem_of_reverse, elem_of_seq in H0. lia.
  Qed.
  Lemma sgs_apply_total w n (fgsC bgsC : list F -> nat -> @P F (list F)) ldep udep ytemp k chunk nthr init r z :
    (forall z i, length z = n * w -> i < n -> kernel_ok w (fgsC z) n ldep i) ->
    (forall z i, length z = n * w -> i < n -> kernel_ok w (bgsC z) n udep i) ->
    length r = n * w -> length ytemp = n * w -> length z = n * w -> 1 <= chunk -> 1 <= nthr ->
    nok (sgs_apply w n fgsC bgsC ytemp k chunk nthr init r z) (fun '(_, z') => length z' = n * w).
  Proof.
    intros Hf Hb Hr Hy Hz Hc Hn. unfold sgs_apply.
    apply (nok_bind _ _ (fun y => length y = n * w)).
    { destruct init; [| |apply nok_ret, Hy]; (eapply nok_mono; [apply fill_spec, Hy|intros ? ->; apply replicate_length]). }
    intros y Hy'. apply (nok_bind _ _ (fun y => length y = n * w)).
    { destruct (exec_seq_total w (fgsC r) n ldep (concat (nowait_sweeps k chunk (seq 0 n))) y) as (ms & He & Hms); [|exact Hy'|].
      - intros r0 H0. apply Hf; [exact Hr|]. exact (seq_queue _ _ _ _ Hc H0).
      - apply nok_lift. rewrite He. exact Hms. }
    intros y1 Hy1. apply (nok_bind _ _ (fun z => length z = n * w)).
    { destruct init; [| |apply nok_ret, Hz].
      - eapply nok_mono; [apply fill_spec, Hz|intros ? ->; apply replicate_length].
      - eapply nok_mono; [apply (vcopy_spec (n * w)); auto|intros ? ->; exact Hy1]. }
    intros z2 Hz2. eapply nok_bind.
    { apply (region_total w n _ udep); [exact Hn|exact Hz2|]. intros r0 H0. apply Hb; [exact Hy1|]. exact (rev_queue _ _ _ _ Hc H0). }
    intros z3 Hz3. apply nok_ret. exact Hz3.
  Qed.
  Lemma chaotic_total w n (C : list F -> nat -> @P F (list F)) dep k chunk nthr b x :
    (forall z i, length z = n * w -> i < n -> kernel_ok w (C z) n dep i) ->
    length b = n * w -> length x = n * w -> 1 <= chunk -> 1 <= nthr ->
    nok (chaotic_relax w n C k chunk nthr b x) (fun x' => length x' = n * w).
  Proof.
    intros Hk Hb Hx Hc Hn. unfold chaotic_relax. apply (region_total w n _ dep); [exact Hn|exact Hx|].
    intros r0 H0. apply Hk; [exact Hb|]. exact (seq_queue _ _ _ _ Hc H0).
  Qed.
  Lemma sgs_relax_total w n (C : list F -> nat -> @P F (list F)) dep k chunk nthr b x :
    (forall z i, length z = n * w -> i < n -> kernel_ok w (C z) n dep i) ->
    length b = n * w -> length x = n * w -> 1 <= chunk -> 1 <= nthr ->
    nok (sgs_relax w n C k chunk nthr b x) (fun x' => length x' = n * w).
  Proof.
    intros Hk Hb Hx Hc Hn. unfold sgs_relax. apply (region_total w n _ dep); [exact Hn|exact Hx|].
    intros r0 H0. apply Hk; [exact Hb|]. rewrite sgs_queue in H0 by done. apply elem_of_concat_replicate in H0.
    apply elem_of_app in H0 as [H0|H0]; [|rewrite <- reverse_rev, elem_of_reverse in H0]; apply elem_of_seq in H0; lia.
  Qed.
  Lemma csc_column_total (C : bscmat F) db j temp zz : wf_pat (as_sr C) -> wf_sorted (as_sr C) -> length (cvals C) = nnz (as_sr C) ->
    length db = nbcols C -> (exists d, pos (as_sr C) j j = Some d /\ cdiagind C !! j = Some (Z.of_nat d)) -> j < nbcols C ->
    length temp = nbcols C -> length zz = nbcols C ->
    ok (csc_bgs_column C db j (temp, zz)) (fun '(t, z) => length t = nbcols C /\ length z = nbcols C).
  Proof.
    intros Hw Hs Hv Hdb (d & Hd & Ed) Hj L1 L2. unfold csc_bgs_column.
    apply pos_Some in Hd as Hd'; [|exact Hj]. destruct Hd' as [Hdin Hdcol].
    apply ok_bind with (P := fun _ => True); [apply ok_get_lt; [lia|auto]|]. intros t _. apply ok_bind with (P := fun z => length z = nbcols C).
    { apply ok_set; [lia|]. rewrite insert_length. exact L2. }
    intros z Hz.
    eapply ok_bind; [eapply ok_get; [exact Ed|exact eq_refl]|]. intros ? <-.
    eapply ok_bind; [eapply ok_get; [apply (wf_browptr (as_sr C) j Hw); simpl; lia|exact eq_refl]|]. intros ? <-. rewrite Nat2Z.id.
    apply ok_bind with (P := fun t => length t = nbcols C); [|intros t' Ht'; simpl; auto].
    refine (ok_forl (fun _ (t : list F) => length t = nbcols C) _ _ _ L1 _).
    intros dn ii rest t' E Lt. assert (ii ∈ rev (range (rp (as_sr C) j) d)) as Hii by (rewrite E; apply elem_of_app; right; constructor).
    rewrite <- Permutation_rev in Hii. apply elem_of_range in Hii.
    assert (inrow (as_sr C) j ii) as Hin by (split; [exact Hj|]; destruct Hdin; lia).
    pose proof (inrow_lt _ j ii Hw Hin) as Hlt. pose proof (wf_col _ Hw ii Hlt) as Hcol. simpl in Hcol.
    eapply ok_bind; [eapply ok_get; [apply (wf_bcolind _ ii Hw Hlt)|exact eq_refl]|]. intros ? <-.
    apply ok_bind with (P := fun _ => True); [apply ok_get_lt; [lia|auto]|]. intros v _.
    apply ok_bind with (P := fun _ => True); [apply ok_get_lt; [lia|auto]|]. intros zj _.
    apply ok_bind with (P := fun _ => True); [apply ok_get_lt; [lia|auto]|]. intros di _.
    apply ok_bind with (P := fun _ => True); [apply ok_get_lt; [lia|auto]|]. intros ti _.
    apply ok_set; [lia|]. rewrite insert_length. exact Lt.
  Qed.
  Lemma csc_apply_total (M : srmat F) (C : bscmat F) db k temp r z : wf_mat M -> is_column_form 1 M C -> wf_vals 1 M ->
    length db = nbrows M -> length temp = nbcols C -> length r = nbrows M -> length z = nbrows M ->
    nok (csc_bgs_apply C db (one_thread C k) temp r z) (fun z' => length z' = nbrows M).
  Proof.
    intros (Hw & Hd & Hs) HC Hv Hdb Ht Hr Hz. pose proof (cf_n _ _ _ HC) as En. rewrite <- En in *. unfold csc_bgs_apply.
    assert (forall j, j < nbcols C -> exists d, pos (as_sr C) j j = Some d /\ cdiagind C !! j = Some (Z.of_nat d)) as Hdg.
    { intros j Hj. rewrite En in Hj. pose proof (cf_stored _ _ _ HC j j Hj Hj) as Hst. unfold stored in Hst.
      rewrite (pos_diag M j (sorted_nodup M Hs) Hd Hj) in Hst. destruct (pos (as_sr C) j j) as [d|] eqn:E; [|discriminate].
      exists d. split; [reflexivity|]. rewrite (cf_diag _ _ _ HC j Hj), E. reflexivity. }
    eapply nok_bind with (P := fun t => length t = nbcols C).
    { apply nok_par_for_map with (g := fun _ => s0); [lia| |].
      - intros i s Hi Hl _. apply set_Ok. lia.
      - intros s Hl _ _. lia. }
    clear temp Ht. intros temp Ht. eapply nok_bind with (P := fun '(t, z) => length z = nbcols C).
    { apply nok_nfor with (I := fun _ '(t, z) => length t = nbcols C /\ length z = nbcols C); [lia|auto| |intros [t z0] [_ H]; exact H].
      intros m [t z0] Hm [Lt Lz]. unfold one_thread in *. rewrite replicate_length in Hm.
      eapply nok_bind; [apply nok_lift; eapply ok_get; [apply lookup_replicate_2; lia|exact eq_refl]|]. intros ? <-.
      eapply nok_bind with (P := fun t => length t = nbcols C).
      { apply nok_par_for_map with (g := fun i => (vat r i * vat db i)%s); [lia| |].
        - intros i s Hi Hl _. rewrite !vat_get by lia. cbn [bind]. apply set_Ok. lia.
        - intros s Hl _ _. lia. }
      intros t1 Lt1. apply nok_lift.
      refine (ok_forl (fun _ '(t, z) => length t = nbcols C /\ length z = nbcols C) _ _ (t1, z0) (conj Lt1 Lz) _).
      intros dn j rest [t2 z2] E [L1 L2]. assert (j < nbcols C) as Hj.
      { assert (j ∈ rev (seq 0 (nbcols C))) as Hin by (rewrite E; apply elem_of_app; right; constructor).
        rewrite <- reverse_rev, elem_of_reverse, elem_of_seq in Hin. lia. }
      apply csc_column_total; auto.
      - apply (cf_pat _ _ _ HC).
      - apply (cf_sorted _ _ _ HC).
      - unfold wf_vals in Hv. rewrite (cf_nnz _ _ _ HC), (cf_vals _ _ _ HC). lia. }
    intros [t z1] Hz1. apply nok_ret. exact Hz1.
  Qed.
  Lemma jacobi_rows_total w n (C : list F -> nat -> @P F (list F)) dep b x xtemp :
    (forall i, i < n -> kernel_ok w (C b) n dep i) -> length x = n * w -> length xtemp = n * w ->
    nok (par_for 0 n (jacobi_row w C b x) xtemp) (fun xt => length xt = n * w).
  Proof.
    intros Hk Hx Hxt.
    assert (forall i, i < n -> exists u, exec x (C b i) = Ok (u, x) /\ length u = w) as Hrow.
    { intros i Hi. destruct (Hk i Hi) as [_ Hwp]. 
      destruct (wp_det (fun l => l < n * w /\ exists r', dep i r' /\ own w r' l) x (C b i) _ Hwp) as (u & He & Hu & _); [intros l [H _]; lia|]. eauto. }
    apply (nok_par_for_seg n w _ xtemp (fun i => match exec x (C b i) with Ok (u, _) => u | _ => [] end)); [exact Hxt| | |auto].
    - intros i Hi. destruct (Hrow i Hi) as (u & -> & Hu). exact Hu.
    - intros i v' Hi Hv'. unfold jacobi_row. destruct (Hrow i Hi) as (u & -> & Hu). reflexivity.
  Qed.
  Lemma jacobi_diff_total len xtemp x : length xtemp = len -> length x = len ->
    nok (jacobi_diff len xtemp x) (fun '(_, x') => length x' = len).
  Proof.
    intros Ht Hx. unfold jacobi_diff. apply (nok_reduce_shared (fun _ _ => True) sadd (fun _ _ _ _ _ => Logic.I) (fun _ _ _ _ _ _ => Logic.I) (fun _ x' => length x' = len));
      [exact Logic.I|exact Logic.I|exact Hx| |].
    - intros dn l i s x' _ Hi _ _ Hl.
      apply ok_bind with (P := fun _ => True); [apply ok_get_lt; [lia|auto]|]. intros t _.
      apply ok_bind with (P := fun _ => True); [apply ok_get_lt; [lia|auto]|]. intros xi _.
      apply ok_bind with (P := fun x2 => length x2 = len); [apply ok_set; [lia|rewrite insert_length; exact Hl]|]. intros x2 Hx2. split; [exact Logic.I|exact Hx2].
    - intros dn s x' _ _ Hl. exact Hl.
  Qed.
  Lemma jacobi_loop_total w n (C : list F -> nat -> @P F (list F)) dep a b k : forall step ref xtemp x,
    (forall i, i < n -> kernel_ok w (C b) n dep i) -> length x = n * w -> length xtemp = n * w ->
    nok (jacobi_loop ssqrt slt w n C a b k step ref xtemp x) (fun x' => length x' = n * w).
  Proof.
    induction k as [|k IH]; intros step ref xtemp x Hk Hx Hxt; cbn [jacobi_loop]; [apply nok_ret, Hx|].
    eapply nok_bind; [apply (jacobi_rows_total w n C dep); auto|]. intros xt Hxt'. cbn beta in Hxt'. destruct (ctol a).
    - eapply nok_bind; [apply jacobi_diff_total; auto|]. intros [dn x1] Hx1.
      destruct (jacobi_stop _ _ _ _); [apply nok_ret, Hx1|]. apply IH; auto.
    - eapply nok_bind; [apply (vcopy_spec (n * w)); auto|]. intros x1 ->. apply IH; auto.
  Qed.

  (** ** The virtual functions *)
  Lemma compute_total p maxthr M0 nthr g M st : well_equipped inv p M0 -> usable p ->
    1 <= nthr -> same_pattern M0 M -> fits (pshape p) M ->
    (exists pg, st = p_new pg) \/ (exists M1, sane ssqrt sabs inv p maxthr M0 M1 st) ->
    nok (obj_compute ssqrt sabs inv nthr g p M st) (fun _ => True).
  Proof.
    intros (HM0 & Hsym & Heq) Hu Hn Hp Hf Hst. pose proof (same_pattern_wf _ _ Hp HM0) as HM.
    assert (forall M1, same_pattern M0 M1 -> same_pattern M1 M) as Hback.
    { intros M1 H1. apply (same_pattern_trans M1 M0); [apply same_pattern_sym, H1|exact Hp]. }
    assert (forall sh, (forall M1, sane ssqrt sabs inv p maxthr M0 M1 st -> holds_d inv sh M1 st) -> shaped_d sh M st) as Hshaped.
    { intros sh Hd. destruct Hst as [[pg ->]|(M1 & Hs)]; [intros d E; discriminate|].
      apply (shaped_pattern sh M1); [apply Hback, Hs|]. eapply holds_shaped. apply Hd, Hs. }
    assert (forall (m : nd (@pstate F)) Q, nok m Q -> nok (ndo st := m in nret (st, None : option (F * F))) (fun _ => True)) as Hplain.
    { intros m Q Hm. eapply nok_bind; [exact Hm|]. intros s _. apply nok_ret. exact Logic.I. }
    assert (forall sh i (st1 : @pstate F), lawful inv sh -> wf_end M0 -> fits sh M -> (0 < i_chunk i)%Z -> (sh = Scalar -> i_finit i <> INIT_F_SGS \/ i_scale i = false) ->
      ilu_hist ssqrt sabs inv sh i M0 (p_ilu st1) -> nok (ilu_compute ssqrt sabs inv sh i nthr g M st1) (fun _ => True)) as Hilu.
    { intros sh i st1 Hl He Hf1 Hc Hsg Hh. unfold ilu_compute. apply chunked_pos; [exact Hc|].
      apply (nok_bind _ _ (fun _ => True)).
      { destruct (st_ilu (p_ilu st1)), (p_y st1); try (apply nok_ret; exact Logic.I).
        eapply nok_bind; [apply fill_spec, alloc_length|]. intros y _. apply nok_ret. exact Logic.I. }
      intros y _. eapply nok_bind; [apply (ilu_of_total sh i (Z.to_nat (i_chunk i)) nthr _ _ _ M0 M (p_ilu st1)); auto; [lia|apply alloc_length..]|].
      intros [s inf] _. apply nok_ret. exact Logic.I. }
    destruct p as [sh|sh na ch|na ch|sh na ai ch|sh|sh i|sh i|i|bs]; cbn [obj_compute pshape needs_symmetry usable] in *.
    - eapply Hplain, jacobi_compute_ok; auto. apply Hshaped. intros M1 Hs. apply Hs.
    - eapply Hplain, jacobi_compute_ok; auto. apply Hshaped. intros M1 Hs. apply Hs.
    - eapply Hplain, cscbgs_compute_ok; auto.
      destruct Hst as [[pg ->]|(M1 & Hs & _ & Hc)]; [intros d E; discriminate|].
      apply (shaped_pattern _ M1); [apply Hback, Hs|]. apply csc_shaped, Hc.
    - eapply Hplain, sgs_compute_ok; auto; [apply Hshaped; intros M1 Hs; apply Hs|].
      destruct Hst as [[pg ->]|(M1 & Hs & _ & _ & Hy)]; [left; reflexivity|right]. eapply holds_y_pattern; [apply Hback, Hs|exact Hy].
    - eapply Hplain, level_sgs_compute_ok; auto; [eapply sym_pattern_same; eauto|apply Hshaped; intros M1 Hs; apply Hs|].
      destruct Hst as [[pg ->]|(M1 & Hs & _ & _ & Hy & Hl)]; [left; reflexivity|right].
      split; [eapply holds_y_pattern; [apply Hback, Hs|exact Hy]|eapply valid_levels_pattern; [apply Hback, Hs|exact Hl]].
    - destruct Hu as (Hc & _ & Hsg), Heq as [Hl He]. apply Hilu; auto.
      destruct Hst as [[pg ->]|(M1 & Hs & _ & Hi)]; [destruct sh; constructor|apply Hi].
    - destruct Hu as (Hc & Hsg), Heq as [Hl He]. unfold level_ilu_compute.
      apply (nok_bind _ _ (fun st1 => p_ilu st1 = p_ilu st)).
      + destruct (st_ilu (p_ilu st)); [apply nok_ret; reflexivity|].
        destruct HM as (Hw & Hdg & Hss). destruct (C26_valid_levels F M (nbrows M) Hw Hss) as (l' & E & Hv & _); [|eapply sym_pattern_same; eauto|lia|].
        { intros k Hk. rewrite (pos_diag M k (sorted_nodup M Hss) Hdg Hk). discriminate. }
        rewrite E. apply (nok_bind _ _ (fun l => l = l')); [apply nok_lift; simpl; reflexivity|]. intros l _. apply nok_ret. reflexivity.
      + intros st1 E. apply Hilu; auto. rewrite E.
        destruct Hst as [[pg ->]|(M1 & Hs & _ & Hi & _)]; [destruct sh; constructor|apply Hi].
    - contradiction.
    - apply nok_ret. exact Logic.I.
  Qed.

  (** what an ILU object holds *)
  Lemma ilu_members sh i M0 M maxthr st : wf_mat M0 -> wf_end M0 -> lawful inv sh -> same_pattern M0 M ->
    holds_ilu ssqrt sabs inv sh i M0 M maxthr st ->
    exists y lu, p_y st = Some y /\ length y = nbrows M * width sh /\ st_ilu (p_ilu st) = Some lu /\ length lu = nnz M * bsize sh /\
      scale_ok (IluFactor.st_scale (p_ilu st)) (nbrows M * width sh).
  Proof.
    intros HM He Hl Hp (Hh & (y & Ey & Hy) & s1 & gi & gs & gd & nt & inf & _ & _ & _ & _ & _ & _ & Hlast).
    apply (ilu_some ssqrt sabs inv sh i M0) in Hlast.
    assert (exists lu, st_ilu (p_ilu st) = Some lu /\ length lu = nnz M * bsize sh /\ scale_ok (IluFactor.st_scale (p_ilu st)) (nbrows M * width sh)) as (lu & H1 & H2 & H3).
    { destruct sh as [|bs so]; cbn [ilu_hist bsize width lawful] in *.
      - destruct (history_ready ssqrt sabs (i_scale i) M0 _ HM Hh) as [Hr|Hr]; [rewrite Hr in Hlast; contradiction|].
        apply (same_pattern_ready _ _ _ _ _ _ Hp) in Hr. destruct Hr as (lu & E1 & E2 & _ & E3). exists lu. split; [exact E1|]. split; [exact E2|].
        eapply scale_shape_ok; eauto.
      - destruct Hl as [Hb Hor]. destruct (bhistory_ready ssqrt sabs inv so bs (i_scale i) M0 (p_ilu st) HM He) as [Hr|Hr]; [intros b Hbl; apply Hor, Hbl|exact Hh|rewrite Hr in Hlast; contradiction|].
        apply (same_pattern_ready _ _ _ _ _ _ Hp) in Hr. destruct Hr as (lu & E1 & E2 & _ & E3). exists lu. split; [exact E1|]. split; [exact E2|].
        eapply scale_shape_ok; eauto. }
    exists y, lu. auto.
  Qed.
  Lemma apply_total p maxthr M0 M nthr g M1 st r z : well_equipped inv p M0 -> usable p -> sane ssqrt sabs inv p maxthr M0 M st ->
    1 <= nthr -> same_pattern M0 M1 -> fits (pshape p) M1 -> length r = obj_dim p M -> length z = obj_dim p M ->
    (forall na c, p = PCscBgs na c -> nthr = 1) ->
    nok (obj_apply nthr g p M1 st r z) (fun _ => True).
  Proof.
    intros (HM0 & Hsym & Heq) Hu (Hp & Hf & Hst) Hn Hp1 Hf1 Hr Hz Hcsc. pose proof (same_pattern_wf _ _ Hp1 HM0) as HM.
    assert (same_pattern M M1) as Hpp by (apply (same_pattern_trans M M0); [apply same_pattern_sym, Hp|exact Hp1]).
    assert (nbrows M = nbrows M1) as En by (destruct Hpp as (? & _); congruence).
    assert (nnz M = nnz M1) as Enz by (destruct M, M1, Hpp as (? & ? & _); simpl in *; unfold nnz, rp; simpl; congruence).
    unfold obj_dim in *. rewrite En in *.
    assert (forall sh, lawful inv sh -> holds_d inv sh M st -> exists d, p_d st = Some d /\ length d = nbrows M1 * bsize sh) as Hd.
    { intros sh _ (d & E & Hl & _). exists d. rewrite <- En. auto. }
    destruct p as [sh|sh na ch|na ch|sh na ai ch|sh|sh i|sh i|i|bs]; cbn [obj_apply pshape width usable needs_symmetry] in *.
    - destruct (Hd sh Heq Hst) as (d & E & Hl). rewrite E. cbn [member].
      apply (nok_bind _ _ (fun _ => True)); [|intros; apply nok_ret; exact Logic.I]. destruct sh as [|bs so]; cbn [bsize width] in *.
      + eapply nok_mono; [apply jacobi_apply_spec; lia|auto].
      + unfold bjacobi_apply. apply (nok_par_for 0 (nbrows M1) _ z (fun _ z => length z = nbrows M1 * bs)); [exact Hz| |auto].
        intros dn i z' _ Hi _ Hl'.
        apply ok_bind with (P := fun seg => length seg = bs); [apply ok_getseg; nia|]. intros seg Hseg.
        apply ok_bind with (P := fun u => length u = bs); [apply ok_bmatvec; auto; nia|]. intros u Hul.
        unfold setblk. destruct (exec_pwseg u (i * bs) z') as (m' & E' & L' & _); [nia|]. rewrite E'. simpl. lia.
    - destruct (Hd sh Heq Hst) as (d & E & Hl). rewrite E. cbn [member]. apply chunked_pos; [exact Hu|].
      eapply nok_bind; [apply (chaotic_total (width sh) (nbrows M1) _ (offdep M1)); auto; [|lia]|intros; apply nok_ret; exact Logic.I].
      intros z0 i Hz0 Hi. apply relax_of_ok; auto.
    - destruct Hst as (C & Ed & Ec & HC). rewrite Ed, Ec. cbn [member]. apply chunked_pos; [exact Hu|]. rewrite (Hcsc _ _ eq_refl), Nat.eqb_refl.
      pose proof (same_pattern_wf _ _ Hp HM0) as HMM. unfold fits in Hf. cbn [bsize] in Hf.
      eapply nok_bind; [apply (csc_apply_total M C); auto; rewrite ?alloc_length, ?fmap_length, ?seq_length; rewrite ?En; lia|intros; apply nok_ret; exact Logic.I].
    - destruct Hst as [Hhd (y & Ey & Hy)]. destruct (Hd sh Heq Hhd) as (d & E & Hl). rewrite E, Ey. cbn [member]. apply chunked_pos; [exact Hu|]. rewrite En in Hy.
      eapply nok_bind; [apply (sgs_apply_total (width sh) (nbrows M1) _ _ (lowdep M1) (updep M1)); auto; [| |lia]|intros [y' z'] _; apply nok_ret; exact Logic.I].
      + intros z0 i Hz0 Hi. apply fgs_of_ok; auto.
      + intros z0 i Hz0 Hi. apply bgs_of_ok; auto.
    - destruct Hst as (Hhd & (y & Ey & Hy) & Hlev). destruct (Hd sh Heq Hhd) as (d & E & Hl). rewrite E, Ey. cbn [member]. rewrite En in Hy.
      apply (valid_levels_pattern _ _ _ Hpp) in Hlev. destruct (mat_levels M1 _ HM Hlev) as (L1 & L2 & _). destruct (mat_deps M1 HM) as (D1 & D2 & _).
      destruct (level_sgs_spec (width sh) (nbrows M1) (fgs_of sh M1 d) (bgs_of sh M1 d) (lowdep M1) (updep M1)) with (levels := p_levels st) (r := r) as (ys & zs & _ & _ & H); auto.
      + intros z0 i Hz0 Hi. apply fgs_of_ok; auto.
      + intros z0 i Hz0 Hi. apply bgs_of_ok; auto.
      + eapply nok_bind; [apply (H y z nthr); auto|]. intros [y' z'] _. apply nok_ret. exact Logic.I.
    - destruct Hu as (Hc & Hai & _), Heq as [Hl He]. destruct (ilu_members sh i M0 M maxthr st) as (y & lu & E1 & L1 & E2 & L2 & Hsc); auto.
      rewrite En in *. rewrite Enz in L2. unfold ilu_apply. rewrite E1, E2. cbn [member]. apply chunked_pos; [exact Hc|].
      apply (nok_bind _ _ (fun _ => True)); [|intros [a b] _; apply nok_ret; exact Logic.I]. destruct HM as (Hw & Hdg & Hs).
      destruct sh as [|bs so]; cbn [width bsize] in *.
      + apply (ilu0_apply_total 1 (nbrows M1) _ _ (lowdep M1) (updep M1)); auto; [| |lia]; intros z0 k Hz0 Hk; [apply scalar_lowC_ok|apply scalar_upC_ok]; auto; lia.
      + apply (ilu0_apply_total bs (nbrows M1) _ _ (lowdep M1) (updep M1)); auto; [| |lia]; intros z0 k Hz0 Hk; [apply block_lowC_ok|apply block_upC_ok]; auto.
    - destruct Hu as (Hc & _), Heq as [Hl He], Hst as [Hhi Hlev]. destruct (ilu_members sh i M0 M maxthr st) as (y & lu & E1 & L1 & E2 & L2 & Hsc); auto.
      rewrite En in *. rewrite Enz in L2. unfold level_ilu_apply. rewrite E1, E2. cbn [member].
      apply (nok_bind _ _ (fun _ => True)); [|intros [a b] _; apply nok_ret; exact Logic.I].
      apply (valid_levels_pattern _ _ _ Hpp) in Hlev.
      destruct sh as [|bs so]; cbn [width bsize] in *.
      + rewrite !Nat.mul_1_r in *. destruct (C37_scalar_level_apply F O M1 lu (p_levels st) (IluFactor.st_scale (p_ilu st)) r) as (out & H & _); auto.
        eapply nok_mono; [apply H; auto|auto].
      + destruct (C37_block_level_apply F O so bs M1 lu (p_levels st) (IluFactor.st_scale (p_ilu st)) r) as (out & H & _); auto.
        eapply nok_mono; [apply H; auto|auto].
    - contradiction.
    - eapply nok_bind; [apply vcopy_spec; auto|]. intros; apply nok_ret; exact Logic.I.
  Qed.
  (** apply_relax(), where the class has it *)
  Lemma relax_total p maxthr M0 M nthr g M1 st b x : well_equipped inv p M0 -> usable p -> sane ssqrt sabs inv p maxthr M0 M st ->
    1 <= nthr -> same_pattern M0 M1 -> fits (pshape p) M1 -> length b = obj_dim p M -> length x = obj_dim p M -> relaxationAvailable p = true ->
    nok (obj_relax ssqrt slt nthr g p M1 st b x) (fun x' => length x' = obj_dim p M).
  Proof.
    intros (HM0 & Hsym & Heq) Hu (Hp & Hf & Hst) Hn Hp1 Hf1 Hb Hx Hav. pose proof (same_pattern_wf _ _ Hp1 HM0) as HM.
    assert (same_pattern M M1) as Hpp by (apply (same_pattern_trans M M0); [apply same_pattern_sym, Hp|exact Hp1]).
    assert (nbrows M = nbrows M1) as En by (destruct Hpp as (? & _); congruence).
    unfold obj_dim in *. rewrite En in *.
    assert (forall sh, lawful inv sh -> holds_d inv sh M st -> exists d, p_d st = Some d /\ length d = nbrows M1 * bsize sh) as Hd.
    { intros sh _ (d & E & Hl & _). exists d. rewrite <- En. auto. }
    destruct p as [sh|sh na ch|na ch|sh na ai ch|sh|sh i|sh i|i|bs]; cbn [obj_relax pshape usable needs_symmetry] in *; try discriminate.
    - destruct (Hd sh Heq Hst) as (d & E & Hl). rewrite E. cbn [member].
      apply (jacobi_loop_total _ _ _ (offdep M1)); auto; [|apply alloc_length]. intros i Hi. apply relax_of_ok; auto.
    - destruct (Hd sh Heq Hst) as (d & E & Hl). rewrite E. cbn [member]. apply chunked_pos; [exact Hu|].
      apply (chaotic_total (width sh) (nbrows M1) _ (offdep M1)); auto; [|lia]. intros z0 i Hz0 Hi. apply relax_of_ok; auto.
    - destruct Hst as [Hhd _]. destruct (Hd sh Heq Hhd) as (d & E & Hl). rewrite E. cbn [member]. apply chunked_pos; [exact Hu|].
      apply (sgs_relax_total (width sh) (nbrows M1) _ (offdep M1)); auto; [|lia]. intros z0 i Hz0 Hi. apply relax_of_ok; auto.
    - destruct Hst as (Hhd & _ & Hlev). destruct (Hd sh Heq Hhd) as (d & E & Hl). rewrite E. cbn [member].
      apply (valid_levels_pattern _ _ _ Hpp) in Hlev. destruct (mat_levels M1 _ HM Hlev) as (_ & _ & L3). destruct (mat_deps M1 HM) as (_ & _ & D3).
      eapply nok_mono; [apply (level_relax_spec (width sh) (nbrows M1) (relax_of sh M1 d) (offdep M1)); auto|intros x' [H _]; exact H].
      intros z0 i Hz0 Hi. apply relax_of_ok; auto.
  Qed.
End Total.
