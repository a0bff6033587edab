(** * PropIluInit: properties C33 (initial factors), C44 (computing again), and the
      residual reported by compute (C32) *)
From Verif Require Import Base Alg SRMatrix Async AsyncTheory AsyncSystem AsyncSweeps Nd Kernels KernelFacts
  IluPattern IluPatternFacts IluApply TriSpec TriFacts IluApplyFacts IluApplyProofs Chains IluApplyMain Sgs SgsForms SgsMain
  IluFactor IluFactorFacts IluFactorProofs IluFactorInit IluFactorMain PropIluFactor Inst.
From Coq Require Import QArith.Qcanon.
Open Scope nat_scope.

(** ** C33: initial values *)
(** stored entries of [o] have the values [A] *)
Definition stored_values {F} {O : SOps F} (M : srmat F) (o : list F) (A : nat -> nat -> F) : Prop :=
  length o = nnz M /\ forall i c, i < nbrows M -> c < nbrows M -> pos M i c <> None -> entry M o i c = A i c.
Definition bstored_values {F} {O : SOps F} so bs (M : srmat F) (o : list F) (A : nat -> nat -> F) : Prop :=
  length o = nnz M * (bs * bs) /\ forall I J, I < nbrows M * bs -> J < nbrows M * bs ->
    pos M (I / bs) (J / bs) <> None -> bentry so bs M o I J = A I J.

(** original: the (scaled) matrix, bit for bit; no law of arithmetic *)
Theorem C33_original :
  forall (F : Type) (O : SOps F) (M : srmat F) scale ilu,
  wf_mat M -> length (vals M) = nnz M -> scale_ok scale (nbrows M) -> length ilu = nnz M ->
  nok (fact_init M INIT_F_ORIGINAL scale ilu) (fun o => stored_values M o (scaled_mat scale (dense M))).
Proof.
  intros F O M scale ilu (Hw & Hd & Hs) Hv Hsc Hl.
  destruct (fact_init_det M Hw Hd INIT_F_ORIGINAL scale I Hv Hsc) as (o & H1 & H2 & H3).
  eapply nok_mono; [apply H3, Hl|]. intros x ->. split; [exact H1|]. intros i c Hi Hc Hst.
  destruct (pos M i c) as [j|] eqn:E; [|congruence]. unfold scaled_mat. rewrite (dense_pos M i c j E).
  rewrite (entry_pos M o i c j E). pose proof E as E'. apply pos_Some in E' as [Hj Hcol]; [|done].
  rewrite (vat_eq o j _ (H2 j (inrow_lt M i j Hw Hj))). simpl. unfold orig_entry.
  rewrite (rowof_inrow M i j Hw Hj), Hcol. reflexivity.
Qed.
(** none: whatever was there (the previous factors) *)
Theorem C33_none : forall (F : Type) (O : SOps F) (M : srmat F) scale ilu,
  nok (fact_init M INIT_F_NONE scale ilu) (fun o => o = ilu).
Proof. intros. apply nok_ret. reflexivity. Qed.
(** SGS without scaling: L D = the lower triangle of A with D its diagonal, that is
    L = (D + L_A) D^-1; and U = D + U_A *)
Theorem C33_sgs :
  forall (F : Type) (O : SOps F) (R : Field F) (M : srmat F) ilu,
  let n := nbrows M in
  let A := dense M in
  wf_mat M -> length (vals M) = nnz M -> length ilu = nnz M -> (forall i, i < n -> A i i <> s0) ->
  nok (fact_init M INIT_F_SGS None ilu) (fun o =>
    (forall i c, i < n -> c < n -> mprod n (unitlower (entry M o)) (diag A) i c = lower A i c) /\
    (forall i c, i < n -> c < n -> upper (entry M o) i c = upper A i c)).
Proof.
  intros F O R M ilu n A (Hw & Hd & Hs) Hv Hl Hnz.
  pose proof (@cring F O _) as C.
  destruct (fact_init_det M Hw Hd INIT_F_SGS None I Hv I) as (o & H1 & H2 & H3).
  eapply nok_mono; [apply H3, Hl|]. intros x ->.
  assert (forall i c, i < n -> c < n -> entry M o i c = if decide (c < i) then match pos M i c with Some _ => (A i c * (s1 / A c c))%s | None => s0 end else A i c) as He.
  { intros i c Hi Hc. destruct (pos M i c) as [j|] eqn:E.
    - rewrite (entry_pos M o i c j E). pose proof E as E'. apply pos_Some in E' as [Hj Hcol]; [|done].
      rewrite (vat_eq o j _ (H2 j (inrow_lt M i j Hw Hj))). simpl. unfold sgs_entry, orig_entry.
      rewrite (rowof_inrow M i j Hw Hj), Hcol. pose proof (before_diag M i j Hs Hd Hj) as Hb. rewrite Hcol in Hb.
      unfold A. rewrite (dense_pos M i c j E). rewrite (dense_pos M c c _ (pos_diag M c (sorted_nodup M Hs) Hd Hc)).
      destruct (Nat.ltb_spec j (dg M i)), (decide (c < i)); try reflexivity; lia.
    - unfold entry, A, dense. rewrite E. destruct (decide (c < i)); reflexivity. }
  split.
  - intros i c Hi Hc. unfold mprod. rewrite (bsum_single n c); [|done|].
    + unfold diag. rewrite decide_True by done. unfold unitlower, lower.
      destruct (decide (c < i)) as [Hlt|Hge].
      * rewrite decide_True by lia. rewrite He, decide_True by done.
        destruct (pos M i c) eqn:E.
        -- rewrite <- (Ring_theory.Rmul_assoc C). rewrite field_div by (apply Hnz, Hc).
           rewrite (Ring_theory.Rmul_comm C). apply (Ring_theory.Rmul_1_l C).
        -- unfold A, dense. rewrite E. apply smul_0_l.
      * destruct (decide (i = c)) as [->|Hne].
        -- rewrite decide_True by lia. apply (Ring_theory.Rmul_1_l C).
        -- rewrite decide_False by lia. apply smul_0_l.
    + intros k Hk Hne. unfold diag. rewrite decide_False by done.
      rewrite (Ring_theory.Rmul_comm C). apply smul_0_l.
  - intros i c Hi Hc. unfold upper. destruct (decide (i <= c)); [|reflexivity]. rewrite He, decide_False by (done || lia). reflexivity.
Qed.
(** blocks *)
Lemma bent_blk {F} {O : SOps F} so bs (o : list F) j p q : p < bs -> q < bs -> bent so bs o j p q = bl so bs (blk (bs * bs) o j) p q.
Proof.
  intros Hp Hq. pose proof (lay_lt so bs p q Hp Hq). rewrite bent_vat, bl_vat. unfold vat. f_equal.
  rewrite blk_lookup by lia. reflexivity.
Qed.
Section BlockValues.
  Context {F : Type} {O : SOps F} {R : CRing F}.
  Variables (so : storage) (bs : nat) (M : srmat F) (inv : list F -> list F) (scale : option (list F)).
  Hypothesis (HM : wf_mat M) (Hv : length (vals M) = nnz M * (bs * bs)) (Hsc : scale_ok scale (nbrows M * bs)).
  Notation A := (scaled_mat scale (bdense so bs M)).
  Lemma sblock_val i c j p q : i < nbrows M -> pos M i c = Some j -> p < bs -> q < bs ->
    bl so bs (sblock so bs M scale j) p q = A (i * bs + p) (c * bs + q).
  Proof.
    destruct HM as (Hw & Hd & Hs). intros Hi E Hp Hq. apply pos_Some in E as [Hj <-]; [|done].
    destruct (scaled_block_val so bs M Hw Hs scale (vals M) Hv Hsc Hv j (inrow_lt M i j Hw Hj)) as (b & Hb & _ & H).
    unfold sblock. rewrite Hb, H, (rowof_inrow M i j Hw Hj) by done. reflexivity.
  Qed.
  Lemma scaled_unstored i c p q : pos M i c = None -> p < bs -> q < bs -> A (i * bs + p) (c * bs + q) = s0.
  Proof.
    intros E Hp Hq. unfold scaled_mat. rewrite bdense_flat, E by done. destruct scale; [|reflexivity].
    rewrite smul_0_r, smul_0_l. reflexivity.
  Qed.
End BlockValues.
Theorem C33_block_zero_original :
  forall (F : Type) (O : SOps F) (R : CRing F) inv so bs (M : srmat F) scale dblks ilu,
  wf_mat M -> wf_end M -> length (vals M) = nnz M * (bs * bs) -> scale_ok scale (nbrows M * bs) ->
  inverse_oracle so bs inv -> length dblks = nbrows M * (bs * bs) -> length ilu = nnz M * (bs * bs) ->
  nok (bfact_init inv so bs M INIT_F_ZERO scale dblks ilu) (fun o => bstored_values so bs M o (fun _ _ => s0)) /\
  nok (bfact_init inv so bs M INIT_F_ORIGINAL scale dblks ilu) (fun o =>
    bstored_values so bs M o (scaled_mat scale (bdense so bs M))) /\
  nok (bfact_init inv so bs M INIT_F_NONE scale dblks ilu) (fun o => o = ilu).
Proof.
  intros F O R inv so bs M scale dblks ilu HM He Hv Hsc Hor Hdl Hl. pose proof HM as (Hw & Hd & Hs).
  assert (forall b, length b = bs * bs -> length (inv b) = bs * bs) as Hinv by (apply Hor).
  split; [|split; [|apply nok_ret; reflexivity]].
  - destruct (bfact_init_det inv so bs M Hw Hd Hinv scale Hv Hsc INIT_F_ZERO) as (o & H1 & H2 & H3); [discriminate|auto|].
    eapply nok_mono; [apply H3; auto|]. intros x ->. split; [exact H1|]. intros I J HI HJ Hst.
    destruct (unflat bs (nbrows M) I HI) as (i & p & -> & Hi & Hp). destruct (unflat bs (nbrows M) J HJ) as (c & q & -> & Hc & Hq).
    rewrite bentry_flat by done. destruct (pos M i c) as [j|] eqn:E; [|reflexivity].
    apply pos_Some in E as [Hj _]; [|done]. rewrite bent_blk, H2 by (eauto using inrow_lt). simpl. rewrite bl_vat.
    apply vat_eq, lookup_replicate_2. apply lay_lt; auto.
  - destruct (bfact_init_det inv so bs M Hw Hd Hinv scale Hv Hsc INIT_F_ORIGINAL) as (o & H1 & H2 & H3); [discriminate|auto|].
    eapply nok_mono; [apply H3; auto|]. intros x ->. split; [exact H1|]. intros I J HI HJ Hst.
    destruct (unflat bs (nbrows M) I HI) as (i & p & -> & Hi & Hp). destruct (unflat bs (nbrows M) J HJ) as (c & q & -> & Hc & Hq).
    rewrite !flat_div in Hst by done. rewrite bentry_flat by done. destruct (pos M i c) as [j|] eqn:E; [|congruence].
    pose proof E as E'. apply pos_Some in E' as [Hj _]; [|done]. rewrite bent_blk, H2 by (eauto using inrow_lt). simpl.
    apply sblock_val; auto.
Qed.
(** block SGS, scaled or not: L D = block lower triangle with D the block diagonal
    (of the scaled matrix), U = the block upper triangle with the diagonal *)
Theorem C33_block_sgs :
  forall (F : Type) (O : SOps F) (R : CRing F) inv so bs (M : srmat F) scale dblks ilu,
  let n := nbrows M in
  let A := scaled_mat scale (bdense so bs M) in
  let B o := bentry so bs M o in
  wf_mat M -> wf_end M -> length (vals M) = nnz M * (bs * bs) -> scale_ok scale (nbrows M * bs) ->
  inverse_oracle so bs inv -> length dblks = nbrows M * (bs * bs) -> length ilu = nnz M * (bs * bs) ->
  (forall i, i < n -> exists Y, is_inverse bs (dblock bs A i) Y) ->
  nok (bfact_init inv so bs M INIT_F_SGS scale dblks ilu) (fun o =>
    (forall I J, I < n * bs -> J < n * bs -> mprod (n * bs) (bunitlower bs (B o)) (bdiag bs A) I J = blower bs A A I J) /\
    (forall I J, I < n * bs -> J < n * bs -> bupper bs (B o) (B o) I J = bupper bs A A I J)).
Proof.
  intros F O R inv so bs M scale dblks ilu n A B HM He Hv Hsc Hor Hdl Hl Hnz. pose proof HM as (Hw & Hd & Hs).
  assert (forall b, length b = bs * bs -> length (inv b) = bs * bs) as Hinv by (apply Hor).
  destruct (bfact_init_det inv so bs M Hw Hd Hinv scale Hv Hsc INIT_F_SGS) as (o & H1 & H2 & H3); [discriminate|auto|].
  eapply nok_mono; [apply H3; auto|]. intros x ->. clear H3.
  (* the inverses used *)
  assert (forall c, c < n -> is_inverse bs (dblock bs A c) (bl so bs (inv (sblock so bs M scale (dg M c))))) as HI.
  { intros c Hc. destruct (rowof_dg M Hw Hd c Hc) as (_ & _ & Hdl').
    destruct (sblock_ok so bs M Hw scale Hv Hsc (dg M c) Hdl') as [_ Hbl]. destruct (Hor _ Hbl) as [_ Hor'].
    destruct (Hnz c Hc) as (Y & HY).
    assert (forall p q, p < bs -> q < bs -> dblock bs A c p q = bl so bs (sblock so bs M scale (dg M c)) p q) as E.
    { intros p q Hp Hq. unfold dblock, A. symmetry. apply sblock_val; auto. apply pos_diag; auto. apply sorted_nodup, Hs. }
    assert (forall Z, is_inverse bs (dblock bs A c) Z <-> is_inverse bs (bent so bs (sblock so bs M scale (dg M c)) 0) Z) as EE.
    { intros Z. unfold is_inverse, mprod. split; intros H p q Hp Hq; destruct (H p q Hp Hq) as [Ha Hb]; split;
        [rewrite <- Ha|rewrite <- Hb|rewrite <- Ha|rewrite <- Hb]; apply bsum_ext; intros t Ht; rewrite E by done; reflexivity. }
    apply EE. apply (Hor' Y). apply EE, HY. }
  assert (forall i c p q, i < n -> c < n -> p < bs -> q < bs -> B o (i * bs + p) (c * bs + q) =
    if decide (c < i) then bsum bs (fun t => (A (i * bs + p)%nat (c * bs + t)%nat * bl so bs (inv (sblock so bs M scale (dg M c))) t q)%s)
    else A (i * bs + p) (c * bs + q)) as HB.
  { intros i c p q Hi Hc Hp Hq. unfold B. rewrite bentry_flat by done. destruct (pos M i c) as [j|] eqn:E.
    - pose proof E as E'. apply pos_Some in E' as [Hj Hcol]; [|done]. pose proof (inrow_lt M i j Hw Hj) as HjN.
      rewrite bent_blk, H2 by done. simpl. unfold bsgs. rewrite (rowof_inrow M i j Hw Hj), Hcol.
      pose proof (before_diag M i j Hs Hd Hj) as Hb. rewrite Hcol in Hb.
      destruct (Nat.ltb_spec j (dg M i)), (decide (c < i)); try lia; [|apply sblock_val; auto].
      destruct (rowof_dg M Hw Hd c Hc) as (_ & _ & HdN).
      destruct (bmatmul_val so bs M (vals M) Hv Hv (sblock so bs M scale j) (inv (sblock so bs M scale (dg M c)))) as (b & Hb1 & _ & Hb2);
        [apply sblock_ok; auto|apply Hinv, sblock_ok; auto|].
      unfold bprod. rewrite Hb1, Hb2 by done. apply bsum_ext. intros t Ht. f_equal. apply sblock_val; auto.
    - destruct (decide (c < i)); [|symmetry; apply scaled_unstored; auto]. symmetry. apply bsum_zero. intros t Ht.
      unfold A. rewrite scaled_unstored by done. apply smul_0_l. }
  split.
  - intros I J HI' HJ. destruct (unflat bs n I HI') as (i & p & -> & Hi & Hp). destruct (unflat bs n J HJ) as (c & q & -> & Hc & Hq).
    unfold mprod. rewrite bsum_flat. rewrite (bsum_single n c); [|done|].
    + transitivity (bsum bs (fun t => (bunitlower bs (B o) (i * bs + p) (c * bs + t) * A (c * bs + t)%nat (c * bs + q)%nat)%s)).
      { apply bsum_ext. intros t Ht. unfold bdiag. rewrite !flat_div by done. rewrite decide_True by done. reflexivity. }
      unfold blower, bunitlower. rewrite !flat_div by done.
      destruct (decide (c < i)) as [Hlt|Hge].
      * transitivity (bsum bs (fun t => (bsum bs (fun u => A (i * bs + p)%nat (c * bs + u)%nat * bl so bs (inv (sblock so bs M scale (dg M c))) u t) *
          dblock bs A c t q)%s)).
        { apply bsum_ext. intros t Ht. rewrite flat_div by done. rewrite decide_True by done. rewrite HB, decide_True by done. reflexivity. }
        transitivity (bsum bs (fun u => A (i * bs + p)%nat (c * bs + u)%nat * bsum bs (fun t => bl so bs (inv (sblock so bs M scale (dg M c))) u t * dblock bs A c t q))%s).
        { transitivity (bsum bs (fun t => bsum bs (fun u => A (i * bs + p)%nat (c * bs + u)%nat * (bl so bs (inv (sblock so bs M scale (dg M c))) u t * dblock bs A c t q)))%s).
          - apply bsum_ext. intros t Ht. rewrite <- bsum_mul_r. apply bsum_ext. intros u Hu. rewrite smul_assoc. reflexivity.
          - rewrite bsum_swap. apply bsum_ext. intros u Hu. apply bsum_mul_l. }
        rewrite (bsum_single bs q); [|done|].
        -- destruct (HI c Hc q q Hq Hq) as [_ HH]. unfold mprod in HH. rewrite HH. unfold ident. rewrite decide_True by done. apply smul_1_r.
        -- intros u Hu Hne. destruct (HI c Hc u q Hu Hq) as [_ HH]. unfold mprod in HH. rewrite HH. unfold ident. rewrite decide_False by done. apply smul_0_r.
      * destruct (decide (i = c)) as [->|Hne].
        -- rewrite (bsum_single bs p); [|done|].
           ++ rewrite flat_div by done. rewrite decide_False by lia. rewrite decide_True by done. apply smul_1_l.
           ++ intros t Ht Hne. rewrite flat_div by done. rewrite decide_False by lia. rewrite decide_False by (rewrite flat_eq by done; intuition congruence). apply smul_0_l.
        -- apply bsum_zero. intros t Ht. rewrite flat_div by done. rewrite decide_False by lia. rewrite decide_False by (rewrite flat_eq by done; intuition congruence). apply smul_0_l.
    + intros k Hk Hne. apply bsum_zero. intros t Ht. unfold bdiag. rewrite !flat_div by done. rewrite decide_False by done. apply smul_0_r.
  - intros I J HI' HJ. destruct (unflat bs n I HI') as (i & p & -> & Hi & Hp). destruct (unflat bs n J HJ) as (c & q & -> & Hc & Hq).
    unfold bupper. rewrite !flat_div by done. destruct (decide (i < c)).
    + rewrite HB, decide_False by (done || lia). reflexivity.
    + destruct (decide (i = c)); [|reflexivity]. rewrite HB, decide_False by (done || lia). reflexivity.
Qed.
(** What does not hold: with scalar entries, "zero" gives the matrix and not zeros *)
Theorem C33_zero_refuted :
  forall (F : Type) (O : SOps F) (M : srmat F) scale ilu,
  wf_mat M -> length (vals M) = nnz M -> scale_ok scale (nbrows M) -> length ilu = nnz M ->
  nok (fact_init M INIT_F_ZERO scale ilu) (fun o => stored_values M o (scaled_mat scale (dense M))).
Proof.
  intros F O M scale ilu HM Hv Hsc Hl. pose proof HM as (Hw & Hd & Hs).
  destruct (fact_init_det M Hw Hd INIT_F_ZERO scale I Hv Hsc) as (o & H1 & H2 & H3).
  eapply nok_mono; [apply H3, Hl|]. intros x ->. split; [exact H1|]. intros i c Hi Hc Hst.
  destruct (pos M i c) as [j|] eqn:E; [|congruence]. unfold scaled_mat. rewrite (dense_pos M i c j E).
  rewrite (entry_pos M o i c j E). pose proof E as E'. apply pos_Some in E' as [Hj Hcol]; [|done].
  rewrite (vat_eq o j _ (H2 j (inrow_lt M i j Hw Hj))). simpl. unfold orig_entry.
  rewrite (rowof_inrow M i j Hw Hj), Hcol. reflexivity.
Qed.
(** scaled scalar SGS reads the scaling vector at the position of the diagonal entry
    instead of its row number. Past the end of the vector if a matrix has an entry (i,c)
    left of the diagonal and at least as many entries before (c,c) as rows: *)
Theorem C33_scaled_sgs_out_of_bounds_refuted :
  forall (F : Type) (O : SOps F) (M : srmat F) s ilu i c d,
  wf_mat M -> length s = nbrows M -> i < nbrows M -> c < i -> pos M i c <> None ->
  pos M c c = Some d -> nbrows M <= d ->
  forall o, fact_init M INIT_F_SGS (Some s) ilu o -> forall x, o <> Ok x.
Proof.
  intros F O M s ilu i c d (Hw & Hd & Hs) Hsl Hi Hci Hst Hdd Hge o Ho x.
  destruct (pos M i c) as [j|] eqn:E; [|congruence]. apply pos_Some in E as [Hj <-]; [|done].
  rewrite (pos_diag M _ (sorted_nodup M Hs) Hd) in Hdd by lia. injection Hdd as <-.
  apply (fact_init_sgs_oob M Hw Hd s ilu i j Hsl Hj); auto.
  apply (before_diag M i j Hs Hd Hj). exact Hci.
Qed.
(** and otherwise with the wrong entry *)
Definition exS : srmat Qc :=
  SR [0; 2; 3; 5] [0; 2; 1; 1; 2] [q 1; q 1; q 1; q 1; q 1] [0; 2; 4] [2; 3; 5] 3 5 5.
Lemma exS_wf : wf_mat exS.
Proof. split; [apply wfb_pat_ok; reflexivity|]. split; [apply wfb_diag_ok; reflexivity|apply wfb_sorted_ok; reflexivity]. Qed.
Theorem C33_scaled_sgs_values_refuted :
  exists (M : srmat Qc) s ilu, let A := scaled_mat (Some s) (dense M) in
    wf_mat M /\ length (vals M) = nnz M /\ length s = nbrows M /\ length ilu = nnz M /\
    (forall i, i < nbrows M -> A i i <> s0) /\
    nok (fact_init M INIT_F_SGS (Some s) ilu) (fun o =>
      ~ (forall i c, i < nbrows M -> c < nbrows M -> mprod (nbrows M) (unitlower (entry M o)) (diag A) i c = lower A i c)).
Proof.
  exists exS, [q 1; q 2; q 3], (vals exS). cbv zeta. split; [apply exS_wf|].
  split; [reflexivity|]. split; [reflexivity|]. split; [reflexivity|]. split.
  - intros [|[|[|]]] H; [| | |simpl in H; lia]; vm_compute; discriminate.
  - pose proof exS_wf as (Hw & Hd & Hs).
    destruct (fact_init_det exS Hw Hd INIT_F_SGS (Some [q 1; q 2; q 3])) as (o & H1 & H2 & H3); [|reflexivity..|].
    { intros i j [Hi Hj] Hlt. simpl in Hi. destruct i as [|[|[|]]]; [| | |lia]; vm_compute in Hj, Hlt; try lia.
      assert (j = 3) as -> by lia. vm_compute. lia. }
    eapply nok_mono; [apply H3; reflexivity|]. intros x ->. intros H.
    specialize (H 2 1 ltac:(simpl; lia) ltac:(simpl; lia)).
    assert (o = [q 1; q 3; q 4; sdiv (q 6) (q 9); q 9]) as ->.
    { apply list_eq_lt; [exact H1|]. intros i Hi. rewrite H1 in Hi. rewrite H2 by exact Hi.
      change (nnz exS) with 5 in Hi. destruct i as [|[|[|[|[|]]]]]; [..|lia]; vm_compute; f_equal; f_equal;
      apply Eqdep_dec.UIP_dec; decide equality; decide equality. }
    vm_compute in H. discriminate H.
Qed.

(** ** C32: the residual that compute reports *)
Theorem C32_reported_residual :
  forall (F : Type) (O : SOps F) (R : CRing F) ssqrt sabs nonneg (M : srmat F) usescaling k chunk usethreads nthr finit gi gs st r0 r1,
  let scale := scale_used ssqrt usescaling (nbrows M) (dense M) in
  magnitude sabs nonneg -> wf_mat M -> length (vals M) = nnz M -> length gi = nnz M -> length gs = nbrows M ->
  1 <= chunk -> 1 <= nthr -> finit <> INIT_F_SGS \/ usescaling = false ->
  scalar_ilu0_compute ssqrt sabs k chunk usethreads nthr finit usescaling true gi gs M ilu_new (Ok (st, Some (r0, r1))) ->
  exists lu, st_ilu st = Some lu /\
    (r1 = s0 <-> exact_on_pattern M (unitlower (entry M lu)) (upper (entry M lu)) (scaled_mat scale (dense M))).
Proof.
  intros F O R ssqrt sabs nn M us k chunk ut nthr finit gi gs st r0 r1 scale Hm HM Hv Hgi Hgs Hc Hn Hsgs Hout.
  pose proof HM as (Hw & Hd & Hs). pose proof (sc_of_ok1 ssqrt M us) as Hsc.
  assert ((if us then Some (scaling_list ssqrt M 1) else None) = scale) as Esc.
  { unfold scale, scale_used. destruct us; [|reflexivity]. f_equal. apply scaling_dense, HM. }
  assert (exists o, length o = nnz M /\ forall out,
    scalar_ilu0_compute ssqrt sabs k chunk ut nthr finit us true gi gs M ilu_new out <->
    (ndo (ilu, scale, i) := factorize_from sabs M k chunk ut nthr true
       (if us then Some (scaling_list ssqrt M 1) else None) o in
     nret (IluState (Some ilu) scale (positions M), i)) out) as (o & Hol & Ho).
  { assert (finit = INIT_F_NONE \/ finit <> INIT_F_NONE) as [->|Hne] by (destruct finit; (left; reflexivity) || (right; discriminate)).
    - destruct (compute_none ssqrt sabs M Hw Hd Hs Hv us k chunk ut nthr true gi gs ilu_new) as (o & (H1 & _) & H2); auto.
      exists o. auto.
    - destruct (compute_outcomes ssqrt sabs M Hw Hd Hs Hv us finit Hne) as (o & H1 & _ & H2).
      { intros -> ->. destruct Hsgs; congruence. }
      exists o. split; [exact H1|]. intros out. apply H2; auto. }
  apply Ho in Hout. apply nbind_Ok in Hout as ([[ilu sc] i] & H1 & H2). injection H2 as -> <-.
  unfold factorize_from in H1. apply nbind_Ok in H1 as (a0 & H3 & H1). apply nbind_Ok in H1 as (x & H4 & H1).
  apply nbind_Ok in H1 as (a1 & H5 & H1). injection H1 as -> -> <- <-. rewrite Esc in *.
  exists x. split; [reflexivity|].
  pose proof (execute_ok M scale Hw Hd Hs Hv Hsc k chunk ut nthr o Hn Hc Hol) as [_ Hx]. specialize (Hx _ H4). simpl in Hx.
  pose proof (C32_residual_zero_iff_exact F O R sabs nn M (positions M) scale x Hm HM Hv
    (compute_ILU_positions_spec M Hw Hd Hs) Hsc Hx) as [_ HH]. specialize (HH _ H5). exact HH.
Qed.

(** ** C44: computing again *)
Definition same_pattern {F} (M M' : srmat F) : Prop :=
  nbrows M = nbrows M' /\ browptr M = browptr M' /\ bcolind M = bcolind M' /\ diagind M = diagind M' /\ browendptr M = browendptr M'.
Section History.
  Context {F : Type} {O : SOps F}.
  Variables (ssqrt sabs : F -> F).
  (** the states of an object after any sequence of computes, with any parameters
      (the choice to scale is fixed at construction), for matrices with the pattern of M0 *)
  Inductive scalar_history (us : bool) (M0 : srmat F) : ilu_state -> Prop :=
  | sh_new : scalar_history us M0 ilu_new
  | sh_compute st M k chunk usethreads nthr finit info gi gs st' i :
      scalar_history us M0 st -> same_pattern M0 M -> length (vals M) = nnz M -> length gi = nnz M -> length gs = nbrows M ->
      1 <= chunk -> 1 <= nthr ->
      scalar_ilu0_compute ssqrt sabs k chunk usethreads nthr finit us info gi gs M st (Ok (st', i)) ->
      scalar_history us M0 st'.
  Inductive block_history inv so bs (us : bool) (M0 : srmat F) : ilu_state -> Prop :=
  | bh_new : block_history inv so bs us M0 ilu_new
  | bh_compute st M k chunk usethreads nthr finit info gi gs dblks st' i :
      block_history inv so bs us M0 st -> same_pattern M0 M -> length (vals M) = nnz M * (bs * bs) ->
      length gi = nnz M * (bs * bs) -> length gs = nbrows M * bs -> length dblks = nbrows M * (bs * bs) ->
      1 <= chunk -> 1 <= nthr ->
      block_ilu0_compute ssqrt sabs inv so bs k chunk usethreads nthr finit us info gi gs dblks M st (Ok (st', i)) ->
      block_history inv so bs us M0 st'.

  Lemma same_pattern_wf (M M' : srmat F) : same_pattern M M' -> wf_mat M -> wf_mat M'.
  Proof.
    destruct M, M'. intros (H1 & H2 & H3 & H4 & H5). simpl in *. subst. intros ([] & Hd & Hs).
    split; [constructor; assumption|]. split; [exact Hd|exact Hs].
  Qed.
  Lemma same_pattern_end (M M' : srmat F) : same_pattern M M' -> wf_end M -> wf_end M'.
  Proof. destruct M, M'. intros (H1 & H2 & H3 & H4 & H5). simpl in *. subst. intros H. exact H. Qed.
  Lemma same_pattern_ready (M M' : srmat F) w us bs st : same_pattern M M' -> ready w us M bs st -> ready w us M' bs st.
  Proof. destruct M, M'. intros (H1 & H2 & H3 & H4 & H5). simpl in *. subst. intros H. exact H. Qed.
  Lemma same_pattern_sym (M M' : srmat F) : same_pattern M M' -> same_pattern M' M.
  Proof. intros (H1 & H2 & H3 & H4 & H5). repeat split; auto. Qed.
  Lemma history_ready us M0 st : wf_mat M0 -> scalar_history us M0 st -> st = ilu_new \/ ready 1 us M0 1 st.
  Proof.
    intros HM. induction 1 as [|st M k c ut nthr finit info gi gs st' i _ IH Hp Hv Hgi Hgs Hc Hn Ho]; [auto|]. right.
    apply (same_pattern_ready M M0); [apply same_pattern_sym, Hp|].
    destruct (same_pattern_wf _ _ Hp HM) as (Hw & Hd & Hs).
    eapply (compute_ready ssqrt sabs M Hw Hd Hs Hv us k c ut nthr finit info gi gs st st' i); auto.
    destruct IH as [->|IH]; [auto|right]. apply (same_pattern_ready M0); auto.
  Qed.
  Lemma bhistory_ready inv so bs us M0 st : wf_mat M0 -> wf_end M0 -> (forall b, length b = bs * bs -> length (inv b) = bs * bs) ->
    block_history inv so bs us M0 st -> st = ilu_new \/ ready (bs * bs) us M0 bs st.
  Proof.
    intros HM He Hinv. induction 1 as [|st M k c ut nthr finit info gi gs dblks st' i _ IH Hp Hv Hgi Hgs Hdl Hc Hn Ho]; [auto|]. right.
    apply (same_pattern_ready M M0); [apply same_pattern_sym, Hp|].
    destruct (same_pattern_wf _ _ Hp HM) as (Hw & Hd & Hs). pose proof (same_pattern_end _ _ Hp He) as He'.
    eapply (bcompute_ready ssqrt sabs inv so bs M Hw Hd Hs He' Hv Hinv us k c ut nthr finit info gi gs dblks st st' i); auto.
    destruct IH as [->|IH]; [auto|right]. apply (same_pattern_ready M0); auto.
  Qed.
End History.
(** Whatever was computed before: the possible results are those of a new object, for any
    number of threads; and independent of what the allocated memory contained. *)
Theorem C44_compute_again :
  forall (F : Type) (O : SOps F) ssqrt sabs usescaling (M0 M : srmat F) st finit k chunk usethreads nthr info gi gs gi' gs' out,
  wf_mat M0 -> scalar_history ssqrt sabs usescaling M0 st ->
  same_pattern M0 M -> length (vals M) = nnz M ->
  length gi = nnz M -> length gs = nbrows M -> length gi' = nnz M -> length gs' = nbrows M ->
  finit <> INIT_F_NONE -> finit <> INIT_F_SGS \/ usescaling = false ->
  scalar_ilu0_compute ssqrt sabs k chunk usethreads nthr finit usescaling info gi gs M st out <->
  scalar_ilu0_compute ssqrt sabs k chunk usethreads nthr finit usescaling info gi' gs' M ilu_new out.
Proof.
  intros F O ssqrt sabs us M0 M st finit k chunk ut nthr info gi gs gi' gs' out HM Hh Hp Hv H1 H2 H3 H4 Hf Hsgs.
  destruct (same_pattern_wf _ _ Hp HM) as (Hw & Hd & Hs).
  destruct (compute_outcomes ssqrt sabs M Hw Hd Hs Hv us finit Hf) as (o & _ & _ & Ho).
  { intros -> ->. destruct Hsgs; congruence. }
  pose proof (history_ready ssqrt sabs us M0 st HM Hh) as Hr.
  rewrite (Ho k chunk ut nthr info gi gs st); auto.
  - rewrite (Ho k chunk ut nthr info gi' gs' ilu_new); auto.
  - destruct Hr as [Hr|Hr]; [auto|right]. apply (same_pattern_ready M0); auto.
Qed.
Theorem C44_block_compute_again :
  forall (F : Type) (O : SOps F) ssqrt sabs inv so bs usescaling (M0 M : srmat F) st finit k chunk usethreads nthr info
    gi gs dblks gi' gs' dblks' out,
  wf_mat M0 -> wf_end M0 -> (forall b, length b = bs * bs -> length (inv b) = bs * bs) ->
  block_history ssqrt sabs inv so bs usescaling M0 st ->
  same_pattern M0 M -> length (vals M) = nnz M * (bs * bs) ->
  length gi = nnz M * (bs * bs) -> length gs = nbrows M * bs -> length dblks = nbrows M * (bs * bs) ->
  length gi' = nnz M * (bs * bs) -> length gs' = nbrows M * bs -> length dblks' = nbrows M * (bs * bs) ->
  finit <> INIT_F_NONE ->
  block_ilu0_compute ssqrt sabs inv so bs k chunk usethreads nthr finit usescaling info gi gs dblks M st out <->
  block_ilu0_compute ssqrt sabs inv so bs k chunk usethreads nthr finit usescaling info gi' gs' dblks' M ilu_new out.
Proof.
  intros F O ssqrt sabs inv so bs us M0 M st finit k chunk ut nthr info gi gs dblks gi' gs' dblks' out HM He Hinv Hh Hp Hv H1 H2 H3 H4 H5 H6 Hf.
  destruct (same_pattern_wf _ _ Hp HM) as (Hw & Hd & Hs). pose proof (same_pattern_end _ _ Hp He) as He'.
  destruct (bcompute_outcomes ssqrt sabs inv so bs M Hw Hd Hs He' Hv Hinv us finit Hf) as (o & _ & _ & Ho).
  pose proof (bhistory_ready ssqrt sabs inv so bs us M0 st HM He Hinv Hh) as Hr.
  rewrite (Ho k chunk ut nthr info gi gs dblks st); auto.
  - rewrite (Ho k chunk ut nthr info gi' gs' dblks' ilu_new); auto.
  - destruct Hr as [Hr|Hr]; [auto|right]. apply (same_pattern_ready M0); auto.
Qed.
(** Initialisation "none" too, if the factorisation is sequential with at least one sweep:
    the object ends in the state [st1] in which a new object ends *)
Theorem C44_none_sequential :
  forall (F : Type) (O : SOps F) ssqrt sabs usescaling (M0 M : srmat F),
  wf_mat M0 -> same_pattern M0 M -> length (vals M) = nnz M ->
  exists st1, forall st finit k chunk usethreads nthr info gi gs,
    scalar_history ssqrt sabs usescaling M0 st -> length gi = nnz M -> length gs = nbrows M ->
    finit <> INIT_F_SGS \/ usescaling = false -> 1 <= k -> 1 <= chunk -> usethreads = false \/ nthr = 1 ->
    nok (scalar_ilu0_compute ssqrt sabs k chunk usethreads nthr finit usescaling info gi gs M st) (fun '(st', _) => st' = st1).
Proof.
  intros F O ssqrt sabs us M0 M HM Hp Hv. destruct (same_pattern_wf _ _ Hp HM) as (Hw & Hd & Hs).
  destruct (compute_sequential ssqrt sabs M Hw Hd Hs Hv us) as (lu & _ & _ & H3). eexists.
  intros st finit k chunk ut nthr info gi gs Hh Hgi Hgs Hsgs Hk Hc Hseq.
  eapply nok_mono; [apply (H3 k chunk ut nthr finit info gi gs st); auto|].
  - destruct (history_ready ssqrt sabs us M0 st HM Hh) as [Hr|Hr]; [auto|right]. apply (same_pattern_ready M0); auto.
  - intros -> ->. destruct Hsgs; congruence.
  - intros [st' i] [E _]. exact E.
Qed.
Theorem C44_block_none_sequential :
  forall (F : Type) (O : SOps F) ssqrt sabs inv so bs usescaling (M0 M : srmat F),
  wf_mat M0 -> wf_end M0 -> (forall b, length b = bs * bs -> length (inv b) = bs * bs) ->
  same_pattern M0 M -> length (vals M) = nnz M * (bs * bs) ->
  exists st1, forall st finit k chunk usethreads nthr info gi gs dblks,
    block_history ssqrt sabs inv so bs usescaling M0 st -> length gi = nnz M * (bs * bs) -> length gs = nbrows M * bs ->
    length dblks = nbrows M * (bs * bs) -> 1 <= k -> 1 <= chunk -> usethreads = false \/ nthr = 1 ->
    nok (block_ilu0_compute ssqrt sabs inv so bs k chunk usethreads nthr finit usescaling info gi gs dblks M st) (fun '(st', _) => st' = st1).
Proof.
  intros F O ssqrt sabs inv so bs us M0 M HM He Hinv Hp Hv. destruct (same_pattern_wf _ _ Hp HM) as (Hw & Hd & Hs).
  pose proof (same_pattern_end _ _ Hp He) as He'.
  destruct (bcompute_sequential ssqrt sabs inv so bs M Hw Hd Hs He' Hv Hinv us) as (x & lu & _ & _ & _ & _ & _ & H4). eexists.
  intros st finit k chunk ut nthr info gi gs dblks Hh Hgi Hgs Hdl Hk Hc Hseq.
  eapply nok_mono; [apply (H4 k chunk ut nthr finit info gi gs dblks st); auto|].
  - destruct (bhistory_ready ssqrt sabs inv so bs us M0 st HM He Hinv Hh) as [Hr|Hr]; [auto|right]. apply (same_pattern_ready M0); auto.
  - intros [st' i] [E _]. exact E.
Qed.
(** with no sweep at all, "none" keeps the factors of the old matrix *)
Lemma none_zero_sweeps {F} {O : SOps F} ssqrt sabs us (M : srmat F) gi gs st ilu : wf_mat M -> length (vals M) = nnz M ->
  length gi = nnz M -> length gs = nbrows M ->
  (st = ilu_new /\ ilu = vals M) \/ (ready 1 us M 1 st /\ st_ilu st = Some ilu) ->
  nok (scalar_ilu0_compute ssqrt sabs 0 1 false 1 INIT_F_NONE us false gi gs M st) (fun '(st', _) => st_ilu st' = Some ilu).
Proof.
  intros (Hw & Hd & Hs) Hv Hgi Hgs H.
  destruct (compute_none ssqrt sabs M Hw Hd Hs Hv us 0 1 false 1 false gi gs st) as (lu & (_ & H2 & H3) & Ho); auto.
  { destruct H as [[H _]|[H _]]; auto. }
  assert (lu = ilu) as <- by (destruct H as [[-> ->]|[_ H]]; auto).
  eapply nok_iff; [apply Ho|]. unfold factorize_from, execute_ilu0. simpl.
  eapply nok_bind with (P := fun '(x, _, _) => x = lu).
  - eapply nok_bind with (P := fun _ => True); [apply nok_ret; exact I|]. intros _ _.
    eapply nok_bind with (P := fun x => x = lu); [apply nok_lift; reflexivity|]. intros x ->.
    eapply nok_bind with (P := fun _ => True); [apply nok_ret; exact I|]. intros _ _. apply nok_ret. reflexivity.
  - intros [[x sc] i] ->. apply nok_ret. reflexivity.
Qed.
Definition exM2 : srmat Qc := let v := Qcmult (q 2) <$> vals exM in
  SR (browptr exM) (bcolind exM) v (diagind exM) (browendptr exM) (nbrows exM) (nnzb exM) (nbstored exM).
Theorem C44_none_zero_sweeps_refuted :
  exists (M0 M : srmat Qc) st gi gs lu lu', wf_mat M0 /\ same_pattern M0 M /\
    scalar_history (fun x => x) (fun x => x) false M0 st /\ lu <> lu' /\
    nok (scalar_ilu0_compute (fun x => x) (fun x => x) 0 1 false 1 INIT_F_NONE false false gi gs M st) (fun '(st', _) => st_ilu st' = Some lu) /\
    nok (scalar_ilu0_compute (fun x => x) (fun x => x) 0 1 false 1 INIT_F_NONE false false gi gs M ilu_new) (fun '(st', _) => st_ilu st' = Some lu').
Proof.
  assert (wf_mat exM) as HM by (split; [apply exM_pat|split; [apply exM_diag|apply exM_sorted]]).
  assert (same_pattern exM exM2) as Hp by (repeat split).
  assert (same_pattern exM exM) as Hp0 by (repeat split).
  pose proof (same_pattern_wf _ _ Hp HM) as HM2.
  assert (length (vals exM2) = nnz exM2) as Hv2 by reflexivity.
  set (gs := [q 0; q 0; q 0]).
  pose proof (none_zero_sweeps (fun x => x) (fun x => x) false exM (vals exM) gs ilu_new (vals exM) HM eq_refl eq_refl eq_refl ltac:(auto)) as [[o Ho] H].
  pose proof (H o Ho) as H'. destruct o as [[st i]| | |]; simpl in H'; try tauto.
  assert (scalar_history (fun x => x) (fun x => x) false exM st) as Hh.
  { apply sh_compute with (2 := Hp0) (8 := Ho); auto. apply sh_new. }
  exists exM, exM2, st, (vals exM), gs, (vals exM), (vals exM2).
  split; [exact HM|]. split; [exact Hp|]. split; [exact Hh|]. split; [vm_compute; discriminate|]. split.
  - apply none_zero_sweeps; auto. right. split; [|exact H'].
    destruct (history_ready _ _ false exM st HM Hh) as [->|Hr]; [discriminate|]. exact (same_pattern_ready _ _ _ _ _ _ Hp Hr).
  - apply none_zero_sweeps; auto.
Qed.

(** cases that meet the hypotheses: C30_case, C30_block_case, C32_magnitude_case, and for
    the initialisations *)
Example C33_sgs_case : wf_mat exM /\ forall i, i < 3 -> dense exM i i <> s0.
Proof.
  split; [split; [apply exM_pat|split; [apply exM_diag|apply exM_sorted]]|].
  intros [|[|[|]]] H; [| | |lia]; vm_compute; discriminate.
Qed.
(** a full 2x2 lower part: the entry (2,1), with two entries in row 0 and two in row 1 *)
Example C33_out_of_bounds_case : wf_mat exM /\ pos exM 2 1 <> None /\ pos exM 1 1 = Some 3 /\ nbrows exM <= 3.
Proof.
  split; [split; [apply exM_pat|split; [apply exM_diag|apply exM_sorted]]|].
  split; [vm_compute; discriminate|]. split; [reflexivity|]. simpl. lia.
Qed.
Print Assumptions C33_original.
Print Assumptions C33_sgs.
Print Assumptions C33_block_zero_original.
Print Assumptions C33_block_sgs.
Print Assumptions C33_zero_refuted.
Print Assumptions C33_scaled_sgs_out_of_bounds_refuted.
Print Assumptions C33_scaled_sgs_values_refuted.
Print Assumptions C32_reported_residual.
Print Assumptions C44_compute_again.
Print Assumptions C44_block_compute_again.
Print Assumptions C44_none_sequential.
Print Assumptions C44_block_none_sequential.
Print Assumptions C44_none_zero_sweeps_refuted.
