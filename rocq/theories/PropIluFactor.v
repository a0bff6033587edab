(** * PropIluFactor: properties C28-C33, C44 (computing an ILU factorisation) *)
From Verif Require Import Base Alg SRMatrix Async AsyncTheory AsyncSystem AsyncSweeps Nd Kernels KernelFacts
  IluPattern IluPatternFacts IluApply TriSpec TriFacts IluApplyFacts IluApplyProofs Chains IluApplyMain Sgs SgsForms
  IluFactor IluFactorFacts IluFactorProofs IluFactorInit IluFactorMain Inst.
From Coq Require Import QArith.Qcanon.
Open Scope nat_scope.

(** the product L U agrees with A at all stored positions *)
Definition exact_on_pattern {F} {O : SOps F} (M : srmat F) (L U A : nat -> nat -> F) : Prop :=
  forall i c, i < nbrows M -> c < nbrows M -> pos M i c <> None -> mprod (nbrows M) L U i c = A i c.
(** the same for blocks: all scalars of the stored blocks *)
Definition bexact_on_pattern {F} {O : SOps F} (bs : nat) (M : srmat F) (L U A : nat -> nat -> F) : Prop :=
  forall I J, I < nbrows M * bs -> J < nbrows M * bs -> pos M (I / bs) (J / bs) <> None ->
    mprod (nbrows M * bs) L U I J = A I J.

(** ** C28: what one sweep leaves unchanged *)
Theorem C28_fixed_points :
  forall (F : Type) (O : SOps F) (R : Field F) (M : srmat F) pl scale ilu chunk usethreads nthr,
  let n := nbrows M in
  let B := entry M ilu in
  wf_mat M -> length (vals M) = nnz M -> compute_ILU_positions M = Ok pl -> scale_ok scale n -> length ilu = nnz M ->
  (forall i, i < n -> B i i <> s0) -> 1 <= chunk -> usethreads = false \/ nthr = 1 ->
  nok (execute_ilu0 M pl scale 1 chunk usethreads nthr ilu) (fun ilu' => ilu' = ilu) <->
  exact_on_pattern M (unitlower B) (upper B) (scaled_mat scale (dense M)).
Proof.
  intros F O R M pl scale ilu chunk ut nthr n B (Hw & Hd & Hs) Hv Hpl Hsc Hl Hp Hc Hseq.
  rewrite compute_ILU_positions_spec in Hpl by done. injection Hpl as <-.
  pose proof (scalar_consistent M Hw Hd Hs scale ilu Hv Hsc Hl Hp) as Hcons.
  destruct (execute_sequential M scale Hw Hd Hs Hv Hsc) as (lu & H1 & H2 & H3).
  specialize (H2 ilu 1 chunk ut nthr Hl ltac:(lia) Hc Hseq). split.
  - intros [_ H]. destruct H2 as [[o Ho] H2]. pose proof (H2 o Ho) as E1. pose proof (H o Ho) as E2.
    destruct o as [x| | |]; simpl in *; try tauto. subst x. subst lu. intros i c Hi Hc' Hst. apply (proj1 Hcons H1); auto.
  - intros H. assert (consistent 1 M (factor_entry M (positions M) scale) ilu) as Hx.
    { apply Hcons. intros i c Hi Hc' Hst. apply H; auto. }
    eapply nok_mono; [exact H2|]. intros x ->. symmetry. apply H3, Hx.
Qed.
Theorem C28_block_fixed_points :
  forall (F : Type) (O : SOps F) (R : CRing F) inv so bs (M : srmat F) pl scale ilu chunk usethreads nthr,
  let n := nbrows M in
  let B := bentry so bs M ilu in
  wf_mat M -> length (vals M) = nnz M * (bs * bs) -> compute_ILU_positions M = Ok pl ->
  scale_ok scale (n * bs) -> length ilu = nnz M * (bs * bs) -> inverse_oracle so bs inv ->
  (forall i, i < n -> exists Y, is_inverse bs (dblock bs B i) Y) -> 1 <= chunk -> usethreads = false \/ nthr = 1 ->
  nok (bilu0_sweeps inv so bs M pl scale 1 chunk usethreads nthr ilu) (fun ilu' => ilu' = ilu) <->
  bexact_on_pattern bs M (bunitlower bs B) (bupper bs B B) (scaled_mat scale (bdense so bs M)).
Proof.
  intros F O R inv so bs M pl scale ilu chunk ut nthr n B (Hw & Hd & Hs) Hv Hpl Hsc Hl Hor Hp Hc Hseq.
  rewrite compute_ILU_positions_spec in Hpl by done. injection Hpl as <-.
  assert (forall b, length b = bs * bs -> length (inv b) = bs * bs) as Hinv by (apply Hor).
  pose proof (block_consistent so bs M Hw Hd Hs inv scale ilu Hinv Hv Hsc Hl Hor Hp) as Hcons.
  destruct (bexecute_sequential M scale Hw Hd Hs inv so bs Hinv Hv Hsc) as (lu & H1 & H2 & H3).
  specialize (H2 ilu 1 chunk ut nthr Hl ltac:(lia) Hc Hseq). split.
  - intros [_ H]. destruct H2 as [[o Ho] H2]. pose proof (H2 o Ho) as E1. pose proof (H o Ho) as E2.
    destruct o as [x| | |]; simpl in *; try tauto. subst x. subst lu. apply Hcons, H1.
  - intros H. eapply nok_mono; [exact H2|]. intros x ->. symmetry. apply H3. apply Hcons. exact H.
Qed.

(** ** C29: sequential factorisation *)
(** bit for bit the same result for every initial guess, sweep count, chunk size,
    and previous contents of memory; no law of arithmetic *)
Theorem C29_sequential_sweeps :
  forall (F : Type) (O : SOps F) (M : srmat F) pl scale,
  wf_mat M -> length (vals M) = nnz M -> compute_ILU_positions M = Ok pl -> scale_ok scale (nbrows M) ->
  exists lu, forall ilu k chunk usethreads nthr,
    length ilu = nnz M -> 1 <= k -> 1 <= chunk -> usethreads = false \/ nthr = 1 ->
    nok (execute_ilu0 M pl scale k chunk usethreads nthr ilu) (fun ilu' => ilu' = lu).
Proof.
  intros F O M pl scale (Hw & Hd & Hs) Hv Hpl Hsc.
  rewrite compute_ILU_positions_spec in Hpl by done. injection Hpl as <-.
  destruct (execute_sequential M scale Hw Hd Hs Hv Hsc) as (lu & H1 & H2 & H3). exists lu. exact H2.
Qed.
Theorem C29_block_sequential_sweeps :
  forall (F : Type) (O : SOps F) inv so bs (M : srmat F) pl scale,
  wf_mat M -> length (vals M) = nnz M * (bs * bs) -> compute_ILU_positions M = Ok pl -> scale_ok scale (nbrows M * bs) ->
  (forall b, length b = bs * bs -> length (inv b) = bs * bs) ->
  exists lu, forall ilu k chunk usethreads nthr,
    length ilu = nnz M * (bs * bs) -> 1 <= k -> 1 <= chunk -> usethreads = false \/ nthr = 1 ->
    nok (bilu0_sweeps inv so bs M pl scale k chunk usethreads nthr ilu) (fun ilu' => ilu' = lu).
Proof.
  intros F O inv so bs M pl scale (Hw & Hd & Hs) Hv Hpl Hsc Hinv.
  rewrite compute_ILU_positions_spec in Hpl by done. injection Hpl as <-.
  destruct (bexecute_sequential M scale Hw Hd Hs inv so bs Hinv Hv Hsc) as (lu & H1 & H2 & H3). exists lu. exact H2.
Qed.

(** the scaling vector: 1 / sqrt of the diagonal *)
Definition diagonal_scale {F} {O : SOps F} (ssqrt : F -> F) (n : nat) (A : nat -> nat -> F) : list F :=
  (fun I => (s1 / ssqrt (A I I))%s) <$> seq 0 n.
Definition scale_used {F} {O : SOps F} (ssqrt : F -> F) (usescaling : bool) (n : nat) (A : nat -> nat -> F) : option (list F) :=
  if usescaling then Some (diagonal_scale ssqrt n A) else None.

Lemma bscaling_dense {F} {O : SOps F} ssqrt so bs (M : srmat F) : wf_mat M ->
  scaling_list ssqrt M bs = diagonal_scale ssqrt (nbrows M * bs) (bdense so bs M).
Proof.
  intros (Hw & Hd & Hs). unfold scaling_list, diagonal_scale. apply list_fmap_ext. intros k I Hk.
  apply lookup_seq in Hk as [-> Hk]. cbn [Nat.add]. destruct (unflat bs (nbrows M) k Hk) as (i & p & -> & Hi & Hp).
  rewrite flat_div, flat_mod by done. change (bdense so bs M) with (bentry so bs M (vals M)). rewrite bentry_flat by done.
  rewrite (pos_diag M i (sorted_nodup M Hs) Hd Hi). rewrite bent_vat.
  f_equal. f_equal. f_equal. unfold lay. destruct so; nia.
Qed.
Lemma scaling_dense {F} {O : SOps F} ssqrt (M : srmat F) : wf_mat M ->
  scaling_list ssqrt M 1 = diagonal_scale ssqrt (nbrows M) (dense M).
Proof.
  intros (Hw & Hd & Hs). unfold scaling_list, diagonal_scale. rewrite Nat.mul_1_r. apply list_fmap_ext. intros k i Hk.
  apply lookup_seq in Hk as [-> Hk]. cbn [Nat.add].
  rewrite (dense_pos M k k _ (pos_diag M k (sorted_nodup M Hs) Hd Hk)). rewrite Nat.div_1_r, Nat.mod_1_r.
  do 3 f_equal. lia.
Qed.

(** A new preconditioner object, and a call of its compute function. The result holds
    the incomplete factors: if their pivots are nonzero, L U equals the (scaled) matrix
    on its pattern; and if there are such factors at all, they are the result. *)
Theorem C29_compute_sequential :
  forall (F : Type) (O : SOps F) (R : Field F) (ssqrt sabs : F -> F) (M : srmat F) usescaling,
  let n := nbrows M in
  let A := dense M in
  let scale := scale_used ssqrt usescaling n A in
  let exact lu := exact_on_pattern M (unitlower (entry M lu)) (upper (entry M lu)) (scaled_mat scale A) in
  wf_mat M -> length (vals M) = nnz M ->
  exists lu, length lu = nnz M /\
    ((forall i, i < n -> entry M lu i i <> s0) -> exact lu) /\
    (forall lu', length lu' = nnz M -> (forall i, i < n -> entry M lu' i i <> s0) -> exact lu' -> lu' = lu) /\
    forall k chunk usethreads nthr finit info gi gs,
      length gi = nnz M -> length gs = n -> 1 <= k -> 1 <= chunk -> usethreads = false \/ nthr = 1 ->
      finit <> INIT_F_SGS \/ usescaling = false ->
      nok (scalar_ilu0_compute ssqrt sabs k chunk usethreads nthr finit usescaling info gi gs M ilu_new)
          (fun '(st, _) => st_ilu st = Some lu /\ st_scale st = scale).
Proof.
  intros F O R ssqrt sabs M us n A scale exact HM Hv. pose proof HM as (Hw & Hd & Hs).
  assert ((if us then Some (scaling_list ssqrt M 1) else None) = scale) as Esc.
  { unfold scale, scale_used. destruct us; [|reflexivity]. f_equal. apply scaling_dense, HM. }
  destruct (compute_sequential ssqrt sabs M Hw Hd Hs Hv us) as (lu & H1 & H2 & H3).
  pose proof (sc_of_ok1 ssqrt M us) as Hsc. rewrite Esc in *.
  pose proof H1 as [Hl _]. rewrite Nat.mul_1_r in Hl.
  exists lu. split; [exact Hl|]. split; [|split].
  - intros Hp i c Hi Hc Hst. apply (proj1 (scalar_consistent M Hw Hd Hs scale lu Hv Hsc Hl Hp) H1); auto.
  - intros lu' Hl' Hp' Hex. apply H2. apply (scalar_consistent M Hw Hd Hs scale lu' Hv Hsc Hl' Hp').
    intros i c Hi Hc Hst. apply Hex; auto.
  - intros k chunk ut nthr finit info gi gs Hgi Hgs Hk Hc Hseq Hsgs.
    eapply nok_mono; [apply (H3 k chunk ut nthr finit info gi gs ilu_new); auto|].
    + intros -> ->. destruct Hsgs as [Hx|Hx]; [contradiction|discriminate].
    + intros [st i] [-> _]. auto.
Qed.
(** Blocks: the object stores L, the strictly upper part of U, and the inverses of the
    diagonal blocks of U. [x] has the blocks of U themselves. *)
Theorem C29_block_compute_sequential :
  forall (F : Type) (O : SOps F) (R : CRing F) (ssqrt sabs : F -> F) inv so bs (M : srmat F) usescaling,
  let n := nbrows M in
  let A := bdense so bs M in
  let scale := scale_used ssqrt usescaling (n * bs) A in
  let B := bentry so bs M in
  let invertible x := forall i, i < n -> exists Y, is_inverse bs (dblock bs (B x) i) Y in
  let exact x := bexact_on_pattern bs M (bunitlower bs (B x)) (bupper bs (B x) (B x)) (scaled_mat scale A) in
  let stores lu x := forall I J, I < n * bs -> J < n * bs ->
    I / bs <> J / bs -> B lu I J = B x I J in
  let stores_inverses lu x := forall i, i < n -> is_inverse bs (dblock bs (B lu) i) (dblock bs (B x) i) in
  wf_mat M -> wf_end M -> length (vals M) = nnz M * (bs * bs) -> inverse_oracle so bs inv ->
  exists lu x, length lu = nnz M * (bs * bs) /\ length x = nnz M * (bs * bs) /\
    (invertible x -> exact x /\ stores lu x /\ stores_inverses lu x) /\
    (forall x', length x' = nnz M * (bs * bs) -> invertible x' -> exact x' -> x' = x) /\
    forall k chunk usethreads nthr finit info gi gs dblks,
      length gi = nnz M * (bs * bs) -> length gs = n * bs -> length dblks = n * (bs * bs) ->
      1 <= k -> 1 <= chunk -> usethreads = false \/ nthr = 1 ->
      nok (block_ilu0_compute ssqrt sabs inv so bs k chunk usethreads nthr finit usescaling info gi gs dblks M ilu_new)
          (fun '(st, _) => st_ilu st = Some lu /\ st_scale st = scale).
Proof.
  intros F O R ssqrt sabs inv so bs M us n A scale B invertible exact stores stores_inverses HM He Hv Hor.
  pose proof HM as (Hw & Hd & Hs).
  assert (forall b, length b = bs * bs -> length (inv b) = bs * bs) as Hinv by (apply Hor).
  assert ((if us then Some (scaling_list ssqrt M bs) else None) = scale) as Esc.
  { unfold scale, scale_used. destruct us; [|reflexivity]. f_equal. apply bscaling_dense, HM. }
  destruct (bcompute_sequential ssqrt sabs inv so bs M Hw Hd Hs He Hv Hinv us) as (x & lu & Hxl & Hll & H1 & H2 & H3 & H4).
  pose proof (sc_of_ok ssqrt bs M us) as Hsc. rewrite Esc in *.
  assert (forall j p q, j < nnz M -> p < bs -> q < bs -> bent so bs lu j p q =
    if j =? dg M (rowof M j) then bent so bs (inv (blk (bs * bs) x j)) 0 p q else bent so bs x j p q) as Hent.
  { intros j p q Hj Hp Hq. pose proof (lay_lt so bs p q Hp Hq) as Hlt. rewrite bent_vat.
    pose proof (H2 j Hj) as E. unfold inverted in E.
    assert (vat lu (j * (bs * bs) + lay so bs p q) = vat (blk (bs * bs) lu j) (lay so bs p q)) as ->.
    { unfold vat. f_equal. rewrite blk_lookup by lia. reflexivity. }
    rewrite E. destruct (j =? dg M (rowof M j)); rewrite bent_vat; [reflexivity|].
    unfold vat. f_equal. rewrite blk_lookup by lia. reflexivity. }
  exists lu, x. split; [exact Hll|]. split; [exact Hxl|]. split; [|split].
  - intros Hp. split; [|split].
    + apply (block_consistent so bs M Hw Hd Hs inv scale x Hinv Hv Hsc Hxl Hor Hp). exact H1.
    + intros I J HI HJ Hne. destruct (unflat bs n I HI) as (i & p & -> & Hi & Hp'). destruct (unflat bs n J HJ) as (c & q & -> & Hc & Hq).
      rewrite !flat_div in Hne by done. unfold B. rewrite !bentry_flat by done.
      destruct (pos M i c) as [j|] eqn:E; [|reflexivity]. apply pos_Some in E as [Hj E]; [|done].
      pose proof (inrow_lt M i j Hw Hj) as HjN. rewrite Hent by done. rewrite (rowof_inrow M i j Hw Hj).
      destruct (Nat.eqb_spec j (dg M i)) as [->|_]; [|reflexivity]. exfalso.
      destruct Hd as [_ Hd']. destruct (Hd' i Hi) as [_ Hx]. congruence.
    + intros i Hi. destruct (Hp i Hi) as (Y & HY).
      destruct (rowof_dg M Hw Hd i Hi) as (Hr1 & Hr2 & Hr3).
      assert (forall p q, p < bs -> q < bs -> dblock bs (B lu) i p q = bent so bs (inv (blk (bs * bs) x (dg M i))) 0 p q) as E1.
      { intros p q Hp' Hq. unfold dblock, B. rewrite bentry_flat by done. rewrite (pos_diag M i (sorted_nodup M Hs) Hd Hi).
        rewrite Hent by done. rewrite Hr1, Nat.eqb_refl. reflexivity. }
      assert (forall p q, p < bs -> q < bs -> dblock bs (B x) i p q = bent so bs (blk (bs * bs) x (dg M i)) 0 p q) as E2.
      { intros p q Hp' Hq. unfold dblock, B. rewrite bentry_flat by done. rewrite (pos_diag M i (sorted_nodup M Hs) Hd Hi).
        pose proof (lay_lt so bs p q Hp' Hq). rewrite !bent_vat. unfold vat. f_equal. rewrite blk_lookup by lia. reflexivity. }
      assert (length (blk (bs * bs) x (dg M i)) = bs * bs) as Hbl by (apply blk_length; nia).
      destruct (Hor _ Hbl) as [_ Hor']. specialize (Hor' Y).
      assert (is_inverse bs (bent so bs (blk (bs * bs) x (dg M i)) 0) (bent so bs (inv (blk (bs * bs) x (dg M i))) 0)) as Hfin.
      { apply Hor'. intros p q Hp' Hq. destruct (HY p q Hp' Hq) as [HY1 HY2]. unfold mprod in *. split.
        - rewrite <- HY1. apply bsum_ext. intros t Ht. rewrite E2 by done. reflexivity.
        - rewrite <- HY2. apply bsum_ext. intros t Ht. rewrite E2 by done. reflexivity. }
      intros p q Hp' Hq. destruct (Hfin p q Hp' Hq) as [F1 F2]. unfold mprod in *. split.
      * rewrite <- F2. apply bsum_ext. intros t Ht. rewrite E1, E2 by done. reflexivity.
      * rewrite <- F1. apply bsum_ext. intros t Ht. rewrite E1, E2 by done. reflexivity.
  - intros x' Hl' Hp' Hex. apply H3. apply (block_consistent so bs M Hw Hd Hs inv scale x' Hinv Hv Hsc Hl' Hor Hp'). exact Hex.
  - intros k chunk ut nthr finit info gi gs dblks Hgi Hgs Hdl Hk Hc Hseq.
    eapply nok_mono; [apply (H4 k chunk ut nthr finit info gi gs dblks ilu_new); auto|].
    intros [st i] [-> _]. auto.
Qed.

(** ** C30: asynchronous sweeps leave exact factors alone *)
Theorem C30_exact_factors_stable :
  forall (F : Type) (O : SOps F) (R : Field F) (M : srmat F) pl scale ilu,
  let n := nbrows M in
  let B := entry M ilu in
  wf_mat M -> length (vals M) = nnz M -> compute_ILU_positions M = Ok pl -> scale_ok scale n -> length ilu = nnz M ->
  (forall i, i < n -> B i i <> s0) -> exact_on_pattern M (unitlower B) (upper B) (scaled_mat scale (dense M)) ->
  (forall k chunk usethreads nthr, 1 <= nthr -> 1 <= chunk ->
    nok (execute_ilu0 M pl scale k chunk usethreads nthr ilu) (fun ilu' => ilu' = ilu)) /\
  (* the same for every other assignment of rows to tasks *)
  (forall nthr q, (forall r, r ∈ concat q -> r < n) ->
    region_safe (row_task 1 M (factor_entry M pl scale)) nthr q ilu /\
    forall ilu', region (row_task 1 M (factor_entry M pl scale)) nthr q ilu ilu' -> ilu' = ilu).
Proof.
  intros F O R M pl scale ilu n B (Hw & Hd & Hs) Hv Hpl Hsc Hl Hp Hex.
  rewrite compute_ILU_positions_spec in Hpl by done. injection Hpl as <-.
  assert (consistent 1 M (factor_entry M (positions M) scale) ilu) as Hcons.
  { apply (scalar_consistent M Hw Hd Hs scale ilu Hv Hsc Hl Hp). intros i c Hi Hc Hst. apply Hex; auto. }
  split.
  - intros k chunk ut nthr Hn Hc. apply execute_stable; auto.
  - intros nthr q Hq.
    assert (forall j, j < nnz M -> kernel_ok 1 (entC M (factor_entry M (positions M) scale)) (nnz M) (fdep M) j) as Hk.
    { intros j Hj. apply scalar_factor_ok; auto. }
    split; [|intros ilu' H; apply (factor_stable 1 M _ Hw Hk nthr q ilu Hq Hcons); exact H].
    apply (factor_safe 1 M _ Hw Hd Hs Hk nthr q ilu Hq). rewrite Hl. lia.
Qed.
Theorem C30_block_exact_factors_stable :
  forall (F : Type) (O : SOps F) (R : CRing F) inv so bs (M : srmat F) pl scale ilu,
  let n := nbrows M in
  let B := bentry so bs M ilu in
  wf_mat M -> length (vals M) = nnz M * (bs * bs) -> compute_ILU_positions M = Ok pl ->
  scale_ok scale (n * bs) -> length ilu = nnz M * (bs * bs) -> inverse_oracle so bs inv ->
  (forall i, i < n -> exists Y, is_inverse bs (dblock bs B i) Y) ->
  bexact_on_pattern bs M (bunitlower bs B) (bupper bs B B) (scaled_mat scale (bdense so bs M)) ->
  (forall k chunk usethreads nthr, 1 <= nthr -> 1 <= chunk ->
    nok (bilu0_sweeps inv so bs M pl scale k chunk usethreads nthr ilu) (fun ilu' => ilu' = ilu)) /\
  (forall nthr q, (forall r, r ∈ concat q -> r < n) ->
    region_safe (row_task (bs * bs) M (bfactor_entry inv so bs M pl scale)) nthr q ilu /\
    forall ilu', region (row_task (bs * bs) M (bfactor_entry inv so bs M pl scale)) nthr q ilu ilu' -> ilu' = ilu).
Proof.
  intros F O R inv so bs M pl scale ilu n B (Hw & Hd & Hs) Hv Hpl Hsc Hl Hor Hp Hex.
  rewrite compute_ILU_positions_spec in Hpl by done. injection Hpl as <-.
  assert (forall b, length b = bs * bs -> length (inv b) = bs * bs) as Hinv by (apply Hor).
  assert (consistent (bs * bs) M (bfactor_entry inv so bs M (positions M) scale) ilu) as Hcons.
  { apply (block_consistent so bs M Hw Hd Hs inv scale ilu Hinv Hv Hsc Hl Hor Hp). exact Hex. }
  split.
  - intros k chunk ut nthr Hn Hc. apply bexecute_stable; auto.
  - intros nthr q Hq.
    assert (forall j, j < nnz M -> kernel_ok (bs * bs) (entC M (bfactor_entry inv so bs M (positions M) scale)) (nnz M) (fdep M) j) as Hk.
    { intros j Hj. apply block_factor_ok; auto. }
    split; [|intros ilu' H; apply (factor_stable (bs * bs) M _ Hw Hk nthr q ilu Hq Hcons); exact H].
    apply (factor_safe (bs * bs) M _ Hw Hd Hs Hk nthr q ilu Hq). exact Hl.
Qed.

(** ** C31: sweeps that do not overlap *)
(** what computing an entry (i,c) depends on: (i,t) and (t,c) for t below both i and c,
    and the pivot (c,c) if c < i *)
Theorem C31_dependencies : forall A (M : srmat A) i c j j', wf_mat M -> i < nbrows M -> pos M i c = Some j ->
  fdep M j j' <->
  (exists t p q, t < i /\ t < c /\ pos M i t = Some p /\ pos M t c = Some q /\ (j' = p \/ j' = q)) \/
  (c < i /\ pos M c c = Some j').
Proof.
  intros A M i c j j' (Hw & Hd & Hs) Hi Hj. apply pos_Some in Hj as [Hj <-]; [|done].
  pose proof (rowof_inrow M i j Hw Hj) as Er.
  assert (forall a b, (a, b) ∈ tms M j <-> exists t, t < i /\ t < col M j /\ pos M i t = Some a /\ pos M t (col M j) = Some b) as Ht.
  { intros a b. unfold tms, terms. rewrite elem_of_list_omap, Er. split.
    - intros (k & Hk & H). apply elem_of_range in Hk. unfold term in H. case_decide as Hc; [|discriminate].
      destruct (pos M (col M k) (col M j)) as [p|] eqn:E; [|discriminate]. simpl in H. injection H as <- <-.
      exists (col M k). split; [lia|]. split; [lia|]. split; [|exact E].
      apply pos_of; [apply sorted_nodup, Hs|]. split; auto.
    - intros (t & H1 & H2 & H3 & H4). apply pos_Some in H3 as [H3 <-]; [|done]. exists a.
      split; [apply elem_of_range; apply H3|]. unfold term. rewrite decide_True by lia. rewrite H4. reflexivity. }
  unfold fdep. rewrite Er. split.
  - intros [H|[H|[Hlt ->]]].
    + apply elem_of_list_fmap in H as ([a b] & -> & H). apply Ht in H as (t & ? & ? & ? & ?). left. exists t, a, b. simpl. repeat split; auto.
    + apply elem_of_list_fmap in H as ([a b] & -> & H). apply Ht in H as (t & ? & ? & ? & ?). left. exists t, a, b. simpl. repeat split; auto.
    + right. split; [exact Hlt|]. apply pos_diag; auto; [apply sorted_nodup, Hs|lia].
  - intros [(t & p & q & H1 & H2 & H3 & H4 & H5)|[Hlt H]].
    + assert ((p, q) ∈ tms M j) as H by (apply Ht; exists t; auto).
      destruct H5 as [-> | ->]; [left|right; left]; apply elem_of_list_fmap; exists (p, q); auto.
    + right. right. split; [exact Hlt|]. rewrite (pos_diag M (col M j)) in H; auto; [|apply sorted_nodup, Hs|lia].
      congruence.
Qed.
(** [qs]: one region, ended by a barrier, for each sweep; [lu] is what sequential
    factorisation gives *)
Theorem C31_separated_sweeps_exact :
  forall (F : Type) (O : SOps F) (R : Field F) (M : srmat F) pl scale,
  let n := nbrows M in
  wf_mat M -> length (vals M) = nnz M -> compute_ILU_positions M = Ok pl -> scale_ok scale n ->
  exists lu,
    (forall ilu, length ilu = nnz M -> nok (execute_ilu0 M pl scale 1 1 false 1 ilu) (fun ilu' => ilu' = lu)) /\
    ((forall i, i < n -> entry M lu i i <> s0) ->
     exact_on_pattern M (unitlower (entry M lu)) (upper (entry M lu)) (scaled_mat scale (dense M))) /\
    forall nthr qs ilu, length ilu = nnz M -> chains_at_most (fdep M) (nnz M) (length qs) ->
      (forall q, q ∈ qs -> forall r, r ∈ concat q <-> r < n) ->
      regions_safe (row_task 1 M (factor_entry M pl scale)) nthr qs ilu /\
      forall ilu', regions (row_task 1 M (factor_entry M pl scale)) nthr qs ilu ilu' -> ilu' = lu.
Proof.
  intros F O R M pl scale n (Hw & Hd & Hs) Hv Hpl Hsc.
  rewrite compute_ILU_positions_spec in Hpl by done. injection Hpl as <-.
  destruct (execute_sequential M scale Hw Hd Hs Hv Hsc) as (lu & H1 & H2 & H3).
  pose proof H1 as [Hl _]. rewrite Nat.mul_1_r in Hl.
  assert (forall j, j < nnz M -> kernel_ok 1 (entC M (factor_entry M (positions M) scale)) (nnz M) (fdep M) j) as Hk.
  { intros j Hj. apply scalar_factor_ok; auto. }
  exists lu. split; [|split].
  - intros ilu Hi. apply H2; auto.
  - intros Hp i c Hi Hc Hst. apply (proj1 (scalar_consistent M Hw Hd Hs scale lu Hv Hsc Hl Hp) H1); auto.
  - intros nthr qs ilu Hi HK Hq. apply (factor_separated 1 M _ Hw Hd Hs Hk); auto. lia.
Qed.
Theorem C31_block_separated_sweeps_exact :
  forall (F : Type) (O : SOps F) (R : CRing F) inv so bs (M : srmat F) pl scale,
  let n := nbrows M in
  let B := bentry so bs M in
  wf_mat M -> length (vals M) = nnz M * (bs * bs) -> compute_ILU_positions M = Ok pl ->
  scale_ok scale (n * bs) -> inverse_oracle so bs inv ->
  exists lu,
    (forall ilu, length ilu = nnz M * (bs * bs) ->
      nok (bilu0_sweeps inv so bs M pl scale 1 1 false 1 ilu) (fun ilu' => ilu' = lu)) /\
    ((forall i, i < n -> exists Y, is_inverse bs (dblock bs (B lu) i) Y) ->
     bexact_on_pattern bs M (bunitlower bs (B lu)) (bupper bs (B lu) (B lu)) (scaled_mat scale (bdense so bs M))) /\
    forall nthr qs ilu, length ilu = nnz M * (bs * bs) -> chains_at_most (fdep M) (nnz M) (length qs) ->
      (forall q, q ∈ qs -> forall r, r ∈ concat q <-> r < n) ->
      regions_safe (row_task (bs * bs) M (bfactor_entry inv so bs M pl scale)) nthr qs ilu /\
      forall ilu', regions (row_task (bs * bs) M (bfactor_entry inv so bs M pl scale)) nthr qs ilu ilu' -> ilu' = lu.
Proof.
  intros F O R inv so bs M pl scale n B (Hw & Hd & Hs) Hv Hpl Hsc Hor.
  rewrite compute_ILU_positions_spec in Hpl by done. injection Hpl as <-.
  assert (forall b, length b = bs * bs -> length (inv b) = bs * bs) as Hinv by (apply Hor).
  destruct (bexecute_sequential M scale Hw Hd Hs inv so bs Hinv Hv Hsc) as (lu & H1 & H2 & H3).
  pose proof H1 as [Hl _].
  assert (forall j, j < nnz M -> kernel_ok (bs * bs) (entC M (bfactor_entry inv so bs M (positions M) scale)) (nnz M) (fdep M) j) as Hk.
  { intros j Hj. apply block_factor_ok; auto. }
  exists lu. split; [|split].
  - intros ilu Hi. apply H2; auto.
  - intros Hp. apply (block_consistent so bs M Hw Hd Hs inv scale lu Hinv Hv Hsc Hl Hor Hp). exact H1.
  - intros nthr qs ilu Hi HK Hq. apply (factor_separated (bs * bs) M _ Hw Hd Hs Hk); auto.
Qed.
(** as many sweeps as stored entries are always enough *)
Theorem C31_entries_many_sweeps_suffice : forall A (M : srmat A), wf_mat M ->
  chains_at_most (fdep M) (nnz M) (nnz M).
Proof. intros A M (Hw & Hd & Hs). apply chains_increasing. intros i c. apply fdep_lt; auto. Qed.

(** ** C32: the residual *)
(** what is used of the absolute value: values that are sums of absolute values add up
    to zero only if all are zero *)
Definition magnitude {F} {O : SOps F} (sabs : F -> F) (nonneg : F -> Prop) : Prop :=
  nonneg s0 /\ (forall x, nonneg (sabs x)) /\ (forall x, sabs x = s0 <-> x = s0) /\
  (forall x y, nonneg x -> nonneg y -> nonneg (x + y)%s /\ ((x + y)%s = s0 -> x = s0 /\ y = s0)).
Lemma mag_lsum {F} {O : SOps F} {R : CRing F} sabs nn {A} (f : A -> F) l : magnitude sabs nn -> (forall a, nn (f a)) ->
  nn (lsum f l) /\ (lsum f l = s0 <-> forall a, a ∈ l -> f a = s0).
Proof.
  intros (H0 & H1 & H2 & H3) Hf. induction l as [|a l [IH1 IH2]]; simpl.
  - split; [exact H0|]. split; [intros _ a Ha; apply elem_of_nil in Ha; tauto|auto].
  - destruct (H3 (f a) (lsum f l) (Hf a) IH1) as [H4 H5]. split; [exact H4|]. split.
    + intros E. destruct (H5 E) as [E1 E2]. intros b Hb. apply elem_of_cons in Hb as [->|Hb]; [auto|].
      apply IH2; auto.
    + intros H. rewrite (H a) by left. rewrite (proj2 IH2); [|intros b Hb; apply H; right; auto].
      apply (cring.(Ring_theory.Radd_0_l)).
Qed.
Lemma mag_bsum {F} {O : SOps F} {R : CRing F} sabs nn (f : nat -> F) n : magnitude sabs nn -> (forall a, nn (f a)) ->
  nn (bsum n f) /\ (bsum n f = s0 <-> forall a, a < n -> f a = s0).
Proof.
  intros (H0 & H1 & H2 & H3) Hf. induction n as [|n [IH1 IH2]]; simpl.
  - split; [exact H0|]. split; [lia|auto].
  - destruct (H3 (bsum n f) (f n) IH1 (Hf n)) as [H4 H5]. split; [exact H4|]. split.
    + intros E. destruct (H5 E) as [E1 E2]. intros b Hb. destruct (decide (b = n)) as [->|]; [auto|].
      apply IH2; auto; lia.
    + intros H. rewrite (H n) by lia. rewrite (proj2 IH2); [|intros b Hb; apply H; lia].
      apply (cring.(Ring_theory.Radd_0_l)).
Qed.
Lemma sub_zero {F} {O : SOps F} {R : CRing F} (x y : F) : (x - y)%s = s0 <-> y = x.
Proof.
  pose proof (@cring F O R) as C. pose proof C as C'. split.
  - intros H. transitivity (y + (x - y))%s.
    + rewrite H. rewrite (Ring_theory.Radd_comm C). symmetry. apply (Ring_theory.Radd_0_l C).
    + rewrite (Ring_theory.Rsub_def C), (Ring_theory.Radd_comm C x), (Ring_theory.Radd_assoc C), (Ring_theory.Ropp_def C).
      apply (Ring_theory.Radd_0_l C).
  - intros ->. rewrite (Ring_theory.Rsub_def C). apply (Ring_theory.Ropp_def C).
Qed.
Theorem C32_residual_zero_iff_exact :
  forall (F : Type) (O : SOps F) (R : CRing F) sabs nonneg (M : srmat F) pl scale ilu,
  let B := entry M ilu in
  magnitude sabs nonneg -> wf_mat M -> length (vals M) = nnz M -> compute_ILU_positions M = Ok pl ->
  scale_ok scale (nbrows M) -> length ilu = nnz M ->
  nok (nonlinear_res sabs M pl scale ilu) (fun x =>
    x = s0 <-> exact_on_pattern M (unitlower B) (upper B) (scaled_mat scale (dense M))).
Proof.
  intros F O R sabs nn M pl scale ilu B Hm (Hw & Hd & Hs) Hv Hpl Hsc Hl.
  rewrite compute_ILU_positions_spec in Hpl by done. injection Hpl as <-. pose proof Hm as (_ & _ & Hm0 & _).
  eapply nok_mono; [apply (nonlinear_res_val sabs M scale Hw Hd Hs ilu Hv Hsc Hl)|]. intros x ->.
  unfold residual_sum.
  match goal with |- (lsum ?f ?l = s0) <-> _ => rewrite (proj2 (mag_lsum sabs nn f l Hm ltac:(intros j; apply Hm))) end. split.
  - intros H i c Hi Hc Hst. destruct (pos M i c) as [j|] eqn:E; [|congruence].
    apply pos_Some in E as [Hj <-]; [|done]. pose proof (inrow_lt M i j Hw Hj) as HjN.
    specialize (H j ltac:(apply elem_of_seq; lia)). rewrite (rowof_inrow M i j Hw Hj) in H.
    exact (proj1 (sub_zero _ _) (proj1 (Hm0 _) H)).
  - intros H j Hj. apply elem_of_seq in Hj. apply (proj2 (Hm0 _)), (proj2 (sub_zero _ _)). apply H.
    + apply (inrow_rowof M j Hw). lia.
    + apply (wf_col M Hw). lia.
    + rewrite (pos_self M Hw Hs) by lia. discriminate.
Qed.
Theorem C32_block_residual_zero_iff_exact :
  forall (F : Type) (O : SOps F) (R : CRing F) sabs nonneg so bs (M : srmat F) pl scale ilu,
  let B := bentry so bs M ilu in
  magnitude sabs nonneg -> wf_mat M -> length (vals M) = nnz M * (bs * bs) -> compute_ILU_positions M = Ok pl ->
  scale_ok scale (nbrows M * bs) -> length ilu = nnz M * (bs * bs) ->
  nok (bnonlinear_res sabs so bs M pl scale ilu) (fun x =>
    x = s0 <-> bexact_on_pattern bs M (bunitlower bs B) (bupper bs B B) (scaled_mat scale (bdense so bs M))).
Proof.
  intros F O R sabs nn so bs M pl scale ilu B Hm (Hw & Hd & Hs) Hv Hpl Hsc Hl.
  rewrite compute_ILU_positions_spec in Hpl by done. injection Hpl as <-. pose proof Hm as (_ & _ & Hm0 & _).
  eapply nok_mono; [apply (bnonlinear_res_val sabs M scale Hw Hd Hs so bs ilu Hv Hsc Hl)|]. intros x ->.
  unfold bresidual_sum.
  match goal with |- (lsum ?f ?l = s0) <-> _ => rewrite (proj2 (mag_lsum sabs nn f l Hm
    ltac:(intros j; apply (mag_bsum sabs nn _ _ Hm); intros p; apply (mag_bsum sabs nn _ _ Hm); intros q; apply Hm))) end. split.
  - intros H I J HI HJ Hst. destruct (unflat bs (nbrows M) I HI) as (i & p & -> & Hi & Hp).
    destruct (unflat bs (nbrows M) J HJ) as (c & q & -> & Hc & Hq). rewrite !flat_div in Hst by done.
    destruct (pos M i c) as [j|] eqn:E; [|congruence].
    apply pos_Some in E as [Hj <-]; [|done]. pose proof (inrow_lt M i j Hw Hj) as HjN.
    specialize (H j ltac:(apply elem_of_seq; lia)). rewrite (rowof_inrow M i j Hw Hj) in H.
    match type of H with bsum ?m ?f = s0 => rewrite (proj2 (mag_bsum sabs nn f m Hm
      ltac:(intros p'; apply (mag_bsum sabs nn _ _ Hm); intros q'; apply Hm))) in H end.
    specialize (H p Hp). cbv beta in H.
    match type of H with bsum ?m ?f = s0 => rewrite (proj2 (mag_bsum sabs nn f m Hm ltac:(intros q'; apply Hm))) in H end.
    specialize (H q Hq). cbv beta in H.
    exact (proj1 (sub_zero _ _) (proj1 (Hm0 _) H)).
  - intros H j Hj. apply elem_of_seq in Hj.
    pose proof (proj1 (inrow_rowof M j Hw ltac:(lia))) as Hr. pose proof (wf_col M Hw j ltac:(lia)) as Hc.
    apply (mag_bsum sabs nn _ _ Hm); [intros p'; apply (mag_bsum sabs nn _ _ Hm); intros q'; apply Hm|].
    intros p Hp. apply (mag_bsum sabs nn _ _ Hm); [intros q'; apply Hm|]. intros q Hq.
    apply (proj2 (Hm0 _)), (proj2 (sub_zero _ _)). apply H.
    + nia.
    + nia.
    + rewrite !flat_div by done. rewrite (pos_self M Hw Hs) by lia. discriminate.
Qed.

(** ** Cases that meet the hypotheses *)
(** a tridiagonal matrix and its factors: C28, C30 *)
Definition exM_lu : list Qc := [q 4; q 1; sdiv (q 1) (q 2); sdiv (q 9) (q 2); q 1; sdiv (q 2) (q 9); sdiv (q 25) (q 9)].
Example C30_case :
  wf_mat exM /\ length (vals exM) = nnz exM /\ length exM_lu = nnz exM /\
  exact_on_pattern exM (unitlower (entry exM exM_lu)) (upper (entry exM exM_lu)) (scaled_mat None (dense exM)) /\
  forall i, i < 3 -> entry exM exM_lu i i <> s0.
Proof.
  split; [split; [apply exM_pat|split; [apply exM_diag|apply exM_sorted]]|]. split; [reflexivity|]. split; [reflexivity|]. split.
  - intros i c Hi Hc _. simpl in Hi, Hc. destruct i as [|[|[|]]]; [| | |lia]; destruct c as [|[|[|]]]; try lia;
      apply Qc_is_canon; vm_compute; reflexivity.
  - intros [|[|[|]]] H; [| | |lia]; vm_compute; discriminate.
Qed.
(** blocks: two block rows of 2x2 blocks *)
Definition exBB : srmat Qc :=
  SR [0; 2; 4] [0; 1; 0; 1] (q <$> [2; 1; 1; 1;  1; 0; 2; 1;  2; 1; 3; 2;  2; 2; 3; 2]%Z) [0; 3] [2; 4] 2 4 4.
Definition exBB_lu : list Qc := q <$> [2; 1; 1; 1;  1; 0; 2; 1;  1; 0; 1; 1;  1; 2; 0; 1]%Z.
Example C30_block_case :
  wf_mat exBB /\ wf_end exBB /\ length (vals exBB) = nnz exBB * (2 * 2) /\ length exBB_lu = nnz exBB * (2 * 2) /\
  bexact_on_pattern 2 exBB (bunitlower 2 (bentry RowMajor 2 exBB exBB_lu))
    (bupper 2 (bentry RowMajor 2 exBB exBB_lu) (bentry RowMajor 2 exBB exBB_lu)) (scaled_mat None (bdense RowMajor 2 exBB)) /\
  forall i, i < 2 -> exists Y, is_inverse 2 (dblock 2 (bentry RowMajor 2 exBB exBB_lu) i) Y.
Proof.
  split; [split; [apply wfb_pat_ok; reflexivity|split; [apply wfb_diag_ok; reflexivity|apply wfb_sorted_ok; reflexivity]]|].
  split; [split; [reflexivity|intros [|[|]] H; simpl in H; try lia; reflexivity]|]. split; [reflexivity|]. split; [reflexivity|]. split.
  - intros I J HI HJ _. simpl in HI, HJ. destruct I as [|[|[|[|]]]]; try lia; destruct J as [|[|[|[|]]]]; try lia;
      apply Qc_is_canon; vm_compute; reflexivity.
  - intros [|[|]] H; try lia.
    + exists (fun p r => match p, r with 0, 0 => q 1 | 0, 1 => q (-1) | 1, 0 => q (-1) | _, _ => q 2 end).
      intros [|[|]] [|[|]] H1 H2; try lia; split; apply Qc_is_canon; vm_compute; reflexivity.
    + exists (fun p r => match p, r with 0, 0 => q 1 | 0, 1 => q (-2) | 1, 0 => q 0 | _, _ => q 1 end).
      intros [|[|]] [|[|]] H1 H2; try lia; split; apply Qc_is_canon; vm_compute; reflexivity.
Qed.
(** the absolute value of the rationals *)
Definition qabs (x : Qc) : Qc := if Qclt_le_dec x 0%Qc then (- x)%Qc else x.
Example C32_magnitude_case : magnitude qabs (fun x => (0 <= x)%Qc).
Proof.
  split; [apply Qcle_refl|]. split; [|split].
  - intros x. unfold qabs. destruct (Qclt_le_dec x 0) as [H|H]; [|exact H].
    apply Qclt_le_weak, Qcopp_le_compat in H. exact H.
  - intros x. unfold qabs. destruct (Qclt_le_dec x 0) as [H|H]; [|tauto].
    split; [|intros ->; reflexivity]. intros E. change s0 with 0%Qc in *. apply (f_equal Qcopp) in E. rewrite Qcopp_involutive in E. rewrite E. reflexivity.
  - intros x y Hx Hy. change (x + y)%s with (x + y)%Qc. change s0 with 0%Qc.
    pose proof (Qcplus_le_compat _ _ _ _ Hx Hy) as H. split; [exact H|]. intros E.
    assert (x = 0%Qc) as ->.
    { apply Qcle_antisym; [|exact Hx]. rewrite <- E. rewrite <- (Qcplus_0_r x) at 1. apply Qcplus_le_compat; [apply Qcle_refl|exact Hy]. }
    split; [reflexivity|]. rewrite <- E. ring.
Qed.
(** dependency chains in the tridiagonal case *)
Example C31_case : chains_at_most (fdep exM) (nnz exM) (nnz exM).
Proof. apply C31_entries_many_sweeps_suffice. split; [apply exM_pat|split; [apply exM_diag|apply exM_sorted]]. Qed.

Print Assumptions C28_fixed_points.
Print Assumptions C28_block_fixed_points.
Print Assumptions C29_sequential_sweeps.
Print Assumptions C29_block_sequential_sweeps.
Print Assumptions C29_compute_sequential.
Print Assumptions C29_block_compute_sequential.
Print Assumptions C30_exact_factors_stable.
Print Assumptions C30_block_exact_factors_stable.
Print Assumptions C31_dependencies.
Print Assumptions C31_separated_sweeps_exact.
Print Assumptions C31_block_separated_sweeps_exact.
Print Assumptions C32_residual_zero_iff_exact.
Print Assumptions C32_block_residual_zero_iff_exact.
