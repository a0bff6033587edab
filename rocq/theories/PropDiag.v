(** * C87: the diagnostic record holds, under each heading, the quantity the heading names *)
From Verif Require Import Base Alg SRMatrix Async AsyncTheory AsyncSystem AsyncSweeps Nd Reduction MatProps PropBlockMat PropMatProps Kernels KernelFacts
  IluPattern IluPatternFacts IluApply TriSpec TriFacts IluApplyFacts IluApplyProofs Chains IluApplyMain Sgs SgsForms
  IluFactor IluFactorFacts IluFactorProofs IluFactorInit IluFactorMain PropIluFactor PropIluInit Inst Diag.
From Coq Require Import QArith.Qcanon ZArith.
Open Scope string_scope.
Open Scope nat_scope.

(** ** Specification *)
(** the record lists [x] under the heading [name] *)
Definition lists {F} (info : list F) (name : String.string) (x : F) : Prop :=
  exists k, descr !! k = Some name /\ info !! k = Some x.
(** the sum of the magnitudes of A - L U over the stored positions; for blocks, over all their entries *)
Definition mismatch {F} {O : SOps F} (sabs : F -> F) (M : srmat F) (A L U : nat -> nat -> F) : F :=
  lsum (fun j => sabs (A (rowof M j) (col M j) - mprod (nbrows M) L U (rowof M j) (col M j))%s) (seq 0 (nnz M)).
Definition bmismatch {F} {O : SOps F} (sabs : F -> F) (bs : nat) (M : srmat F) (A L U : nat -> nat -> F) : F :=
  lsum (fun j => bsum bs (fun p => bsum bs (fun q => sabs (A (rowof M j * bs + p)%nat (col M j * bs + q)%nat -
    mprod (nbrows M * bs)%nat L U (rowof M j * bs + p)%nat (col M j * bs + q)%nat)%s))) (seq 0 (nnz M)).
(** the record lists the average and the least dominance of the rows of the two factors stored in [f] on the pattern of [M] *)
Definition lists_dominance {F} {O : SOps F} (sabs : F -> F) (slt : F -> F -> bool) (snat : nat -> F) (so : storage) (bs : nat) (big : F)
    (M : srmat F) (f info : list F) : Prop :=
  let N := nbrows M * bs in
  let bl := lower_dominance sabs so bs (with_factors M f) in
  let bu := upper_dominance sabs so bs (with_factors M f) in
  lists info "lowerF_avg_dgdom" (bsum N bl / snat N)%s /\ lists info "upperF_avg_dgdom" (bsum N bu / snat N)%s /\
  exists l u, lists info "lowerF_min_dgdom" l /\ least slt (big :: (bl <$> seq 0 N)) l /\
    lists info "upperF_min_dgdom" u /\ least slt (big :: (bu <$> seq 0 N)) u.
(** no pivot is zero, and the dominances are numbers that can be compared *)
Definition measurable {F} {O : SOps F} (sabs : F -> F) (num : F -> Prop) (so : storage) (bs : nat) (M : srmat F) (f : list F) : Prop :=
  forall R, R < nbrows M * bs -> sabs (bdense so bs (with_factors M f) R R) <> s0 /\
    num (lower_dominance sabs so bs (with_factors M f) R) /\ num (upper_dominance sabs so bs (with_factors M f) R).

(** each heading occurs once *)
Lemma lists_one {F} (info : list F) name x y : lists info name x -> lists info name y -> x = y.
Proof.
  assert (NoDup descr) as Hn by (repeat constructor; rewrite ?elem_of_cons, ?elem_of_nil; intros H; repeat destruct H as [H|H]; try discriminate H; exact H).
  intros (k & H1 & H2) (k' & H3 & H4). rewrite (NoDup_lookup descr k k' name Hn H1 H3) in H2. congruence.
Qed.

Section C87.
  Context {F : Type} {O : SOps F} {Fd : Field F} (ssqrt sabs : F -> F) (slt : F -> F -> bool) (snat : nat -> F).
  Variables (big top : F) (num : F -> Prop).
  Hypotheses (Habs : sabs s0 = s0) (Ho : order_on slt num) (Hbig : num big) (Htop : num top) (Hmax : forall x, num x -> slt top x = false).

  Section Put.
    Variables (so : storage) (bs : nat) (M : srmat F).
    Hypotheses (Hw : wf_pat M) (He : wf_end M) (Hd : wf_diag M) (Hs : wf_sorted M).
    Lemma with_pat f : wf_pat (with_factors M f).
    Proof. destruct Hw as [H1 H2 H3 H4 H5]. split; assumption. Qed.
    Lemma put_outcome f info info' : length info = 6 -> put_dominance sabs slt snat so bs big top M f info (Ok info') ->
      exists a0 a1 a2 a3, diagonal_dominance sabs slt snat so bs big top (with_factors M f) (Ok (a0, a1, a2, a3)) /\
        exists x0 x1, info !! 0 = Some x0 /\ info !! 1 = Some x1 /\ info' = [x0; x1; a3; a2; a1; a0].
    Proof.
      intros Hl H. unfold put_dominance in H. apply nbind_Ok in H as ([[[a0 a1] a2] a3] & Hx & H). cbn beta iota in H.
      destruct info as [|x0 [|x1 [|x2 [|x3 [|x4 [|x5 [|]]]]]]]; simpl in Hl; try lia.
      cbv [nlift] in H. cbn in H. injection H as ->. exists a0, a1, a2, a3. split; [exact Hx|]. exists x0, x1. auto.
    Qed.
    Lemma put_lists f info info' : length f = nnz M * (bs * bs) -> measurable sabs num so bs M f -> length info = 6 ->
      put_dominance sabs slt snat so bs big top M f info (Ok info') -> lists_dominance sabs slt snat so bs big M f info'.
    Proof.
      intros Hf Hm Hl H. apply put_outcome in H as (a0 & a1 & a2 & a3 & Hx & x0 & x1 & _ & _ & ->); [|exact Hl].
      pose proof (C52_dominance sabs slt snat so bs big top (with_factors M f) num (with_pat f) He Hd Hs Hf Habs
        (fun R HR => proj1 (Hm R HR)) Ho Hbig Htop Hmax (fun R HR => proj2 (Hm R HR))) as [_ H52].
      specialize (H52 _ Hx). cbv beta iota in H52. destruct H52 as (E0 & L1 & E2 & L3). cbn [nbrows with_factors] in *.
      unfold lists_dominance. cbv zeta. split; [exists 5; split; [reflexivity|rewrite <- E0; reflexivity]|].
      split; [exists 3; split; [reflexivity|rewrite <- E2; reflexivity]|]. exists a1, a3.
      split; [exists 4; auto|]. split; [exact L1|]. split; [exists 2; auto|exact L3].
    Qed.
    Lemma add_block_safe f skip jj r : length f = nnz M * (bs * bs) -> length r = bs -> jj < nnz M ->
      ok (add_block sabs so bs skip (with_factors M f) jj r) (fun r' => length r' = bs).
    Proof.
      intros Hf Hr Hj. unfold add_block. apply (ok_for_post _ _ _ _ (fun _ r' => length r' = bs)); [lia|exact Hr| |auto].
      intros p r1 Hpp L1. apply (ok_for_post _ _ _ _ (fun _ r' => length r' = bs)); [lia|exact L1| |auto].
      intros q' r2 Hq L2. destruct (skip && (p =? q')); [apply ok_ret; exact L2|]. cbn [vals with_factors].
      pose proof (lay_lt so bs p q' ltac:(lia) ltac:(lia)). rewrite vat_get by nia. cbn [bind]. rewrite vat_get by lia. cbn [bind].
      apply ok_set; [lia|]. rewrite insert_length. exact L2.
    Qed.
    Lemma add_blocks_safe f a b r : length f = nnz M * (bs * bs) -> length r = bs -> a <= b -> b <= nnz M ->
      ok (for_ a b (fun jj r => add_block sabs so bs false (with_factors M f) jj r) r) (fun r' => length r' = bs).
    Proof.
      intros Hf Hr Hab Hb. apply (ok_for_post _ _ _ _ (fun _ r' => length r' = bs)); [lia|exact Hr| |auto].
      intros jj r1 Hj L1. apply add_block_safe; auto. lia.
    Qed.
    (** whatever the values, the dominances can be computed *)
    Lemma dominance_safe f : length f = nnz M * (bs * bs) -> nok (diagonal_dominance sabs slt snat so bs big top (with_factors M f)) (fun _ => True).
    Proof.
      intros Hf. unfold diagonal_dominance. eapply nok_bind with (P := fun _ => True); [|intros [[[a b] c] d] _; apply nok_ret; exact Logic.I].
      apply (nok_reduce (fun _ _ => True) (dd_comb slt)); auto. intros l i [[[ua um] la] lm] Hi _. cbn [nbrows with_factors] in Hi.
      set (M' := with_factors M f). assert (Hw' : wf_pat M') by apply with_pat. assert (He' : wf_end M') by exact He. assert (Hd' : wf_diag M') by exact Hd.
      assert (Hv' : wf_vals bs M') by exact Hf. change (nbrows M) with (nbrows M') in Hi.
      unfold dd_row. unfold get at 1. rewrite (wf_diagind M' i Hd' ltac:(lia)). cbn [bind]. destruct (proj2 Hd' i ltac:(lia)) as [Hd1 Hd2].
      pose proof (rp_mono M' (i + 1) (nbrows M') Hw' ltac:(lia) ltac:(lia)) as Hle. fold (nnz M') in Hle. change (nnz M') with (nnz M) in Hle.
      eapply ok_bind; [apply add_block_safe; [exact Hf|apply replicate_length|lia]|]. intros r1 L1. cbn beta.
      unfold get at 1. rewrite (proj2 He' i ltac:(lia)). cbn [bind].
      eapply ok_bind; [apply add_blocks_safe; [exact Hf|exact L1|lia|lia]|]. intros r2 L2. unfold get at 1. rewrite (wf_browptr M' i Hw') by lia. cbn [bind].
      eapply ok_bind; [apply add_blocks_safe; [exact Hf|apply replicate_length|lia|lia]|]. intros r3 L3.
      eapply ok_bind with (P := fun '(l, u) => length l = bs /\ length u = bs).
      - apply (ok_for_post _ _ _ _ (fun _ '(l, u) => length l = bs /\ length u = bs)); [lia|auto| |auto].
        intros p [x y] Hp [Hx Hy]. rewrite vat_get by lia. cbn [bind]. rewrite set_Ok by lia. cbn [bind]. rewrite vat_get by lia. cbn [bind].
        rewrite vat_get by (cbn [vals M' with_factors]; rewrite Hf; change (dg M' i) with (dg M i) in *; pose proof (lay_lt so bs p p ltac:(lia) ltac:(lia)); nia). cbn [bind]. rewrite set_Ok by lia. cbn [bind].
        apply ok_ret. rewrite !insert_length. auto.
      - intros [x y] [Hx Hy]. cbn beta iota. eapply ok_bind with (P := fun _ => True); [|intros [[[a b] c] d] _; apply ok_ret; exact Logic.I].
        apply (ok_for_post _ _ _ _ (fun _ _ => True)); [lia|auto| |auto]. intros p [[[a b] c] d] Hp _. rewrite !vat_get by lia. cbn [bind]. apply ok_ret. exact Logic.I.
    Qed.
    Lemma put_safe f info : length f = nnz M * (bs * bs) -> length info = 6 ->
      nok (put_dominance sabs slt snat so bs big top M f info) (fun info' => length info' = 6).
    Proof.
      intros Hf Hl. unfold put_dominance. eapply nok_bind; [apply dominance_safe, Hf|]. intros [[[a b] c] d] _. cbn beta iota.
      destruct info as [|x0 [|x1 [|x2 [|x3 [|x4 [|x5 [|]]]]]]]; simpl in Hl; try lia. apply nok_lift. reflexivity.
    Qed.
  End Put.

  Section Scalar.
    Variables (M : srmat F) (pl : ilupos).
    Hypotheses (HM : wf_mat M) (He : wf_end M) (Hv : length (vals M) = nnz M) (Hpl : compute_ILU_positions M = Ok pl).
    Variables (k chunk : nat) (usethreads : bool) (nthr : nat) (finit : FactInit) (pinfo ilu : list F) (scale : option (list F)).
    Hypotheses (Hc : 1 <= chunk) (Hn : 1 <= nthr) (Hp : length pinfo = 6) (Hl : length ilu = nnz M) (Hsc : scale_ok scale (nbrows M)).
    Notation run info := (scalar_ilu0_factorize_info ssqrt sabs slt snat big top M pl k chunk usethreads nthr finit info pinfo ilu scale).
    Notation A sc := (scaled_mat sc (dense M)).
    Notation L f := (unitlower (entry M f)).
    Notation U f := (upper (entry M f)).

    (** In every run that computes the diagnostics: the record has the mismatch of the initial factors (those the initialisation asked for
        leaves), the mismatch of the factors returned, and the dominances of the factors returned; and nothing else is different from a
        run without diagnostics. *)
    Theorem C87_scalar ilu' scale' info : run true (Ok (ilu', scale', info)) ->
      length info = 6 /\
      (exists init, fact_init M finit scale' ilu (Ok init) /\ lists info "factor_init_rem" (mismatch sabs M (A scale') (L init) (U init))) /\
      lists info "factor_remainder" (mismatch sabs M (A scale') (L ilu') (U ilu')) /\
      (measurable sabs num ColMajor 1 M ilu' -> lists_dominance sabs slt snat ColMajor 1 big M ilu' info) /\
      run false (Ok (ilu', scale', pinfo)).
    Proof.
      intros H. pose proof HM as (Hw & Hd & Hs). pose proof Hpl as Hpl'. rewrite compute_ILU_positions_spec in Hpl' by done. injection Hpl' as Epl.
      unfold scalar_ilu0_factorize_info in H. apply nbind_Ok in H as (sc & Hx & H). pose proof Hx as Hscale.
      apply (scale_outcome ssqrt 1) in Hx; [|auto|auto|lia|rewrite Nat.mul_1_r; auto].
      pose proof (the_scale_ok ssqrt M 1 scale) as Hsc'. rewrite Nat.mul_1_r, <- Hx in Hsc'. clear Hx.
      apply nbind_Ok in H as (init & Hinit & H).
      assert (length init = nnz M) as Hil.
      { assert (finit = INIT_F_NONE \/ init_ok M finit sc) as [->|Hok].
        - destruct finit; simpl; auto. right. destruct sc as [s|] eqn:E; [|exact Logic.I]. intros i j Hij Hlt.
          destruct (decide (dg M (col M j) < nbrows M)) as [|Hge]; [assumption|exfalso].
          exact (fact_init_sgs_oob M Hw Hd s ilu i j Hsc' Hij Hlt ltac:(lia) _ Hinit init eq_refl).
        - injection Hinit as ->. exact Hl.
        - destruct (fact_init_det M Hw Hd finit sc Hok Hv Hsc') as (o & H1 & _ & H3). destruct (H3 ilu Hl) as [_ H4]. specialize (H4 _ Hinit). simpl in H4. congruence. }
      apply nbind_Ok in H as (p1 & Hp1 & H). apply nbind_Ok in Hp1 as (r0 & Hr0 & Hp1). cbv [nlift] in Hp1.
      rewrite <- Epl in Hr0. destruct (nonlinear_res_val sabs M sc Hw Hd Hs init Hv Hsc' Hil) as [_ V0]. specialize (V0 _ Hr0). simpl in V0.
      apply nbind_Ok in H as (f & Hf & H). pose proof Hf as Hf'. rewrite <- Epl in Hf'.
      assert (length f = nnz M) as Hfl by exact (proj2 (execute_ok M sc Hw Hd Hs Hv Hsc' k chunk usethreads nthr init Hn Hc Hil) _ Hf').
      apply nbind_Ok in H as (p3 & Hp3 & H). injection H as E1 E2 E3. subst f sc p3.
      apply nbind_Ok in Hp3 as (r1 & Hr1 & Hp3). apply nbind_Ok in Hp3 as (p2 & Hp2 & Hp3). cbv [nlift] in Hp2.
      rewrite <- Epl in Hr1. destruct (nonlinear_res_val sabs M scale' Hw Hd Hs ilu' Hv Hsc' Hfl) as [_ V1]. specialize (V1 _ Hr1). simpl in V1.
      destruct pinfo as [|x0 [|x1 [|x2 [|x3 [|x4 [|x5 [|]]]]]]] eqn:Ep; simpl in Hp; try lia.
      cbn in Hp1. injection Hp1 as ->. cbn in Hp2. injection Hp2 as ->.
      pose proof Hp3 as Hp3'. apply put_outcome in Hp3' as (a0 & a1 & a2 & a3 & _ & y0 & y1 & Y0 & Y1 & Einfo); [|reflexivity].
      cbn in Y0, Y1. injection Y0 as <-. injection Y1 as <-.
      split; [rewrite Einfo; reflexivity|]. split; [|split; [|split]].
      - exists init. split; [exact Hinit|]. exists 1. split; [reflexivity|]. rewrite Einfo. simpl. rewrite V0. reflexivity.
      - exists 0. split; [reflexivity|]. rewrite Einfo. simpl. rewrite V1. reflexivity.
      - intros Hm. eapply put_lists; [auto..| |exact Hm| |exact Hp3]; [lia|reflexivity].
      - unfold scalar_ilu0_factorize_info. exists (Ok scale'). split; [exact Hscale|]. exists (Ok init). split; [exact Hinit|].
        exists (Ok [x0; x1; x2; x3; x4; x5]). split; [reflexivity|]. exists (Ok ilu'). split; [exact Hf|]. eexists. split; reflexivity.
    Qed.
    (** the run cannot go wrong: for every initialisation that does not (C33), with or without diagnostics *)
    Theorem C87_scalar_runs info : finit <> INIT_F_SGS \/ scale = None -> nok (run info) (fun '(ilu', _, pinfo') => length ilu' = nnz M /\ length pinfo' = 6).
    Proof.
      intros Hi. pose proof HM as (Hw & Hd & Hs). pose proof Hpl as Hpl'. rewrite compute_ILU_positions_spec in Hpl' by done. injection Hpl' as Epl.
      pose proof (the_scale_ok ssqrt M 1 scale) as Hsc'. rewrite Nat.mul_1_r in Hsc'. unfold scalar_ilu0_factorize_info. rewrite <- Epl.
      eapply nok_bind; [apply (scale_det ssqrt M Hw Hd 1 scale); [lia|rewrite Nat.mul_1_r; exact Hsc]|]. intros sc ->.
      eapply nok_bind with (P := fun o => length o = nnz M).
      { assert (finit = INIT_F_NONE \/ init_ok M finit (the_scale ssqrt M 1 scale)) as [E|Hok].
        - destruct Hi as [Hi| ->]; [destruct finit; simpl; auto; congruence|]. destruct finit; simpl; auto.
        - rewrite E. apply nok_ret. exact Hl.
        - destruct (fact_init_det M Hw Hd finit _ Hok Hv Hsc') as (o & H1 & _ & H3). eapply nok_mono; [apply H3, Hl|]. intros x ->. exact H1. }
      intros init Hil. eapply nok_bind with (P := fun p => length p = 6).
      { destruct info; [|apply nok_ret; exact Hp]. eapply nok_bind; [apply nonlinear_res_ok; auto|]. intros r _.
        apply nok_lift. apply ok_set; [unfold prec_rem_initial_norm; lia|]. rewrite insert_length. exact Hp. }
      intros p1 Hp1. eapply nok_bind; [apply execute_ok; eauto|]. intros f Hfl. eapply nok_bind with (P := fun p => length p = 6).
      { destruct info; [|apply nok_ret; exact Hp1]. eapply nok_bind; [apply nonlinear_res_ok; auto|]. intros r _.
        eapply nok_bind with (P := fun p => length p = 6); [apply nok_lift; apply ok_set; [unfold prec_remainder_norm; lia|]; rewrite insert_length; exact Hp1|].
        intros p2 Hp2. apply put_safe; [auto..| |exact Hp2]. cbv beta in Hfl. lia. }
      intros p3 Hp3. apply nok_ret. auto.
    Qed.
  End Scalar.

  Section Block.
    Variables (inv : list F -> list F) (so : storage) (bs : nat) (M : srmat F) (pl : ilupos).
    Hypotheses (HM : wf_mat M) (He : wf_end M) (Hv : length (vals M) = nnz M * (bs * bs)) (Hpl : compute_ILU_positions M = Ok pl) (Hor : inverse_oracle so bs inv).
    Notation A sc := (scaled_mat sc (bdense so bs M)).
    Notation B f := (bentry so bs M f).
    Notation L f := (bunitlower bs (B f)).
    Notation U f := (bupper bs (B f) (B f)).
    (** [lu] stores the factors [f] with the diagonal blocks inverted *)
    Definition stores_inverted (lu f : list F) : Prop :=
      (forall I J, I < nbrows M * bs -> J < nbrows M * bs -> I / bs <> J / bs -> B lu I J = B f I J) /\
      forall i, i < nbrows M -> (exists Y, is_inverse bs (dblock bs (B f) i) Y) -> is_inverse bs (dblock bs (B lu) i) (dblock bs (B f) i).
    Lemma inverted_stored lu f : length f = nnz M * (bs * bs) -> length lu = nnz M * (bs * bs) ->
      (forall j, j < nnz M -> blk (bs * bs) lu j = inverted inv bs M f j) -> stores_inverted lu f.
    Proof.
      intros Hfl Hll H2. pose proof HM as (Hw & Hd & Hs).
      assert (forall j p q, j < nnz M -> p < bs -> q < bs -> bent so bs lu j p q =
        if j =? dg M (rowof M j) then bent so bs (inv (blk (bs * bs) f j)) 0 p q else bent so bs f j p q) as Hent.
      { intros j p q Hj Hpp Hq. pose proof (lay_lt so bs p q Hpp Hq) as Hlt. rewrite !bent_vat.
        pose proof (H2 j Hj) as E. unfold inverted in E.
        assert (vat lu (j * (bs * bs) + lay so bs p q) = vat (blk (bs * bs) lu j) (lay so bs p q)) as ->.
        { unfold vat. f_equal. rewrite blk_lookup by lia. reflexivity. }
        rewrite E. destruct (j =? dg M (rowof M j)); [reflexivity|].
        unfold vat. f_equal. rewrite blk_lookup by lia. reflexivity. }
      split.
      - intros I J HI HJ Hne. destruct (unflat bs (nbrows M) I HI) as (i & p & -> & Hi & Hp'). destruct (unflat bs (nbrows M) J HJ) as (c & q & -> & Hcc & Hq).
        rewrite !flat_div in Hne by done. rewrite !bentry_flat by done.
        destruct (pos M i c) as [j|] eqn:E; [|reflexivity]. apply pos_Some in E as [Hj E]; [|done].
        pose proof (inrow_lt M i j Hw Hj) as HjN. rewrite Hent by done. rewrite (rowof_inrow M i j Hw Hj).
        destruct (Nat.eqb_spec j (dg M i)) as [->|_]; [|reflexivity]. exfalso.
        destruct Hd as [_ Hd']. destruct (Hd' i Hi) as [_ Hx]. congruence.
      - intros i Hi (Y & HY).
        destruct (rowof_dg M Hw Hd i Hi) as (Hr1 & Hr2 & Hr3).
        assert (forall p q, p < bs -> q < bs -> dblock bs (B lu) i p q = bent so bs (inv (blk (bs * bs) f (dg M i))) 0 p q) as E1.
        { intros p q Hp' Hq. unfold dblock. rewrite bentry_flat by done. rewrite (pos_diag M i (sorted_nodup M Hs) Hd Hi).
          rewrite Hent by done. rewrite Hr1, Nat.eqb_refl. reflexivity. }
        assert (forall p q, p < bs -> q < bs -> dblock bs (B f) i p q = bent so bs (blk (bs * bs) f (dg M i)) 0 p q) as E2.
        { intros p q Hp' Hq. unfold dblock. rewrite bentry_flat by done. rewrite (pos_diag M i (sorted_nodup M Hs) Hd Hi).
          pose proof (lay_lt so bs p q Hp' Hq). rewrite !bent_vat. unfold vat. f_equal. rewrite blk_lookup by lia. reflexivity. }
        assert (length (blk (bs * bs) f (dg M i)) = bs * bs) as Hbl by (apply blk_length; nia).
        destruct (Hor _ Hbl) as [_ Hor']. specialize (Hor' Y).
        assert (is_inverse bs (bent so bs (blk (bs * bs) f (dg M i)) 0) (bent so bs (inv (blk (bs * bs) f (dg M i))) 0)) as Hfin.
        { apply Hor'. intros p q Hp' Hq. destruct (HY p q Hp' Hq) as [HY1 HY2]. unfold mprod in *. split.
          - rewrite <- HY1. apply bsum_ext. intros t Ht. rewrite E2 by done. reflexivity.
          - rewrite <- HY2. apply bsum_ext. intros t Ht. rewrite E2 by done. reflexivity. }
        intros p q Hp' Hq. destruct (Hfin p q Hp' Hq) as [F1 F2]. unfold mprod in *. split.
        * rewrite <- F2. apply bsum_ext. intros t Ht. rewrite E1, E2 by done. reflexivity.
        * rewrite <- F1. apply bsum_ext. intros t Ht. rewrite E1, E2 by done. reflexivity.
    Qed.
    Variables (k chunk : nat) (usethreads : bool) (nthr : nat) (finit : FactInit) (pinfo dblks ilu : list F) (scale : option (list F)).
    Hypotheses (Hc : 1 <= chunk) (Hn : 1 <= nthr) (Hp : length pinfo = 6) (Hdl : length dblks = nbrows M * (bs * bs)) (Hl : length ilu = nnz M * (bs * bs))
      (Hsc : scale_ok scale (nbrows M * bs)).
    Notation run info := (block_ilu0_factorize_info ssqrt sabs slt snat inv so bs big top M pl k chunk usethreads nthr finit info pinfo dblks ilu scale).
    (** The same for blocks: the figures are those of the factors [f] whose diagonal blocks are then inverted in place *)
    Theorem C87_block ilu' scale' info : run true (Ok (ilu', scale', info)) ->
      length info = 6 /\
      (exists init, bfact_init inv so bs M finit scale' dblks ilu (Ok init) /\ lists info "factor_init_rem" (bmismatch sabs bs M (A scale') (L init) (U init))) /\
      (exists f, length f = nnz M * (bs * bs) /\ stores_inverted ilu' f /\
        lists info "factor_remainder" (bmismatch sabs bs M (A scale') (L f) (U f)) /\
        (measurable sabs num so bs M f -> lists_dominance sabs slt snat so bs big M f info)) /\
      run false (Ok (ilu', scale', pinfo)).
    Proof.
      intros H. pose proof HM as (Hw & Hd & Hs). pose proof Hpl as Hpl'. rewrite compute_ILU_positions_spec in Hpl' by done. injection Hpl' as Epl.
      assert (forall b, length b = bs * bs -> length (inv b) = bs * bs) as Hinv by (apply Hor).
      unfold block_ilu0_factorize_info in H. apply nbind_Ok in H as (sc & Hx & H). pose proof Hx as Hscale.
      apply (scale_outcome ssqrt bs) in Hx; [|auto..].
      pose proof (the_scale_ok ssqrt M bs scale) as Hsc'. rewrite <- Hx in Hsc'. clear Hx.
      apply nbind_Ok in H as (init & Hinit & H).
      assert (length init = nnz M * (bs * bs)) as Hil.
      { assert (finit = INIT_F_NONE \/ finit <> INIT_F_NONE) as [->|Hne] by (destruct finit; auto; right; discriminate).
        - injection Hinit as ->. exact Hl.
        - destruct (bfact_init_det inv so bs M Hw Hd Hinv sc Hv Hsc' finit Hne He) as (o & H1 & _ & H3).
          destruct (H3 dblks ilu) as [_ H4]; [auto..|]. specialize (H4 _ Hinit). simpl in H4. congruence. }
      apply nbind_Ok in H as (p1 & Hp1 & H). apply nbind_Ok in Hp1 as (r0 & Hr0 & Hp1). cbv [nlift] in Hp1.
      rewrite <- Epl in Hr0. destruct (bnonlinear_res_val sabs M sc Hw Hd Hs so bs init Hv Hsc' Hil) as [_ V0]. specialize (V0 _ Hr0). simpl in V0.
      apply nbind_Ok in H as (f & Hf & H). pose proof Hf as Hf'. rewrite <- Epl in Hf'.
      assert (length f = nnz M * (bs * bs)) as Hfl by exact (proj2 (bexecute_ok M sc Hw Hd Hs inv so bs Hinv Hv Hsc' k chunk usethreads nthr init Hn Hc Hil) _ Hf').
      apply nbind_Ok in H as (p3 & Hp3 & H). apply nbind_Ok in H as (lu & Hlu & H). injection H as E1 E2 E3. subst lu sc p3.
      destruct (proj2 (invert_diag_blk inv bs M Hw Hd Hinv Hv f Hfl) _ Hlu) as [Hll Hinvd].
      apply nbind_Ok in Hp3 as (r1 & Hr1 & Hp3). apply nbind_Ok in Hp3 as (p2 & Hp2 & Hp3). cbv [nlift] in Hp2.
      rewrite <- Epl in Hr1. destruct (bnonlinear_res_val sabs M scale' Hw Hd Hs so bs f Hv Hsc' Hfl) as [_ V1]. specialize (V1 _ Hr1). simpl in V1.
      destruct pinfo as [|x0 [|x1 [|x2 [|x3 [|x4 [|x5 [|]]]]]]] eqn:Ep; simpl in Hp; try lia.
      cbn in Hp1. injection Hp1 as ->. cbn in Hp2. injection Hp2 as ->.
      pose proof Hp3 as Hp3'. apply put_outcome in Hp3' as (a0 & a1 & a2 & a3 & _ & y0 & y1 & Y0 & Y1 & Einfo); [|reflexivity].
      cbn in Y0, Y1. injection Y0 as <-. injection Y1 as <-.
      split; [rewrite Einfo; reflexivity|]. split; [|split].
      - exists init. split; [exact Hinit|]. exists 1. split; [reflexivity|]. rewrite Einfo. simpl. rewrite V0. reflexivity.
      - exists f. split; [exact Hfl|]. split; [apply inverted_stored; auto|]. split; [exists 0; split; [reflexivity|]; rewrite Einfo; simpl; rewrite V1; reflexivity|].
        intros Hm. eapply put_lists; [auto..| |exact Hm| |exact Hp3]; [exact Hfl|reflexivity].
      - unfold block_ilu0_factorize_info. exists (Ok scale'). split; [exact Hscale|]. exists (Ok init). split; [exact Hinit|].
        exists (Ok [x0; x1; x2; x3; x4; x5]). split; [reflexivity|]. exists (Ok f). split; [exact Hf|]. eexists. split; [reflexivity|].
        exists (Ok ilu'). split; [exact Hlu|]. reflexivity.
    Qed.
  End Block.
End C87.

(** Asking for diagnostics or not, these are the factorisations of the other properties: the same factors and scaling vector, and the two
    remainders among the figures; without diagnostics the record stays uninitialised *)
Theorem C87_same_factorisation : forall (F : Type) (O : SOps F) (ssqrt sabs : F -> F) slt snat big top (M : srmat F) pl k chunk usethreads nthr finit
    (info : bool) pinfo ilu scale ilu' scale' pinfo', length pinfo = 6 ->
  scalar_ilu0_factorize_info ssqrt sabs slt snat big top M pl k chunk usethreads nthr finit info pinfo ilu scale (Ok (ilu', scale', pinfo')) ->
  if info then exists r0 r1, lists pinfo' "factor_init_rem" r0 /\ lists pinfo' "factor_remainder" r1 /\
    scalar_ilu0_factorize ssqrt sabs M pl k chunk usethreads nthr finit true ilu scale (Ok (ilu', scale', Some (r0, r1)))
  else pinfo' = pinfo /\ scalar_ilu0_factorize ssqrt sabs M pl k chunk usethreads nthr finit false ilu scale (Ok (ilu', scale', None)).
Proof.
  intros F O ssqrt sabs slt snat big top M pl k chunk ut nthr finit info pinfo ilu scale ilu' scale' pinfo' Hp H.
  unfold scalar_ilu0_factorize_info in H. apply nbind_Ok in H as (sc & Hsc & H). apply nbind_Ok in H as (init & Hi & H).
  apply nbind_Ok in H as (p1 & H1 & H). apply nbind_Ok in H as (f & Hf & H). apply nbind_Ok in H as (p2 & H2 & H). injection H as -> -> ->. destruct info.
  - apply nbind_Ok in H1 as (r0 & Hr0 & H1). apply nbind_Ok in H2 as (r1 & Hr1 & H2). apply nbind_Ok in H2 as (p & Ep & H2).
    cbv [nlift] in H1, Ep. destruct pinfo as [|x0 [|x1 [|x2 [|x3 [|x4 [|x5 [|]]]]]]]; simpl in Hp; try lia.
    cbn in H1. injection H1 as ->. cbn in Ep. injection Ep as ->.
    apply put_outcome in H2 as (a0 & a1 & a2 & a3 & _ & y0 & y1 & Y0 & Y1 & ->); [|reflexivity]. cbn in Y0, Y1. injection Y0 as <-. injection Y1 as <-.
    exists r0, r1. split; [exists 1; auto|]. split; [exists 0; auto|].
    exists (Ok sc). split; [exact Hsc|]. exists (Ok init). split; [exact Hi|]. exists (Ok r0). split; [exact Hr0|]. exists (Ok f). split; [exact Hf|].
    exists (Ok r1). split; [exact Hr1|]. reflexivity.
  - injection H1 as ->. injection H2 as ->. split; [reflexivity|].
    exists (Ok sc). split; [exact Hsc|]. exists (Ok init). split; [exact Hi|]. exists (Ok s0). split; [reflexivity|]. exists (Ok f). split; [exact Hf|].
    exists (Ok s0). split; reflexivity.
Qed.
Theorem C87_same_block_factorisation : forall (F : Type) (O : SOps F) (ssqrt sabs : F -> F) slt snat inv so bs big top (M : srmat F) pl k chunk usethreads nthr finit
    (info : bool) pinfo dblks ilu scale ilu' scale' pinfo', length pinfo = 6 ->
  block_ilu0_factorize_info ssqrt sabs slt snat inv so bs big top M pl k chunk usethreads nthr finit info pinfo dblks ilu scale (Ok (ilu', scale', pinfo')) ->
  if info then exists r0 r1, lists pinfo' "factor_init_rem" r0 /\ lists pinfo' "factor_remainder" r1 /\
    block_ilu0_factorize ssqrt sabs inv so bs M pl k chunk usethreads nthr finit true dblks ilu scale (Ok (ilu', scale', Some (r0, r1)))
  else pinfo' = pinfo /\ block_ilu0_factorize ssqrt sabs inv so bs M pl k chunk usethreads nthr finit false dblks ilu scale (Ok (ilu', scale', None)).
Proof.
  intros F O ssqrt sabs slt snat inv so bs big top M pl k chunk ut nthr finit info pinfo dblks ilu scale ilu' scale' pinfo' Hp H.
  unfold block_ilu0_factorize_info in H. apply nbind_Ok in H as (sc & Hsc & H). apply nbind_Ok in H as (init & Hi & H).
  apply nbind_Ok in H as (p1 & H1 & H). apply nbind_Ok in H as (f & Hf & H). apply nbind_Ok in H as (p2 & H2 & H).
  apply nbind_Ok in H as (lu & Hlu & H). injection H as -> -> ->. destruct info.
  - apply nbind_Ok in H1 as (r0 & Hr0 & H1). apply nbind_Ok in H2 as (r1 & Hr1 & H2). apply nbind_Ok in H2 as (p & Ep & H2).
    cbv [nlift] in H1, Ep. destruct pinfo as [|x0 [|x1 [|x2 [|x3 [|x4 [|x5 [|]]]]]]]; simpl in Hp; try lia.
    cbn in H1. injection H1 as ->. cbn in Ep. injection Ep as ->.
    apply put_outcome in H2 as (a0 & a1 & a2 & a3 & _ & y0 & y1 & Y0 & Y1 & ->); [|reflexivity]. cbn in Y0, Y1. injection Y0 as <-. injection Y1 as <-.
    exists r0, r1. split; [exists 1; auto|]. split; [exists 0; auto|].
    exists (Ok sc). split; [exact Hsc|]. exists (Ok init). split; [exact Hi|]. exists (Ok r0). split; [exact Hr0|]. exists (Ok f). split; [exact Hf|].
    exists (Ok r1). split; [exact Hr1|]. exists (Ok lu). split; [exact Hlu|]. reflexivity.
  - injection H1 as ->. injection H2 as ->. split; [reflexivity|].
    exists (Ok sc). split; [exact Hsc|]. exists (Ok init). split; [exact Hi|]. exists (Ok s0). split; [reflexivity|]. exists (Ok f). split; [exact Hf|].
    exists (Ok s0). split; [reflexivity|]. exists (Ok lu). split; [exact Hlu|]. reflexivity.
Qed.

(** ** Cases that meet the hypotheses *)
(** the tridiagonal matrix exM (rows 4 1 0 / 2 5 1 / 0 1 3), its factors found again by one sweep, and their diagnostics *)
Definition c87_run : nd (list Qc * option (list Qc) * list Qc) :=
  scalar_ilu0_factorize_info (fun x => x) Qabs Qlt (fun n => q (Z.of_nat n)) (q 99) (q 100) exM (positions exM) 1 1 false 1 INIT_F_NONE true
    (replicate 6 (q 7)) exM_lu None.
Example C87_case :
  wf_mat exM /\ wf_end exM /\ length (vals exM) = nnz exM /\ compute_ILU_positions exM = Ok (positions exM) /\ length exM_lu = nnz exM /\
  Qabs (q 0) = q 0 /\ order_on Qlt small /\ small (q 99) /\ small (q 100) /\ (forall x, small x -> Qlt (q 100) x = false) /\
  measurable Qabs small ColMajor 1 exM exM_lu /\
  nok c87_run (fun '(lu, sc, info) => lu = exM_lu /\ sc = None /\ lists info "factor_remainder" (q 0) /\ lists info "factor_init_rem" (q 0) /\
    lists info "lowerF_min_dgdom" (q 1 / q 2)%Qc /\ lists info "upperF_min_dgdom" (q 3 / q 4)%Qc).
Proof.
  destruct C30_case as (HM & Hv & Hl & Hex & Hnz). pose proof HM as (Hw & Hd & Hs).
  destruct C52_case as (_ & He & _). destruct C53_case as (Ho & _). destruct C52_order as (S1 & S2 & S3 & _).
  assert (compute_ILU_positions exM = Ok (positions exM)) as Hpl by (apply compute_ILU_positions_spec; assumption).
  assert (measurable Qabs small ColMajor 1 exM exM_lu) as Hm.
  { intros R HR. change (nbrows exM * 1) with 3 in HR. do 3 (destruct R as [|R]; [repeat split; vm_compute; first [reflexivity|discriminate]|]). lia. }
  do 10 (split; [first [assumption|reflexivity]|]). split; [exact Hm|].
  destruct (C87_scalar_runs (fun x => x) Qabs Qlt (fun n => q (Z.of_nat n)) (q 99) (q 100) exM (positions exM) HM He Hv Hpl 1 1 false 1 INIT_F_NONE
    (replicate 6 (q 7)) exM_lu None ltac:(lia) ltac:(lia) eq_refl Hl Logic.I true) as [Hsome Hall]; [right; reflexivity|].
  split; [exact Hsome|].
  intros [[[lu sc] info]| | |] H.
  - pose proof (C87_scalar (fun x => x) Qabs Qlt (fun n => q (Z.of_nat n)) (q 99) (q 100) small eq_refl Ho S1 S2 S3 exM (positions exM) HM He Hv Hpl 1 1 false 1 INIT_F_NONE
      (replicate 6 (q 7)) exM_lu None ltac:(lia) ltac:(lia) eq_refl Hl Logic.I lu sc info H) as (_ & (init & Hi & R0) & R1 & D & _).
    assert (lu = exM_lu /\ sc = None) as [-> ->].
    { unfold c87_run, scalar_ilu0_factorize_info in H. apply nbind_Ok in H as (sc' & E & H). injection E as ->.
      apply nbind_Ok in H as (i' & E & H). injection E as ->. apply nbind_Ok in H as (p1 & _ & H). apply nbind_Ok in H as (f & Hf & H).
      apply nbind_Ok in H as (p2 & _ & H). injection H as E1 E2 _. rewrite E1, E2. split; [|reflexivity].
      apply (proj2 (proj2 (C28_fixed_points Qc _ _ exM (positions exM) None exM_lu 1 false 1 HM Hv Hpl Logic.I Hl Hnz ltac:(lia) (or_introl eq_refl)) Hex) _ Hf). }
    injection Hi as ->. specialize (D Hm). destruct D as (_ & _ & l & u & Dl & Ll & Du & Lu).
    split; [reflexivity|]. split; [reflexivity|].
    assert (mismatch Qabs exM (scaled_mat None (dense exM)) (unitlower (entry exM exM_lu)) (upper (entry exM exM_lu)) = q 0) as E0
      by (apply Qc_is_canon; vm_compute; reflexivity).
    rewrite E0 in R0, R1. split; [exact R1|]. split; [exact R0|].
    set (bl := lower_dominance Qabs ColMajor 1 (with_factors exM exM_lu)) in Ll. set (bu := upper_dominance Qabs ColMajor 1 (with_factors exM exM_lu)) in Lu.
    change (nbrows exM * 1) with 3 in Ll, Lu. cbn [seq fmap list_fmap] in Ll, Lu.
    assert (bl 0 = q 1 /\ bl 1 = (q 1 / q 2)%Qc /\ bl 2 = (q 7 / q 9)%Qc) as (B0 & B1 & B2) by (split; [|split]; apply Qc_is_canon; vm_compute; reflexivity).
    assert (bu 0 = (q 3 / q 4)%Qc /\ bu 1 = (q 7 / q 9)%Qc /\ bu 2 = q 1) as (U0 & U1 & U2) by (split; [|split]; apply Qc_is_canon; vm_compute; reflexivity).
    rewrite B0, B1, B2 in Ll. rewrite U0, U1, U2 in Lu.
    assert (forall (a b m : Qc) t, least Qlt (a :: t) m -> b ∈ a :: t -> (forall x, x ∈ a :: t -> x <> b -> Qlt b x = true) -> m = b) as Hleast.
    { intros a b m t [H1 H2] Hb H3. destruct (decide (m = b)) as [|Hne]; [assumption|]. specialize (H3 m H1 Hne). rewrite H2 in H3 by exact Hb. discriminate. }
    assert (l = (q 1 / q 2)%Qc) as ->.
    { eapply Hleast; [exact Ll|right; right; left|]. intros x Hx Hne. repeat (apply elem_of_cons in Hx as [-> |Hx]; [first [congruence|vm_compute; reflexivity]|]). apply elem_of_nil in Hx as []. }
    assert (u = (q 3 / q 4)%Qc) as ->.
    { eapply Hleast; [exact Lu|right; left|]. intros x Hx Hne. repeat (apply elem_of_cons in Hx as [-> |Hx]; [first [congruence|vm_compute; reflexivity]|]). apply elem_of_nil in Hx as []. }
    auto.
  - exact (Hall _ H).
  - exact (Hall _ H).
  - exact (Hall _ H).
Qed.

Print Assumptions C87_scalar.
Print Assumptions C87_scalar_runs.
Print Assumptions C87_block.
Print Assumptions C87_same_factorisation.
Print Assumptions C87_same_block_factorisation.
