(** * PropConverge (C74): relaxation of dominant matrices converges under every
    schedule, at a rate per call *)
From Coq Require Import ZArith QArith.Qcanon QArith.Qcabs.
From Verif Require Import Base Alg Norms SRMatrix Async AsyncTheory AsyncSystem AsyncSweeps AsyncSets AsyncJacobi Nd Kernels KernelFacts
  IluApply IluApplyFacts TriSpec TriFacts IluApplyProofs IluApplyMain IluFactorMain IluApplyStall Sgs SgsFacts SgsProofs SgsForms SgsMain RelaxNear Contract
  Levels PropLevels Inst.
Open Scope nat_scope.

(** ** Specification *)
Section Spec.
  Context {F : Type} {O : SOps F}.
  Variables (mag : F -> F) (le : F -> F -> Prop).
  (** every entry of [x] is within [e] times its weight of that of [xs] *)
  Definition error_within (N : nat) (u : nat -> F) (xs : list F) (e : F) (x : list F) : Prop :=
    length x = N /\ forall i, i < N -> le (mag (vat x i - vat xs i)%s) (e * u i)%s.
  (** in every row the weighted sum of the off-diagonal entries is at most [rho]
      times the diagonal entry (weights 1: diagonal dominance) *)
  Definition dominant (n : nat) (A : nat -> nat -> F) (u : nat -> F) (rho : F) : Prop :=
    forall i, i < n -> le (bsum n (fun j => if decide (j = i) then s0 else mag (A i j) * u j)%s) (rho * mag (A i i) * u i)%s.
  (** the same for rows of blocks, with the inverse [Dinv] of the diagonal blocks *)
  Definition block_dominant (n bs : nat) (A Dinv : nat -> nat -> F) (u : nat -> F) (rho : F) : Prop :=
    forall i p, i < n -> p < bs ->
      le (bsum bs (fun k => mag (Dinv (i * bs + p)%nat (i * bs + k)%nat) *
            bsum (n * bs) (fun J => if decide (J / bs = i)%nat then s0 else mag (A (i * bs + k)%nat J) * u J))%s)
         (rho * u (i * bs + p)%nat)%s.
  (** several calls, one after the other, each given the result of the one before *)
  Fixpoint in_turn (calls : list (list F -> nd (list F))) (x : list F) : nd (list F) :=
    match calls with [] => nret x | f :: calls' => ndo y := f x in in_turn calls' y end.
End Spec.

Section InTurn.
  Context {F : Type} {O : SOps F} {R : CRing F} {mag : F -> F} {le : F -> F -> Prop} {HM : Magnitude F mag le}.
  Add Ring Fr : cring.
  Lemma in_turn_contracts (N : nat) u xs (rho : F) calls : (forall l, l < N -> le s0 (u l)) -> le s0 rho ->
    (forall f, f ∈ calls -> forall e x, le s0 e -> error_within mag le N u xs e x -> nok (f x) (error_within mag le N u xs (rho * e)%s)) ->
    forall e x, le s0 e -> error_within mag le N u xs e x ->
    nok (in_turn calls x) (error_within mag le N u xs (spow rho (length calls) * e)%s).
  Proof.
    intros Hu Hr. induction calls as [|f calls IH]; intros Hf e x He Hx; cbn [in_turn length spow].
    - apply nok_ret. destruct Hx as [Hl Hx]. split; [exact Hl|]. intros i Hi. replace (s1 * e)%s with e by ring. auto.
    - eapply nok_bind; [apply (Hf f ltac:(left) e x He Hx)|]. intros y Hy.
      eapply nok_mono; [apply (IH (fun g Hg => Hf g ltac:(right; exact Hg)) (rho * e)%s y); [apply sle_pos_mul; auto|exact Hy]|].
      intros z [Hl Hz]. split; [exact Hl|]. intros i Hi. replace (rho * spow rho (length calls) * e)%s with (spow rho (length calls) * (rho * e))%s by ring. auto.
  Qed.
End InTurn.

(** ** Scalar and block versions together *)
Section Both.
  Context {F : Type} {O : SOps F} {R : CRing F} {mag : F -> F} {le : F -> F -> Prop} {HM : Magnitude F mag le}.
  Variables (w n dlen : nat) (A E : nat -> nat -> F) (dinv : list F -> nat -> nat -> nat -> F).
  Variables (relaxC : list F -> list F -> nat -> @P F (list F)) (dep : nat -> nat -> Prop) (setup : list F -> nd (list F)).
  Notation N := (n * w).
  Variables (b xs : list F) (u : nat -> F) (rho : F).
  Record rgood (d : list F) : Prop := {
    rg_inv : forall i, i < n -> is_inverse w (dinv d i) (dblock w A i);
    rg_relax : relax_form w n A (dinv d) (relaxC d);
    rg_near : relax_near (mag := mag) (le := le) w n A (dinv d) (relaxC d);
    rg_ker : forall z i, length z = N -> i < n -> kernel_ok w (relaxC d z) n dep i;
    rg_dom : forall i p, i < n -> p < w ->
      le (bsum w (fun k => mag (dinv d i p k) * off_sum w n i (fun J => mag (A (i * w + k)%nat J) * u J))%s) (rho * u (i * w + p)%nat)%s }.
  Hypothesis HE : is_inverse N (bdiag w A) E.
  Hypothesis Hset : forall d0, length d0 = dlen -> nok (setup d0) rgood.
  Hypothesis (Hb : length b = N) (Hxs : length xs = N) (Hsol : is_prod N A xs b).
  Hypothesis (Hu : forall i, i < N -> le s0 (u i)) (Hr0 : le s0 rho) (Hr1 : le rho s1).
  Notation near_sol := (error_within mag le N u xs).

  Lemma one_call d steps chunk nthr e x : rgood d -> 1 <= steps -> 1 <= chunk -> 1 <= nthr -> le s0 e -> near_sol e x ->
    nok (chaotic_relax w n (relaxC d) steps chunk nthr b x) (near_sol (rho * e)%s) /\
    nok (sgs_relax w n (relaxC d) steps chunk nthr b x) (near_sol (rho * e)%s).
  Proof.
    intros Hg Hst Hc Hn He Hx. split.
    - eapply nok_mono; [apply (chaotic_contracts w n A (dinv d) (relaxC d) dep (rg_inv d Hg) (rg_relax d Hg)
          (rg_near d Hg) (rg_ker d Hg) u rho Hu Hr1 (rg_dom d Hg) b xs Hb Hxs Hsol steps chunk nthr e x Hc Hn He Hx)|].
      intros y Hy. destruct steps; [lia|exact Hy].
    - eapply nok_mono; [apply (sgs_contracts w n A (dinv d) (relaxC d) dep (rg_inv d Hg) (rg_relax d Hg)
          (rg_near d Hg) (rg_ker d Hg) u rho Hu Hr1 (rg_dom d Hg) b xs Hb Hxs Hsol steps chunk nthr e x Hc Hn He Hx)|].
      intros y Hy. destruct steps; [lia|exact Hy].
  Qed.
  Lemma every_schedule_main d0 e x calls : length d0 = dlen -> le s0 e -> near_sol e x ->
    Forall (fun '(steps, chunk, nthr) => 1 <= steps /\ 1 <= chunk /\ 1 <= nthr) calls ->
    nok (ndo d := setup d0 in in_turn ((fun '(steps, chunk, nthr) => chaotic_relax w n (relaxC d) steps chunk nthr b) <$> calls) x)
        (near_sol (spow rho (length calls) * e)%s) /\
    nok (ndo d := setup d0 in in_turn ((fun '(its, chunk, nthr) => sgs_relax w n (relaxC d) its chunk nthr b) <$> calls) x)
        (near_sol (spow rho (length calls) * e)%s).
  Proof.
    intros Hd0 He Hx Hcalls. rewrite Forall_forall in Hcalls.
    split; (eapply nok_bind; [apply Hset; exact Hd0|]); intros d Hg;
      (eapply nok_mono; [apply (in_turn_contracts N u xs rho _ Hu Hr0); [|exact He|exact Hx]|intros y Hy; rewrite fmap_length in Hy; exact Hy]);
      intros f Hf; apply elem_of_list_fmap in Hf as ([[s c] t] & -> & Hin); specialize (Hcalls _ Hin); simpl in Hcalls;
      intros e' x' He' Hx'; apply one_call; tauto.
  Qed.
  Lemma every_sweep_main d0 e x : length d0 = dlen -> le s0 e -> near_sol e x ->
    (forall steps chunk, 1 <= chunk ->
      nok (ndo d := setup d0 in chaotic_relax w n (relaxC d) steps chunk 1 b x) (near_sol (spow rho steps * e)%s)) /\
    (forall its chunk, 1 <= chunk ->
      nok (ndo d := setup d0 in sgs_relax w n (relaxC d) its chunk 1 b x) (near_sol (spow rho (2 * its) * e)%s)) /\
    (forall levels its nthr, levels_for n dep levels -> 1 <= nthr ->
      nok (ndo d := setup d0 in level_relax w (relaxC d) levels its nthr b x) (near_sol (spow rho (2 * its) * e)%s)) /\
    (forall ssqrt slt p xtemp, length xtemp = N ->
      nok (ndo d := setup d0 in jacobi_relax ssqrt slt w n (relaxC d) p xtemp b x)
          (fun x' => exists k, k <= maxits p /\ (ctol p = false -> k = maxits p) /\ (1 <= maxits p -> 1 <= k) /\
             near_sol (spow rho k * e)%s x')).
  Proof.
    intros Hd0 He Hx. split; [|split; [|split]].
    - intros steps chunk Hc. eapply nok_bind; [apply Hset; exact Hd0|]. intros d Hg.
      apply (chaotic_seq_contracts w n A (dinv d) (relaxC d) dep (rg_inv d Hg) (rg_relax d Hg)
          (rg_near d Hg) (rg_ker d Hg) u rho Hu Hr0 Hr1 (rg_dom d Hg) b xs Hb Hxs Hsol steps chunk e x Hc He Hx).
    - intros steps chunk Hc. eapply nok_bind; [apply Hset; exact Hd0|]. intros d Hg.
      apply (sgs_seq_contracts w n A (dinv d) (relaxC d) dep (rg_inv d Hg) (rg_relax d Hg)
          (rg_near d Hg) (rg_ker d Hg) u rho Hu Hr0 Hr1 (rg_dom d Hg) b xs Hb Hxs Hsol steps chunk e x Hc He Hx).
    - intros levels its nthr Hlev Hn. eapply nok_bind; [apply Hset; exact Hd0|]. intros d Hg.
      apply (level_contracts w n A (dinv d) (relaxC d) dep (rg_inv d Hg) (rg_relax d Hg)
          (rg_near d Hg) (rg_ker d Hg) u rho Hu Hr0 Hr1 (rg_dom d Hg) b xs Hb Hxs Hsol levels its nthr e x Hn Hlev He Hx).
    - intros ssqrt slt p xtemp Hxt. eapply nok_bind; [apply Hset; exact Hd0|]. intros d Hg. unfold jacobi_relax.
      eapply nok_mono.
      + apply (jacobi_loop_spec w n A E (dinv d) (relaxC d) (rg_inv d Hg) HE (rg_relax d Hg) ssqrt slt p b x Hb (proj1 Hx) (maxits p) 0 s1 xtemp Hxt).
        * auto.
        * intros _ j Hj. lia.
      + intros x' (m & Hm & -> & Hm1 & Hm2). exists m. split; [lia|]. split; [exact Hm1|]. split.
        { intros Hmx. destruct (ctol p); [|rewrite Hm1 by reflexivity; exact Hmx].
          destruct (decide (m < maxits p)) as [Hlt|Hge]; [apply Hm2; auto|lia]. }
        apply (iterate_contracts w n A E (dinv d) (relaxC d) (rg_inv d Hg) HE (rg_relax d Hg)
          (rg_near d Hg) u rho Hu Hr0 (rg_dom d Hg) b xs Hb Hxs Hsol m e x He Hx).
  Qed.
End Both.

(** ** C74: scalar matrices *)
Section Scalar.
  Context {F : Type} {O : SOps F} {R : Field F} {mag : F -> F} {le : F -> F -> Prop} {HM : Magnitude F mag le}.
  Add Ring Fr1 : cring.
  Lemma scalar_rgood (M : srmat F) u rho d0 : let n := nbrows M in
    wf_mat M -> length (vals M) = nnz M -> (forall i, i < n -> dense M i i <> s0) -> dominant mag le n (dense M) u rho ->
    length d0 = n -> nok (jacobi_setup M d0) (rgood (mag := mag) (le := le) 1 n (dense M) sdinv (scalar_relaxC M) (offdep M) u rho).
  Proof.
    intros n Hwf Hv Hnz Hdom Hd0. pose proof Hwf as (Hw & Hd & Hs).
    eapply nok_mono; [apply nok_and; [apply (scalar_good M Hwf Hv Hnz d0 Hd0)|apply (jacobi_setup_spec M d0 Hw Hd Hv Hd0)]|].
    intros d [Hg Ed]. assert (length d = n) as Hdl by (rewrite Ed, fmap_length, seq_length; reflexivity).
    constructor; [apply Hg|apply Hg| |apply Hg|].
    - apply scalar_relax_near; auto.
    - intros i p Hi Hp. assert (p = 0) as -> by lia. cbn [bsum]. rewrite Nat.add_0_r, Nat.mul_1_r.
      destruct (g_inv _ _ _ _ _ _ _ _ _ _ d Hg i Hi 0 0 ltac:(lia) ltac:(lia)) as [Hi1 _].
      unfold mprod, ident, dblock, sdinv in Hi1. cbn [bsum] in Hi1. rewrite decide_True in Hi1 by done. rewrite Nat.add_0_r, Nat.mul_1_r in Hi1.
      specialize (Hdom i Hi). unfold sdinv.
      assert (off_sum 1 n i (fun J => (mag (dense M i J) * u J)%s) = bsum n (fun j => if decide (j = i) then s0 else (mag (dense M i j) * u j)%s)) as ->.
      { unfold off_sum. apply bsum_ext. intros c Hc. destruct (decide (c = i)); [reflexivity|]. cbn [bsum]. rewrite Nat.mul_1_r, Nat.add_0_r. ring. }
      replace (s0 + mag (vat d i) * bsum n (fun j => if decide (j = i) then s0 else (mag (dense M i j) * u j)))%s
        with (mag (vat d i) * bsum n (fun j => if decide (j = i) then s0 else (mag (dense M i j) * u j)))%s by ring.
      eapply sle_trans; [apply sle_mul; [apply mag_pos|exact Hdom]|]. apply sle_eq.
      assert (mag (vat d i) * mag (dense M i i) = s1)%s as E.
      { rewrite <- mag_mul, <- mag_1. f_equal. rewrite <- Hi1. ring. }
      transitivity (rho * (mag (vat d i) * mag (dense M i i)) * u i)%s; [ring|]. rewrite E. ring.
  Qed.

  (** Calls of asynchronous relaxation and of relaxation with symmetric Gauss-Seidel,
      with any numbers of steps, chunk sizes, threads and schedules: each brings the
      approximation nearer to the solution by the factor [rho]. *)
  Theorem C74_every_schedule (M : srmat F) b xs u rho d0 x e :
    let n := nbrows M in
    wf_mat M -> length (vals M) = nnz M -> (forall i, i < n -> dense M i i <> s0) ->
    length b = n -> length xs = n -> is_prod n (dense M) xs b ->
    (forall i, i < n -> le s0 (u i)) -> le s0 rho -> le rho s1 -> dominant mag le n (dense M) u rho ->
    length d0 = n -> le s0 e -> error_within mag le n u xs e x ->
    forall calls : list (nat * nat * nat), Forall (fun '(steps, chunk, nthr) => 1 <= steps /\ 1 <= chunk /\ 1 <= nthr) calls ->
    nok (ndo d := jacobi_setup M d0 in
         in_turn ((fun '(steps, chunk, nthr) => chaotic_relax 1 n (scalar_relaxC M d) steps chunk nthr b) <$> calls) x)
        (error_within mag le n u xs (spow rho (length calls) * e)%s) /\
    nok (ndo d := jacobi_setup M d0 in
         in_turn ((fun '(its, chunk, nthr) => sgs_relax 1 n (scalar_relaxC M d) its chunk nthr b) <$> calls) x)
        (error_within mag le n u xs (spow rho (length calls) * e)%s).
  Proof.
    intros n Hwf Hv Hnz Hb Hxs Hsol Hu Hr0 Hr1 Hdom Hd0 He Hx calls Hcalls.
    pose proof (every_schedule_main 1 n n (dense M) sdinv (scalar_relaxC M) (offdep M) (jacobi_setup M) b xs u rho) as H.
    rewrite Nat.mul_1_r in H. apply H; auto.
    intros d1 Hd1. apply scalar_rgood; auto.
  Qed.

  (** Methods that wait for every sweep gain the factor with each one: asynchronous
      and Gauss-Seidel relaxation with one thread, level scheduling with any number,
      and Jacobi's method. *)
  Theorem C74_every_sweep (M : srmat F) b xs u rho d0 x e :
    let n := nbrows M in
    wf_mat M -> length (vals M) = nnz M -> (forall i, i < n -> dense M i i <> s0) ->
    length b = n -> length xs = n -> is_prod n (dense M) xs b ->
    (forall i, i < n -> le s0 (u i)) -> le s0 rho -> le rho s1 -> dominant mag le n (dense M) u rho ->
    length d0 = n -> le s0 e -> error_within mag le n u xs e x ->
    (forall steps chunk, 1 <= chunk ->
      nok (ndo d := jacobi_setup M d0 in chaotic_relax 1 n (scalar_relaxC M d) steps chunk 1 b x)
          (error_within mag le n u xs (spow rho steps * e)%s)) /\
    (forall its chunk, 1 <= chunk ->
      nok (ndo d := jacobi_setup M d0 in sgs_relax 1 n (scalar_relaxC M d) its chunk 1 b x)
          (error_within mag le n u xs (spow rho (2 * its) * e)%s)) /\
    (forall levels its nthr, valid_levels M levels -> 1 <= nthr ->
      nok (ndo d := jacobi_setup M d0 in level_relax 1 (scalar_relaxC M d) levels its nthr b x)
          (error_within mag le n u xs (spow rho (2 * its) * e)%s)) /\
    (forall ssqrt slt p xtemp, length xtemp = n ->
      nok (ndo d := jacobi_setup M d0 in jacobi_relax ssqrt slt 1 n (scalar_relaxC M d) p xtemp b x)
          (fun x' => exists k, k <= maxits p /\ (ctol p = false -> k = maxits p) /\ (1 <= maxits p -> 1 <= k) /\
             error_within mag le n u xs (spow rho k * e)%s x')).
  Proof.
    intros n Hwf Hv Hnz Hb Hxs Hsol Hu Hr0 Hr1 Hdom Hd0 He Hx.
    pose proof (every_sweep_main 1 n n (dense M) (diag_inv (dense M)) sdinv (scalar_relaxC M) (offdep M) (jacobi_setup M) b xs u rho) as H.
    pose proof (scalar_bdiag_inverse (dense M) n Hnz) as HEi. rewrite Nat.mul_1_r in H, HEi.
    destruct (H HEi (fun d1 Hd1 => scalar_rgood M u rho d1 Hwf Hv Hnz Hdom Hd1) Hb Hxs Hsol Hu Hr0 Hr1 d0 e x Hd0 He Hx) as (H1 & H2 & H3 & H4).
    split; [exact H1|]. split; [exact H2|]. split; [|exact H4].
    intros levels its nthr Hlev Hn. destruct (mat_levels M levels Hwf Hlev) as (_ & _ & L3). apply H3; auto.
  Qed.
End Scalar.

(** ** C74: block matrices *)
Section Block.
  Context {F : Type} {O : SOps F} {R : CRing F} {mag : F -> F} {le : F -> F -> Prop} {HM : Magnitude F mag le}.
  Add Ring Fr2 : cring.
  Lemma inverse_unique n (X Y Z : nat -> nat -> F) i j : is_inverse n X Y -> is_inverse n X Z -> i < n -> j < n -> Y i j = Z i j.
  Proof.
    intros HY HZ Hi Hj.
    (* Y = Y (X Z) = (Y X) Z = Z *)
    transitivity (bsum n (fun k => Y i k * mprod n X Z k j)%s).
    { rewrite (bsum_single n j).
      - rewrite (proj1 (HZ j j Hj Hj)). unfold ident. rewrite decide_True by done. ring.
      - exact Hj.
      - intros k Hk Hne. rewrite (proj1 (HZ k j Hk Hj)). unfold ident. rewrite decide_False by done. ring. }
    transitivity (bsum n (fun k => mprod n Y X i k * Z k j)%s).
    { unfold mprod. rewrite (bsum_ext n _ (fun k => bsum n (fun l => Y i k * (X k l * Z l j))%s)) by (intros; rewrite bsum_mul_l; reflexivity).
      rewrite bsum_swap. apply bsum_ext. intros l Hl. rewrite <- bsum_mul_r. apply bsum_ext. intros k Hk. ring. }
    rewrite (bsum_single n i).
    - rewrite (proj2 (HY i i Hi Hi)). unfold ident. rewrite decide_True by done. ring.
    - exact Hi.
    - intros k Hk Hne. rewrite (proj2 (HY i k Hi Hk)). unfold ident. rewrite decide_False by congruence. ring.
  Qed.
  Lemma block_rgood so bs inv (M : srmat F) Dinv u rho d0 : let n := nbrows M in let A := bdense so bs M in
    wf_mat M -> 1 <= bs -> length (vals M) = nnz M * (bs * bs) -> inverse_oracle so bs inv -> is_inverse (n * bs) (bdiag bs A) Dinv ->
    block_dominant mag le n bs A Dinv u rho -> length d0 = n * (bs * bs) ->
    nok (bjacobi_setup inv bs M d0) (rgood (mag := mag) (le := le) bs n A (bdinv so bs) (block_relaxC so bs M) (offdep M) u rho).
  Proof.
    intros n A Hwf Hbs Hv Hor HDinv Hdom Hd0. pose proof Hwf as (Hw & Hd & Hs).
    eapply nok_mono; [apply nok_and; [apply (block_good so bs inv M Dinv Hwf Hbs Hv Hor HDinv d0 Hd0)|apply (bjacobi_setup_spec so bs inv M d0 Hw Hd Hv Hd0 Hor)]|].
    intros d [Hg [Hdl _]]. constructor; [apply Hg|apply Hg| |apply Hg|].
    - apply block_relax_near; auto.
    - intros i p Hi Hp. eapply sle_trans; [|apply (Hdom i p Hi Hp)]. apply sle_eq. apply bsum_ext. intros k Hk.
      pose proof (g_inv _ _ _ _ _ _ _ _ _ _ d Hg i Hi) as Hi1. apply is_inverse_sym in Hi1.
      pose proof (inverse_blocks bs n A Dinv i HDinv Hi) as Hi2.
      rewrite (inverse_unique bs _ _ _ p k Hi1 Hi2 Hp Hk). unfold dblock at 1. f_equal.
      rewrite bsum_flat. unfold off_sum. apply bsum_ext. intros c Hc. destruct (decide (c = i)) as [->|Hne].
      + symmetry. apply bsum_zero. intros q Hq. rewrite flat_div, decide_True by done. reflexivity.
      + apply bsum_ext. intros q Hq. rewrite flat_div, decide_False by done. reflexivity.
  Qed.

  (** Block kernels read every entry of a neighbouring segment once per row of the
      block, so the reads may be inconsistent; the rate bound covers that. *)
  Theorem C74_block_every_schedule so bs inv (M : srmat F) Dinv b xs u rho d0 x e :
    let n := nbrows M in
    let N := n * bs in
    let A := bdense so bs M in
    wf_mat M -> 1 <= bs -> length (vals M) = nnz M * (bs * bs) -> inverse_oracle so bs inv -> is_inverse N (bdiag bs A) Dinv ->
    length b = N -> length xs = N -> is_prod N A xs b ->
    (forall i, i < N -> le s0 (u i)) -> le s0 rho -> le rho s1 -> block_dominant mag le n bs A Dinv u rho ->
    length d0 = n * (bs * bs) -> le s0 e -> error_within mag le N u xs e x ->
    forall calls : list (nat * nat * nat), Forall (fun '(steps, chunk, nthr) => 1 <= steps /\ 1 <= chunk /\ 1 <= nthr) calls ->
    nok (ndo d := bjacobi_setup inv bs M d0 in
         in_turn ((fun '(steps, chunk, nthr) => chaotic_relax bs n (block_relaxC so bs M d) steps chunk nthr b) <$> calls) x)
        (error_within mag le N u xs (spow rho (length calls) * e)%s) /\
    nok (ndo d := bjacobi_setup inv bs M d0 in
         in_turn ((fun '(its, chunk, nthr) => sgs_relax bs n (block_relaxC so bs M d) its chunk nthr b) <$> calls) x)
        (error_within mag le N u xs (spow rho (length calls) * e)%s).
  Proof.
    intros n N A Hwf Hbs Hv Hor HDinv Hb Hxs Hsol Hu Hr0 Hr1 Hdom Hd0 He Hx calls Hcalls.
    apply (every_schedule_main bs n (n * (bs * bs)) A (bdinv so bs) (block_relaxC so bs M) (offdep M) (bjacobi_setup inv bs M) b xs u rho); auto.
    intros d1 Hd1. apply (block_rgood so bs inv M Dinv); auto.
  Qed.
  Theorem C74_block_every_sweep so bs inv (M : srmat F) Dinv b xs u rho d0 x e :
    let n := nbrows M in
    let N := n * bs in
    let A := bdense so bs M in
    wf_mat M -> 1 <= bs -> length (vals M) = nnz M * (bs * bs) -> inverse_oracle so bs inv -> is_inverse N (bdiag bs A) Dinv ->
    length b = N -> length xs = N -> is_prod N A xs b ->
    (forall i, i < N -> le s0 (u i)) -> le s0 rho -> le rho s1 -> block_dominant mag le n bs A Dinv u rho ->
    length d0 = n * (bs * bs) -> le s0 e -> error_within mag le N u xs e x ->
    (forall steps chunk, 1 <= chunk ->
      nok (ndo d := bjacobi_setup inv bs M d0 in chaotic_relax bs n (block_relaxC so bs M d) steps chunk 1 b x)
          (error_within mag le N u xs (spow rho steps * e)%s)) /\
    (forall its chunk, 1 <= chunk ->
      nok (ndo d := bjacobi_setup inv bs M d0 in sgs_relax bs n (block_relaxC so bs M d) its chunk 1 b x)
          (error_within mag le N u xs (spow rho (2 * its) * e)%s)) /\
    (forall levels its nthr, valid_levels M levels -> 1 <= nthr ->
      nok (ndo d := bjacobi_setup inv bs M d0 in level_relax bs (block_relaxC so bs M d) levels its nthr b x)
          (error_within mag le N u xs (spow rho (2 * its) * e)%s)) /\
    (forall ssqrt slt p xtemp, length xtemp = N ->
      nok (ndo d := bjacobi_setup inv bs M d0 in jacobi_relax ssqrt slt bs n (block_relaxC so bs M d) p xtemp b x)
          (fun x' => exists k, k <= maxits p /\ (ctol p = false -> k = maxits p) /\ (1 <= maxits p -> 1 <= k) /\
             error_within mag le N u xs (spow rho k * e)%s x')).
  Proof.
    intros n N A Hwf Hbs Hv Hor HDinv Hb Hxs Hsol Hu Hr0 Hr1 Hdom Hd0 He Hx.
    destruct (every_sweep_main bs n (n * (bs * bs)) A Dinv (bdinv so bs) (block_relaxC so bs M) (offdep M) (bjacobi_setup inv bs M) b xs u rho HDinv
      (fun d1 Hd1 => block_rgood so bs inv M Dinv u rho d1 Hwf Hbs Hv Hor HDinv Hdom Hd1) Hb Hxs Hsol Hu Hr0 Hr1 d0 e x Hd0 He Hx) as (H1 & H2 & H3 & H4).
    split; [exact H1|]. split; [exact H2|]. split; [|exact H4].
    intros levels its nthr Hlev Hn. destruct (mat_levels M levels Hwf Hlev) as (_ & _ & L3). apply H3; auto.
  Qed.
End Block.

Print Assumptions C74_every_schedule.
Print Assumptions C74_every_sweep.
Print Assumptions C74_block_every_schedule.
Print Assumptions C74_block_every_sweep.
