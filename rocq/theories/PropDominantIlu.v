(** * PropDominantIlu (C76): incomplete factorisation of dominant matrices cannot break down *)
From Coq Require Import ZArith QArith.Qcanon QArith.Qcabs.
From Verif Require Import Base Alg Norms SRMatrix Async AsyncTheory AsyncSystem AsyncSweeps Nd Kernels KernelFacts
  IluPattern IluPatternFacts IluApply TriSpec TriFacts IluApplyFacts IluApplyProofs Chains IluApplyMain Sgs SgsForms
  IluFactor IluFactorFacts IluFactorProofs IluFactorInit IluFactorMain PropIluFactor PropIluApply PropConverge DominantLu Inst PropConvergeEx.
Open Scope nat_scope.

Section C76.
  Context {F : Type} {O : SOps F} {R : Field F} {mag : F -> F} {le : F -> F -> Prop} {HM : Magnitude F mag le}.
  Add Ring Fr : cring.

  (** ** Specification *)
  (** the weights are positive *)
  Definition positive_weights (n : nat) (u : nat -> F) : Prop := forall i, i < n -> u i <> s0 /\ le s0 (u i) /\ le s0 (s1 / u i)%s.

  (** ** Rows of the factors, one after the other *)
  Lemma weight_pos n u i : positive_weights n u -> i < n -> le s0 (u i).
  Proof. intros H Hi. apply (H i Hi). Qed.
  Lemma weight_cancel n u i a b : positive_weights n u -> i < n -> le (a * u i)%s (b * u i)%s -> le a b.
  Proof.
    intros H Hi Hle. destruct (H i Hi) as (Hn & _ & Hm). pose proof (field_div s1 (u i) Hn) as E.
    replace a with (s1 / u i * (a * u i))%s by (transitivity (s1 / u i * u i * a)%s; [ring|rewrite E; ring]).
    replace b with (s1 / u i * (b * u i))%s by (transitivity (s1 / u i * u i * b)%s; [ring|rewrite E; ring]).
    apply sle_mul; [exact Hm|exact Hle].
  Qed.
  (** what is at least (1 - rho) |a|, a nonzero, is not zero *)
  Lemma not_small rho a b : ~ le s1 rho -> a <> s0 -> le ((s1 - rho) * mag a)%s (mag b) -> b <> s0.
  Proof.
    intros Hr Ha H ->. apply Hr. rewrite mag_0 in H. pose proof (field_div s1 a Ha) as E.
    assert (mag (s1 / a) * mag a = s1)%s as E2 by (rewrite <- mag_mul, E; apply mag_1).
    assert (le (mag (s1 / a) * ((s1 - rho) * mag a))%s (mag (s1 / a) * s0)%s) as H1 by (apply sle_mul; [apply mag_pos|exact H]).
    assert (mag (s1 / a) * ((s1 - rho) * mag a) = s1 - rho)%s as E3 by (transitivity (mag (s1 / a) * mag a * (s1 - rho))%s; [ring|rewrite E2; ring]).
    rewrite E3 in H1. apply (sle_cancel _ _ (sopp rho)). eapply sle_trans; [|eapply sle_trans; [exact H1|]]; apply sle_eq; ring.
  Qed.

  Section Rows.
    Variables (M : srmat F) (scale : option (list F)) (lu : list F).
    Notation n := (nbrows M).
    Notation A := (scaled_mat scale (dense M)).
    Notation B := (entry M lu).
    Hypothesis (Hwf : wf_mat M) (Hv : length (vals M) = nnz M) (Hsc : scale_ok scale n).
    Hypothesis Hcons : consistent 1 M (factor_entry M (positions M) scale) lu.
    Lemma lu_len : length lu = nnz M.
    Proof. destruct Hcons as [H _]. lia. Qed.
    (** the equations of a row, as long as the pivots above are not zero *)
    Lemma row_equation i c : i < n -> c < n -> pos M i c <> None -> (c < i -> B c c <> s0) ->
      ((if (c <? i)%nat then B i c * B c c else B i c) = A i c - bsum n (fun t => if decide (t < i /\ t < c)%nat then B i t * B t c else s0))%s.
    Proof.
      intros Hi Hc Hst Hp. destruct Hwf as (Hw & Hd & Hs). destruct (pos M i c) as [j|] eqn:E; [|congruence].
      pose proof E as E'. apply pos_Some in E' as [E1 E2]; [|done]. pose proof (inrow_lt M i j Hw E1) as Hj.
      pose proof (rowof_inrow M i j Hw E1) as Er. pose proof Hcons as [_ Hf]. specialize (Hf j Hj).
      rewrite (fix_at_1 (entC M (factor_entry M (positions M) scale)) lu j _ (exec_factor_entry M Hw Hd Hs scale lu Hv Hsc lu_len j Hj)) in Hf
        by (rewrite lu_len; lia).
      unfold below in Hf. rewrite Er, E2 in Hf. rewrite <- (entry_diag M lu Hd Hs c Hc) in Hf.
      assert (B i c = vat lu j) as EB by (apply entry_pos; exact E). rewrite EB.
      destruct (Nat.ltb_spec c i) as [Hlt|_]; [|exact Hf]. apply div_eq in Hf; [exact Hf|apply Hp, Hlt].
    Qed.
    Lemma below_mag i c k : (forall t, t < n -> (t < i /\ t < c) <-> t < k) ->
      le (mag (bsum n (fun t => if decide (t < i /\ t < c)%nat then B i t * B t c else s0))%s)
         (bsum n (fun t => if decide (t < k)%nat then mag (B i t) * mag (B t c) else s0))%s.
    Proof.
      intros Hk. apply bsum_mag. intros t Ht. specialize (Hk t Ht). destruct (decide (t < i /\ t < c)) as [H1|H1]; destruct (decide (t < k)) as [H2|H2]; try (exfalso; tauto).
      - rewrite mag_mul. apply sle_refl.
      - rewrite mag_0. apply sle_refl.
    Qed.
    Lemma prods_pos i c k : le s0 (bsum n (fun t => if decide (t < k)%nat then mag (B i t) * mag (B t c) else s0))%s.
    Proof. apply bsum_pos. intros t Ht. destruct (decide _); [apply sle_pos_mul; apply mag_pos|apply sle_refl]. Qed.
    Lemma not_stored i c : pos M i c = None -> B i c = s0.
    Proof. unfold entry. intros ->. reflexivity. Qed.
    Lemma mag_minus a b c : le (mag b) c -> le (mag (a - b)%s) (mag a + c)%s.
    Proof.
      intros H. replace (a - b)%s with (a + sopp b)%s by ring. eapply sle_trans; [apply mag_add|]. apply sle_add; [apply sle_refl|]. rewrite mag_opp. exact H.
    Qed.
    Lemma row_low_bound i c : i < n -> c < i -> B c c <> s0 ->
      le (mag (B i c) * mag (B c c))%s (mag (A i c) + bsum n (fun t => if decide (t < c)%nat then mag (B i t) * mag (B t c) else s0))%s.
    Proof.
      intros Hi Hc Hp. destruct (pos M i c) as [j|] eqn:E.
      - pose proof (row_equation i c Hi ltac:(lia) ltac:(congruence) (fun _ => Hp)) as H. destruct (Nat.ltb_spec c i); [|lia].
        rewrite <- mag_mul, H. apply mag_minus, below_mag. intros; lia.
      - rewrite (not_stored i c E), mag_0. replace (s0 * mag (B c c))%s with (s0 + s0)%s by ring. apply sle_add; [apply mag_pos|apply prods_pos].
    Qed.
    Lemma row_up_bound i c : i < n -> i <= c < n ->
      le (mag (B i c)) (mag (A i c) + bsum n (fun t => if decide (t < i)%nat then mag (B i t) * mag (B t c) else s0))%s.
    Proof.
      intros Hi Hc. destruct (pos M i c) as [j|] eqn:E.
      - pose proof (row_equation i c Hi ltac:(lia) ltac:(congruence) ltac:(lia)) as H. destruct (Nat.ltb_spec c i); [lia|].
        rewrite H at 1. apply mag_minus, below_mag. intros; lia.
      - rewrite (not_stored i c E), mag_0. replace s0 with (s0 + s0)%s at 1 by ring. apply sle_add; [apply mag_pos|apply prods_pos].
    Qed.
    Lemma row_diag_bound i : i < n ->
      le (mag (A i i)) (mag (B i i) + bsum n (fun t => if decide (t < i)%nat then mag (B i t) * mag (B t i) else s0))%s.
    Proof.
      intros Hi. destruct Hwf as (Hw & Hd & Hs).
      pose proof (row_equation i i Hi Hi ltac:(rewrite (pos_diag M i (sorted_nodup M Hs) Hd Hi); discriminate) ltac:(lia)) as H. rewrite Nat.ltb_irrefl in H.
      set (S := bsum n (fun t => if decide (t < i /\ t < i)%nat then B i t * B t i else s0)%s) in *.
      replace (A i i) with (B i i + S)%s by (rewrite H; ring). eapply sle_trans; [apply mag_add|]. apply sle_add; [apply sle_refl|]. apply below_mag. intros; lia.
    Qed.

    Lemma row_diag_near i : i < n ->
      le (mag (A i i - B i i)%s) (bsum n (fun t => if decide (t < i)%nat then mag (B i t) * mag (B t i) else s0))%s.
    Proof.
      intros Hi. destruct Hwf as (Hw & Hd & Hs).
      pose proof (row_equation i i Hi Hi ltac:(rewrite (pos_diag M i (sorted_nodup M Hs) Hd Hi); discriminate) ltac:(lia)) as H. rewrite Nat.ltb_irrefl in H.
      set (S := bsum n (fun t => if decide (t < i /\ t < i)%nat then B i t * B t i else s0)%s) in *.
      replace (A i i - B i i)%s with S by (rewrite H; ring). apply below_mag. intros; lia.
    Qed.

    Variables (u : nat -> F) (rho : F).
    Hypothesis (Hu : positive_weights n u) (Hr0 : le s0 rho) (Hr1 : le rho s1) (Hr : ~ le s1 rho).
    Hypothesis (Hnz : forall i, i < n -> A i i <> s0) (Hdom : dominant mag le n A u rho).
    Definition row_good i : Prop :=
      le (bsum n (fun j => if decide (i < j)%nat then mag (B i j) * u j else s0))%s (rho * mag (B i i) * u i)%s /\
      le ((s1 - rho) * mag (A i i))%s (mag (B i i)) /\ le (mag (B i i)) ((s1 + rho) * mag (A i i))%s /\
      le (mag (A i i - B i i)%s) (rho * mag (A i i))%s /\ B i i <> s0.
    Lemma rows_good i : i < n -> row_good i.
    Proof.
      induction (lt_wf i) as [i _ IH]. intros Hi.
      assert (forall j, j < n -> le s0 (u j)) as Hup by (intros; eapply weight_pos; eassumption).
      assert (forall c, c < i -> le (mag (B i c) * mag (B c c))%s (mag (A i c) + bsum n (fun t => if decide (t < c)%nat then mag (B i t) * mag (B t c) else s0))%s) as H1.
      { intros c Hc. apply row_low_bound; auto. apply (IH c Hc). lia. }
      assert (forall c, i < c < n -> le (mag (B i c)) (mag (A i c) + bsum n (fun t => if decide (t < i)%nat then mag (B i t) * mag (B t c) else s0))%s) as H2.
      { intros c Hc. apply row_up_bound; [exact Hi|lia]. }
      pose proof (row_diag_bound i Hi) as H3. pose proof (row_up_bound i i Hi ltac:(lia)) as H4. pose proof (Hdom i Hi) as H5.
      assert (forall t, t < i -> le (bsum n (fun j => if decide (t < j)%nat then mag (B t j) * u j else s0))%s (mag (B t t) * u t)%s) as H6.
      { intros t Ht. destruct (IH t Ht ltac:(lia)) as [G _]. eapply sle_trans; [exact G|].
        replace (rho * mag (B t t) * u t)%s with (rho * (mag (B t t) * u t))%s by ring. apply sle_mul_1; [|exact Hr1]. apply sle_pos_mul; [apply mag_pos|apply Hup; lia]. }
      assert (le ((s1 - rho) * mag (A i i))%s (mag (B i i))) as H7.
      { apply (weight_cancel n u i); auto. apply (pivot_lower n A B u rho i Hi Hup H1 H3 H5 H6). }
      split; [|split; [exact H7|split; [|split]]].
      - apply (row_dominant n A B u rho i Hi Hup Hr0 Hr1 H1 H2 H3 H5 H6).
      - apply (weight_cancel n u i); auto. apply (pivot_upper n A B u rho i Hi Hup H1 H4 H5 H6).
      - apply (weight_cancel n u i); auto. eapply sle_trans; [apply sle_mul_r; [apply Hup, Hi|apply row_diag_near, Hi]|].
        apply (SI_le n A B u rho i Hi Hup H1 H5 H6).
      - apply (not_small rho (A i i)); auto.
    Qed.
  End Rows.

  (** ** C76 *)
  (** The factors of a dominant matrix (scaled or not) have pivots that are neither zero nor much smaller or larger than the diagonal
      entries, and the rows of U are as dominant as those of the matrix *)
  Theorem C76_inherited (M : srmat F) scale lu u rho :
    let n := nbrows M in
    let A := scaled_mat scale (dense M) in
    let U := upper (entry M lu) in
    wf_mat M -> length (vals M) = nnz M -> scale_ok scale n -> length lu = nnz M ->
    (forall i, i < n -> A i i <> s0) -> positive_weights n u -> le s0 rho -> le rho s1 -> ~ le s1 rho -> dominant mag le n A u rho ->
    (forall i, i < n -> U i i <> s0) -> exact_on_pattern M (unitlower (entry M lu)) U A ->
    dominant mag le n U u rho /\
    forall i, i < n -> le ((s1 - rho) * mag (A i i))%s (mag (U i i)) /\ le (mag (U i i)) ((s1 + rho) * mag (A i i))%s /\
      le (mag (A i i - U i i)%s) (rho * mag (A i i))%s.
  Proof.
    intros n A U Hwf Hv Hsc Hl Hnz Hu Hr0 Hr1 Hr Hdom Hp Hex. pose proof Hwf as (Hw & Hd & Hs).
    assert (forall i, U i i = entry M lu i i) as EU by (intros i; unfold U, upper; rewrite decide_True by lia; reflexivity).
    assert (consistent 1 M (factor_entry M (positions M) scale) lu) as Hc.
    { apply (scalar_consistent M Hw Hd Hs scale lu Hv Hsc Hl).
      - intros i Hi. rewrite <- EU. apply Hp, Hi.
      - intros i c Hi Hc Hst. apply Hex; auto. }
    pose proof (rows_good M scale lu Hwf Hv Hsc Hc u rho Hu Hr0 Hr1 Hr Hnz Hdom) as G. split.
    - intros i Hi. destruct (G i Hi) as [H _]. rewrite EU. eapply sle_trans; [|exact H]. apply bsum_le. intros j Hj. unfold U, upper.
      destruct (decide (j = i)); [rewrite decide_False by lia; apply sle_refl|].
      destruct (decide (i <= j)); destruct (decide (i < j)); try lia; [apply sle_refl|]. replace (mag s0 * u j)%s with (s0 : F) by (rewrite mag_0; ring). apply sle_refl.
    - intros i Hi. rewrite EU. destruct (G i Hi) as (_ & H1 & H2 & H3 & _). auto.
  Qed.

  Lemma scaled_dominant (A : nat -> nat -> F) n (s : list F) u rho :
    (forall i, i < n -> vat s i <> s0) -> positive_weights n u -> dominant mag le n A u rho ->
    exists u', positive_weights n u' /\ dominant mag le n (scaled_mat (Some s) A) u' rho.
  Proof.
    intros Hs Hu Hdom. exists (fun i => mag (s1 / vat s i) * u i)%s.
    assert (forall i, i < n -> mag (vat s i) * mag (s1 / vat s i) = s1)%s as E.
    { intros i Hi. rewrite <- mag_mul. replace (vat s i * (s1 / vat s i))%s with (s1 / vat s i * vat s i)%s by ring. rewrite (field_div s1 (vat s i) (Hs i Hi)). apply mag_1. }
    split.
    - intros i Hi. destruct (Hu i Hi) as (H1 & H2 & H3). pose proof (E i Hi) as Ei.
      assert (mag (s1 / vat s i) * u i <> s0)%s as Hne.
      { intros H. apply H1. transitivity (mag (vat s i) * (mag (s1 / vat s i) * u i))%s; [|rewrite H; ring].
        transitivity (mag (vat s i) * mag (s1 / vat s i) * u i)%s; [rewrite Ei|]; ring. }
      split; [exact Hne|]. split; [apply sle_pos_mul; [apply mag_pos|exact H2]|].
      assert (s1 / (mag (s1 / vat s i) * u i) = mag (vat s i) * (s1 / u i))%s as ->.
      { symmetry. apply div_eq; [exact Hne|]. transitivity (mag (vat s i) * mag (s1 / vat s i) * (s1 / u i * u i))%s; [ring|]. rewrite Ei, (field_div s1 (u i) H1). ring. }
      apply sle_pos_mul; [apply mag_pos|exact H3].
    - intros i Hi. cbn [scaled_mat].
      assert (bsum n (fun j => if decide (j = i) then s0 else mag (vat s i * A i j * vat s j) * (mag (s1 / vat s j) * u j)) =
              mag (vat s i) * bsum n (fun j => if decide (j = i) then s0 else mag (A i j) * u j))%s as ->.
      { rewrite <- bsum_mul_l. apply bsum_ext. intros j Hj. destruct (decide (j = i)); [ring|]. rewrite !(mag_mul (mag := mag)).
        transitivity (mag (vat s i) * mag (A i j) * (mag (vat s j) * mag (s1 / vat s j)) * u j)%s; [ring|]. rewrite (E j Hj). ring. }
      eapply sle_trans; [apply sle_mul; [apply mag_pos|apply (Hdom i Hi)]|]. apply sle_eq.
      rewrite !(mag_mul (mag := mag)). transitivity (rho * mag (vat s i) * mag (A i i) * (mag (vat s i) * mag (s1 / vat s i)) * u i)%s; [rewrite (E i Hi); ring|ring].
  Qed.
  (** The diagonal entries divided by their roots are not zero *)
  Lemma diagonal_scale_nz ssqrt n (A : nat -> nat -> F) i : i < n -> ssqrt (A i i) <> s0 -> vat (diagonal_scale ssqrt n A) i <> s0.
  Proof.
    intros Hi Hs. unfold diagonal_scale. rewrite (vat_eq _ i (s1 / ssqrt (A i i))%s).
    - intros E. apply (field_10 (F := F)). rewrite <- (field_div s1 _ Hs), E. ring.
    - rewrite list_lookup_fmap, lookup_seq_lt by done. reflexivity.
  Qed.
  Lemma scaled_nz (A : nat -> nat -> F) (s : list F) i : vat s i <> s0 -> A i i <> s0 -> scaled_mat (Some s) A i i <> s0.
  Proof.
    intros Hs Ha E. cbn [scaled_mat] in E. apply Ha.
    transitivity ((s1 / vat s i * vat s i) * (s1 / vat s i * vat s i) * A i i)%s; [rewrite (field_div s1 _ Hs); ring|].
    transitivity (s1 / vat s i * (s1 / vat s i) * (vat s i * A i i * vat s i))%s; [ring|]. rewrite E. ring.
  Qed.

  (** Computing the preconditioner of a dominant matrix, with or without scaling, in order: no pivot is zero, and the product of the
      factors agrees with the (scaled) matrix on its pattern. Applying it solves with the product, which has one solution only. *)
  Theorem C76_no_breakdown (ssqrt sabs : F -> F) (M : srmat F) usescaling u rho :
    let n := nbrows M in
    let A := dense M in
    let scale := scale_used ssqrt usescaling n A in
    wf_mat M -> length (vals M) = nnz M ->
    (forall i, i < n -> A i i <> s0) -> (usescaling = true -> forall i, i < n -> ssqrt (A i i) <> s0) ->
    positive_weights n u -> le s0 rho -> le rho s1 -> ~ le s1 rho -> dominant mag le n A u rho ->
    exists lu, length lu = nnz M /\
      (forall i, i < n -> entry M lu i i <> s0) /\
      exact_on_pattern M (unitlower (entry M lu)) (upper (entry M lu)) (scaled_mat scale A) /\
      (forall k chunk usethreads nthr finit info gi gs,
        length gi = nnz M -> length gs = n -> 1 <= k -> 1 <= chunk -> usethreads = false \/ nthr = 1 ->
        finit <> INIT_F_SGS \/ usescaling = false ->
        nok (scalar_ilu0_compute ssqrt sabs k chunk usethreads nthr finit usescaling info gi gs M ilu_new)
            (fun '(st, _) => st_ilu st = Some lu /\ st_scale st = scale)) /\
      let LU := mprod n (unitlower (entry M lu)) (upper (entry M lu)) in
      forall r, length r = n -> exists x, length x = n /\ is_prod n LU x (scaled_rhs scale r) /\
        (forall x', length x' = n -> is_prod n LU x' (scaled_rhs scale r) -> x' = x) /\
        exists y, forall ytemp z nsweeps chunk usethreads nthr init,
          length ytemp = n -> length z = n -> 1 <= nsweeps -> 1 <= chunk -> init <> INIT_A_NONE -> usethreads = false \/ nthr = 1 ->
          nok (scalar_ilu0_apply M lu scale ytemp nsweeps chunk usethreads nthr init r z) (fun out => out = (y, scaled_sol scale x)).
  Proof.
    intros n A scale Hwf Hv Hnz Hsq Hu Hr0 Hr1 Hr Hdom. pose proof Hwf as (Hw & Hd & Hs).
    assert ((if usescaling then Some (scaling_list ssqrt M 1) else None) = scale) as Esc.
    { unfold scale, scale_used. destruct usescaling; [|reflexivity]. f_equal. apply scaling_dense, Hwf. }
    pose proof (sc_of_ok1 ssqrt M usescaling) as Hsc.
    destruct (compute_sequential ssqrt sabs M Hw Hd Hs Hv usescaling) as (lu & H1 & _ & _). rewrite Esc in *.
    destruct (C29_compute_sequential F O R ssqrt sabs M usescaling Hwf Hv) as (lu' & Hl' & H2 & H3 & H4).
    assert (exists u', positive_weights n u' /\ dominant mag le n (scaled_mat scale A) u' rho /\ forall i, i < n -> scaled_mat scale A i i <> s0) as (u' & Hu' & Hdom' & Hnz').
    { unfold scale, scale_used in *. destruct usescaling; [|exists u; auto].
      assert (forall i, i < n -> vat (diagonal_scale ssqrt n A) i <> s0) as Hs0 by (intros; apply diagonal_scale_nz; auto).
      destruct (scaled_dominant A n (diagonal_scale ssqrt n A) u rho Hs0 Hu Hdom) as (u' & G1 & G2). exists u'. split; [exact G1|]. split; [exact G2|].
      intros i Hi. apply scaled_nz; auto. }
    pose proof (rows_good M scale lu Hwf Hv Hsc H1 u' rho Hu' Hr0 Hr1 Hr Hnz' Hdom') as G.
    assert (forall i, i < n -> entry M lu i i <> s0) as Hp by (intros i Hi; apply (G i Hi)).
    assert (length lu = nnz M) as Hl by (destruct H1 as [Hl0 _]; lia).
    assert (exact_on_pattern M (unitlower (entry M lu)) (upper (entry M lu)) (scaled_mat scale A)) as Hex.
    { intros i c Hi Hc Hst. apply (proj1 (scalar_consistent M Hw Hd Hs scale lu Hv Hsc Hl Hp) H1); auto. }
    exists lu. split; [exact Hl|]. split; [exact Hp|]. split; [exact Hex|]. split.
    - rewrite (H3 lu Hl Hp Hex). exact H4.
    - intros LU r Hlr. apply (C34_scalar_sequential_apply F O R M lu scale r Hwf Hl Hp Hsc Hlr).
  Qed.
End C76.
Arguments positive_weights {F O} le n u.

(** ** Dominance cannot be weakened *)
(** a matrix with rate 1 *)
Definition weakM : srmat Qc := SR [0; 2; 4] [0; 1; 0; 1] (q <$> [1; 1; 1; 1]%Z) [0; 3] [2; 4] 2 4 4.
(** a symmetric positive definite matrix (after Kershaw): the factorisation drops positions (1, 3) and (3, 1) *)
Definition kershawM : srmat Qc :=
  SR [0; 3; 6; 9; 12] [0; 1; 3; 0; 1; 2; 1; 2; 3; 0; 2; 3] (q <$> [3; -2; 2; -2; 3; -2; -2; 3; -2; 2; -2; 8]%Z) [0; 4; 7; 11] [3; 6; 9; 12] 4 12 12.

Section Equations.
  Open Scope Qc_scope.
  Definition equations (M : srmat Qc) (B : nat -> nat -> Qc) : Prop := forall i c, (i < nbrows M)%nat -> (c < nbrows M)%nat -> pos M i c <> None -> ((c < i)%nat -> B c c <> q 0) ->
    (if (c <? i)%nat then B i c * B c c else B i c) = dense M i c - bsum (nbrows M) (fun t => if decide (t < i /\ t < c)%nat then B i t * B t c else q 0).
  Lemma equations_exact M lu : exact_on_pattern M (unitlower (entry M lu)) (upper (entry M lu)) (dense M) -> equations M (entry M lu).
  Proof.
    intros H i c Hi Hc Hp _. specialize (H i c Hi Hc Hp). rewrite (lu_entry M) in H by assumption.
    set (S := bsum (nbrows M) (fun t => if decide (t < i /\ t < c)%nat then entry M lu i t * entry M lu t c else q 0)).
    change (S + (if (c <? i)%nat then entry M lu i c * entry M lu c c else entry M lu i c) = dense M i c) in H. rewrite <- H. ring.
  Qed.
  Lemma equations_computed M lu : wf_mat M -> length (vals M) = nnz M -> consistent 1 M (factor_entry M (positions M) None) lu -> equations M (entry M lu).
  Proof. intros H1 H2 H3 i c Hi Hc Hp Hn. apply (row_equation M None lu H1 H2 Logic.I H3 i c Hi Hc Hp Hn). Qed.
  Lemma weak_pivot lu : equations weakM (entry weakM lu) -> entry weakM lu 1 1 = q 0.
  Proof.
    intros H. assert (forall B, (forall i c, pos weakM i c = None -> B i c = q 0) -> equations weakM B -> B 1%nat 1%nat = q 0) as G; [|apply G; [|exact H]; unfold entry; intros i c ->; reflexivity].
    clear. intros B HB H. unfold equations in H. set (z := q 0) in *.
    assert (B 0%nat 0%nat = q 1 - (z + z + z)) as E00 by (exact (H 0 0 ltac:(cbn; lia) ltac:(cbn; lia) ltac:(discriminate) ltac:(lia))%nat).
    assert (B 0%nat 1%nat = q 1 - (z + z + z)) as E01 by (exact (H 0 1 ltac:(cbn; lia) ltac:(cbn; lia) ltac:(discriminate) ltac:(lia))%nat).
    assert (B 0%nat 0%nat = q 1) as F00 by (rewrite E00; apply Qc_is_canon; reflexivity).
    assert (B 0%nat 1%nat = q 1) as F01 by (rewrite E01; apply Qc_is_canon; reflexivity).
    assert (B 1%nat 0%nat * B 0%nat 0%nat = q 1 - (z + z + z)) as E10 by (exact (H 1 0 ltac:(cbn; lia) ltac:(cbn; lia) ltac:(discriminate) ltac:(intros _; rewrite F00; discriminate))%nat).
    assert (B 1%nat 0%nat = q 1) as F10.
    { rewrite F00 in E10. replace (B 1%nat 0%nat) with (B 1%nat 0%nat * q 1) by apply Qcmult_1_r. rewrite E10. apply Qc_is_canon; reflexivity. }
    assert (B 1%nat 1%nat = q 1 - (z + B 1%nat 0%nat * B 0%nat 1%nat + z)) as E11 by (exact (H 1 1 ltac:(cbn; lia) ltac:(cbn; lia) ltac:(discriminate) ltac:(lia))%nat).
    rewrite E11, F10, F01. apply Qc_is_canon. reflexivity.
  Qed.
  Lemma Qc_div_by (x : Qc) a b c : a <> 0 -> x * a = b -> c * a = b -> x = c.
  Proof.
    intros Ha H1 H2. assert ((x - c) * a = 0) as H by (transitivity (x * a - c * a); [ring|rewrite H1, H2; ring]).
    apply Qcmult_integral in H as [H|H]; [|contradiction]. transitivity (x - c + c); [ring|rewrite H; ring].
  Qed.
  Lemma kershaw_pivot lu : equations kershawM (entry kershawM lu) -> entry kershawM lu 3 3 = q 0.
  Proof.
    intros H. assert (forall B, (forall i c, pos kershawM i c = None -> B i c = q 0) -> equations kershawM B -> B 3%nat 3%nat = q 0) as G; [|apply G; [|exact H]; unfold entry; intros i c ->; reflexivity].
    clear. intros B HB H. unfold equations in H. set (z := q 0) in *.
    pose proof (HB 0 2 eq_refl)%nat as Z02. pose proof (HB 1 3 eq_refl)%nat as Z13. pose proof (HB 2 0 eq_refl)%nat as Z20. pose proof (HB 3 1 eq_refl)%nat as Z31.
    assert (B 0%nat 0%nat = q 3) as F00.
    { transitivity (q 3 - (z + z + z + z + z)); [exact (H 0 0 ltac:(cbn; lia) ltac:(cbn; lia) ltac:(discriminate) ltac:(lia))%nat|apply Qc_is_canon; reflexivity]. }
    assert (B 0%nat 1%nat = q (-2)) as F01.
    { transitivity (q (-2) - (z + z + z + z + z)); [exact (H 0 1 ltac:(cbn; lia) ltac:(cbn; lia) ltac:(discriminate) ltac:(lia))%nat|apply Qc_is_canon; reflexivity]. }
    assert (B 0%nat 3%nat = q 2) as F03.
    { transitivity (q 2 - (z + z + z + z + z)); [exact (H 0 3 ltac:(cbn; lia) ltac:(cbn; lia) ltac:(discriminate) ltac:(lia))%nat|apply Qc_is_canon; reflexivity]. }
    assert (B 1%nat 0%nat = q (-2) / q 3) as F10.
    { pose proof (H 1 0 ltac:(cbn; lia) ltac:(cbn; lia) ltac:(discriminate) ltac:(intros _; rewrite F00; discriminate))%nat as E.
      change (B 1%nat 0%nat * B 0%nat 0%nat = q (-2) - (z + z + z + z + z)) in E. rewrite F00 in E. refine (Qc_div_by _ _ _ _ _ E _); [discriminate|apply Qc_is_canon; reflexivity]. }
    assert (B 1%nat 1%nat = q 5 / q 3) as F11.
    { pose proof (H 1 1 ltac:(cbn; lia) ltac:(cbn; lia) ltac:(discriminate) ltac:(lia))%nat as E.
      change (B 1%nat 1%nat = q 3 - (z + B 1%nat 0%nat * B 0%nat 1%nat + z + z + z)) in E. rewrite E, F10, F01. apply Qc_is_canon; reflexivity. }
    assert (B 1%nat 2%nat = q (-2)) as F12.
    { pose proof (H 1 2 ltac:(cbn; lia) ltac:(cbn; lia) ltac:(discriminate) ltac:(lia))%nat as E.
      change (B 1%nat 2%nat = q (-2) - (z + B 1%nat 0%nat * B 0%nat 2%nat + z + z + z)) in E. rewrite E, Z02, F10. apply Qc_is_canon; reflexivity. }
    assert (B 2%nat 1%nat = q (-6) / q 5) as F21.
    { pose proof (H 2 1 ltac:(cbn; lia) ltac:(cbn; lia) ltac:(discriminate) ltac:(intros _; rewrite F11; discriminate))%nat as E.
      change (B 2%nat 1%nat * B 1%nat 1%nat = q (-2) - (z + B 2%nat 0%nat * B 0%nat 1%nat + z + z + z)) in E. rewrite Z20, F01, F11 in E.
      refine (Qc_div_by _ _ _ _ _ E _); [discriminate|apply Qc_is_canon; reflexivity]. }
    assert (B 2%nat 2%nat = q 3 / q 5) as F22.
    { pose proof (H 2 2 ltac:(cbn; lia) ltac:(cbn; lia) ltac:(discriminate) ltac:(lia))%nat as E.
      change (B 2%nat 2%nat = q 3 - (z + B 2%nat 0%nat * B 0%nat 2%nat + B 2%nat 1%nat * B 1%nat 2%nat + z + z)) in E. rewrite E, Z20, Z02, F21, F12. apply Qc_is_canon; reflexivity. }
    assert (B 2%nat 3%nat = q (-2)) as F23.
    { pose proof (H 2 3 ltac:(cbn; lia) ltac:(cbn; lia) ltac:(discriminate) ltac:(lia))%nat as E.
      change (B 2%nat 3%nat = q (-2) - (z + B 2%nat 0%nat * B 0%nat 3%nat + B 2%nat 1%nat * B 1%nat 3%nat + z + z)) in E. rewrite E, Z20, Z13, F21, F03. apply Qc_is_canon; reflexivity. }
    assert (B 3%nat 0%nat = q 2 / q 3) as F30.
    { pose proof (H 3 0 ltac:(cbn; lia) ltac:(cbn; lia) ltac:(discriminate) ltac:(intros _; rewrite F00; discriminate))%nat as E.
      change (B 3%nat 0%nat * B 0%nat 0%nat = q 2 - (z + z + z + z + z)) in E. rewrite F00 in E. refine (Qc_div_by _ _ _ _ _ E _); [discriminate|apply Qc_is_canon; reflexivity]. }
    assert (B 3%nat 2%nat = q (-10) / q 3) as F32.
    { pose proof (H 3 2 ltac:(cbn; lia) ltac:(cbn; lia) ltac:(discriminate) ltac:(intros _; rewrite F22; discriminate))%nat as E.
      change (B 3%nat 2%nat * B 2%nat 2%nat = q (-2) - (z + B 3%nat 0%nat * B 0%nat 2%nat + B 3%nat 1%nat * B 1%nat 2%nat + z + z)) in E. rewrite Z02, Z31, F12, F22, F30 in E.
      refine (Qc_div_by _ _ _ _ _ E _); [discriminate|apply Qc_is_canon; reflexivity]. }
    pose proof (H 3 3 ltac:(cbn; lia) ltac:(cbn; lia) ltac:(discriminate) ltac:(lia))%nat as E.
    change (B 3%nat 3%nat = q 8 - (z + B 3%nat 0%nat * B 0%nat 3%nat + B 3%nat 1%nat * B 1%nat 3%nat + B 3%nat 2%nat * B 2%nat 3%nat + z)) in E.
    rewrite E, F30, F03, Z31, Z13, F32, F23. apply Qc_is_canon; reflexivity.
  Qed.
  Lemma kershaw_definite : symmetric 4 (dense kershawM) /\ positive_definite 4 (dense kershawM).
  Proof.
    split.
    - intros i j Hi Hj. destruct i as [|[|[|[|]]]], j as [|[|[|[|]]]]; try lia; reflexivity.
    - intros v (i & Hi & Hv). set (a := v 0%nat). set (b := v 1%nat). set (c := v 2%nat). set (d := v 3%nat).
      set (Q := bsum 4 _).
      assert (Q = 0 + a * (0 + q 3 * a + q (-2) * b + 0 * c + q 2 * d) + b * (0 + q (-2) * a + q 3 * b + q (-2) * c + 0 * d)
                + c * (0 + 0 * a + q (-2) * b + q 3 * c + q (-2) * d) + d * (0 + q 2 * a + 0 * b + q (-2) * c + q 8 * d)) as EQ by reflexivity.
      set (s := q 5 * ((q 3 * a - q 2 * b + q 2 * d) * (q 3 * a - q 2 * b + q 2 * d)) + (q 5 * b - q 6 * c + q 4 * d) * (q 5 * b - q 6 * c + q 4 * d)
                + (q 3 * c - q 2 * d) * (q 3 * c - q 2 * d) + q 80 * (d * d)).
      assert (q 15 * Q = s) as E15.
      { rewrite EQ. unfold s. clear.
        replace (q 2) with (1 + 1) by (apply Qc_is_canon; reflexivity). replace (q 3) with (1 + 1 + 1) by (apply Qc_is_canon; reflexivity).
        replace (q (-2)) with (- (1 + 1)) by (apply Qc_is_canon; reflexivity). replace (q 5) with (1 + 1 + 1 + 1 + 1) by (apply Qc_is_canon; reflexivity).
        replace (q 6) with (1 + 1 + 1 + 1 + 1 + 1) by (apply Qc_is_canon; reflexivity). replace (q 4) with (1 + 1 + 1 + 1) by (apply Qc_is_canon; reflexivity).
        replace (q 8) with ((1 + 1 + 1 + 1) * (1 + 1)) by (apply Qc_is_canon; reflexivity). replace (q 15) with ((1 + 1 + 1) * (1 + 1 + 1 + 1 + 1)) by (apply Qc_is_canon; reflexivity).
        replace (q 80) with ((1 + 1 + 1 + 1) * (1 + 1 + 1 + 1) * (1 + 1 + 1 + 1 + 1)) by (apply Qc_is_canon; reflexivity). ring. }
      assert (forall x y, q 0 <= x -> q 0 <= y -> q 0 <= x + y) as Hadd by (intros x y Hx Hy; apply (Qcplus_le_compat (q 0) x (q 0) y Hx Hy)).
      assert (forall k x, q 0 <= k -> q 0 <= k * (x * x)) as Hk.
      { intros k x H. replace (q 0) with (q 0 * (x * x)) by apply Qcmult_0_l. apply Qcmult_le_compat_r; [exact H|apply Qc_square]. }
      assert (q 0 < s) as Hs.
      { assert (q 0 <= s) as H0 by (unfold s; repeat apply Hadd; try apply Qc_square; apply Hk; vm_compute; discriminate).
        apply Qcle_lt_or_eq in H0 as [H0|H0]; [exact H0|]. exfalso.
        assert (forall x y, q 0 <= x -> q 0 <= y -> q 0 = x + y -> x = q 0 /\ y = q 0) as Hz.
        { intros x y Hx Hy E. split.
          - destruct (Qcle_lt_or_eq _ _ Hx) as [G|G]; [|auto]. exfalso. pose proof (Qc_add_pos x y G Hy) as G2. rewrite <- E in G2. apply (Qclt_not_eq _ _ G2). reflexivity.
          - destruct (Qcle_lt_or_eq _ _ Hy) as [G|G]; [|auto]. exfalso. pose proof (Qc_add_pos y x G Hx) as G2. rewrite Qcplus_comm, <- E in G2. apply (Qclt_not_eq _ _ G2). reflexivity. }
        unfold s in H0. apply Hz in H0 as [H0 E4]; [|repeat apply Hadd; try apply Qc_square; apply Hk; vm_compute; discriminate|apply Hk; vm_compute; discriminate].
        symmetry in H0. apply Hz in H0 as [H0 E3]; [|repeat apply Hadd; try apply Qc_square; apply Hk; vm_compute; discriminate|apply Qc_square].
        symmetry in H0. apply Hz in H0 as [E1 E2]; [|apply Hk; vm_compute; discriminate|apply Qc_square].
        assert (forall k x, k <> 0 -> k * x = 0 -> x = 0) as Hm by (intros k x Hk0 E; apply Qcmult_integral in E as [E|E]; [contradiction|exact E]).
        assert (forall x, x * x = 0 -> x = 0) as Hsq by (intros x E; apply Qcmult_integral in E as [E|E]; exact E).
        apply Hm in E4; [|discriminate]. apply Hsq in E4. rewrite E4 in *.
        apply Hsq in E3. assert (c = 0) as Ec by (apply (Hm (q 3)); [discriminate|]; rewrite <- E3; ring). rewrite Ec in *.
        apply Hsq in E2. assert (b = 0) as Eb by (apply (Hm (q 5)); [discriminate|]; rewrite <- E2; ring). rewrite Eb in *.
        apply Hm in E1; [|discriminate]. apply Hsq in E1. assert (a = 0) as Ea by (apply (Hm (q 3)); [discriminate|]; rewrite <- E1; ring).
        apply Hv. destruct i as [|[|[|[|]]]]; [exact Ea|exact Eb|exact Ec|exact E4|lia]. }
      rewrite <- E15 in Hs. destruct (Qclt_le_dec (q 0) Q) as [G|G]; [exact G|]. exfalso. apply (Qclt_not_le _ _ Hs).
      replace (q 0) with (q 0 * q 15) by apply Qcmult_0_l. rewrite Qcmult_comm. apply Qcmult_le_compat_r; [exact G|vm_compute; discriminate].
  Qed.
End Equations.

(** Breakdown: a matrix without other factors than ones with a zero pivot, and these the code computes *)
Definition breaks_down (M : srmat Qc) (i : nat) : Prop :=
  (forall lu, length lu = nnz M -> exact_on_pattern M (unitlower (entry M lu)) (upper (entry M lu)) (dense M) -> entry M lu i i = q 0) /\
  forall ssqrt sabs k chunk usethreads nthr finit info gi gs,
    length gi = nnz M -> length gs = nbrows M -> 1 <= k -> 1 <= chunk -> usethreads = false \/ nthr = 1 ->
    nok (scalar_ilu0_compute ssqrt sabs k chunk usethreads nthr finit false info gi gs M ilu_new)
        (fun '(st, _) => exists lu, st_ilu st = Some lu /\ entry M lu i i = q 0).
Lemma breaks M i : wf_mat M -> length (vals M) = nnz M -> (forall lu, equations M (entry M lu) -> entry M lu i i = q 0) -> breaks_down M i.
Proof.
  intros Hwf Hv H. split; [intros lu Hl Hex; apply H, equations_exact, Hex|].
  intros ssqrt sabs k chunk ut nthr finit info gi gs Hgi Hgs Hk Hc Hseq. pose proof Hwf as (Hw & Hd & Hs).
  destruct (compute_sequential ssqrt sabs M Hw Hd Hs Hv false) as (lu & H1 & _ & H3).
  eapply nok_mono; [apply (H3 k chunk ut nthr finit info gi gs ilu_new); auto; discriminate|].
  intros [st x] [-> _]. exists lu. split; [reflexivity|]. apply H, equations_computed; [exact Hwf|exact Hv|exact H1].
Qed.
(** Weak dominance, even in all rows, is not enough, and neither is it to be symmetric and positive definite *)
Theorem C76_weak_refuted :
  wf_mat weakM /\ length (vals weakM) = nnz weakM /\ (forall i, i < 2 -> dense weakM i i <> q 0) /\
  dominant Qcabs Qcle 2 (dense weakM) (fun _ => q 1) (q 1) /\ breaks_down weakM 1.
Proof.
  assert (wf_mat weakM) as Hwf by (split; [apply wfb_pat_ok; reflexivity|]; split; [apply wfb_diag_ok; reflexivity|apply wfb_sorted_ok; reflexivity]).
  split; [exact Hwf|]. split; [reflexivity|]. split; [intros [|[|]] Hi; [discriminate|discriminate|lia]|].
  split; [intros [|[|]] Hi; [vm_compute; discriminate|vm_compute; discriminate|lia]|]. apply breaks; [exact Hwf|reflexivity|apply weak_pivot].
Qed.
Theorem C76_definite_refuted :
  wf_mat kershawM /\ length (vals kershawM) = nnz kershawM /\ symmetric 4 (dense kershawM) /\ positive_definite 4 (dense kershawM) /\ breaks_down kershawM 3.
Proof.
  assert (wf_mat kershawM) as Hwf by (split; [apply wfb_pat_ok; reflexivity|]; split; [apply wfb_diag_ok; reflexivity|apply wfb_sorted_ok; reflexivity]).
  split; [exact Hwf|]. split; [reflexivity|]. split; [apply kershaw_definite|]. split; [apply kershaw_definite|]. apply breaks; [exact Hwf|reflexivity|apply kershaw_pivot].
Qed.
(** a dominant matrix which is factorised inexactly (fill-in at (1, 3) and (3, 1)), with uneven weights *)
Definition dom4M : srmat Qc :=
  SR [0; 3; 6; 9; 12] [0; 1; 3; 0; 1; 2; 1; 2; 3; 0; 2; 3] (q <$> [6; -2; 2; -2; 6; -2; -2; 6; -2; 2; -2; 12]%Z) [0; 4; 7; 11] [3; 6; 9; 12] 4 12 12.
Example C76_case :
  wf_mat dom4M /\ length (vals dom4M) = nnz dom4M /\ (forall i, i < 4 -> dense dom4M i i <> q 0) /\
  positive_weights Qcle 4 (fun i => if decide (i = 3) then q 1 / q 2 else q 1)%Qc /\ Qcle (q 0) (q 2 / q 3)%Qc /\ Qcle (q 2 / q 3)%Qc (q 1) /\ ~ Qcle (q 1) (q 2 / q 3)%Qc /\
  dominant Qcabs Qcle 4 (dense dom4M) (fun i => if decide (i = 3) then q 1 / q 2 else q 1)%Qc (q 2 / q 3)%Qc.
Proof.
  split; [split; [apply wfb_pat_ok; reflexivity|]; split; [apply wfb_diag_ok; reflexivity|apply wfb_sorted_ok; reflexivity]|].
  split; [reflexivity|]. split; [intros [|[|[|[|]]]] Hi; [discriminate..|lia]|].
  split; [intros [|[|[|[|]]]] Hi; [| | | |lia]; (split; [vm_compute; discriminate|split; vm_compute; discriminate])|].
  split; [vm_compute; discriminate|]. split; [vm_compute; discriminate|]. split; [intros H; vm_compute in H; apply H; reflexivity|].
  intros [|[|[|[|]]]] Hi; [vm_compute; discriminate..|lia].
Qed.
Print Assumptions C76_inherited.
Print Assumptions C76_no_breakdown.
Print Assumptions C76_weak_refuted.
Print Assumptions C76_definite_refuted.
