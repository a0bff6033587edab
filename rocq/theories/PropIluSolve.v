(** * PropIluSolve: properties C57 (compute, then apply, solves A z = r if there is no
      fill-in outside the pattern) and C58 (the symmetric scaling) *)
From Verif Require Import Base Alg SRMatrix Async AsyncTheory AsyncSystem AsyncSweeps Nd Kernels KernelFacts
  IluPattern IluPatternFacts IluApply TriSpec TriFacts IluApplyFacts IluApplyProofs Chains IluApplyMain Sgs SgsForms SgsMain
  IluFactor IluFactorFacts IluFactorProofs IluFactorInit IluFactorMain PropIluApply PropIluFactor PropIluInit Inst.
From Coq Require Import QArith.Qcanon.
Open Scope nat_scope.

(** ** C58 *)
(** [ssqrt] is a square root of the diagonal entries *)
Section Scaling.
  Context {F : Type} {O : SOps F} {R : Field F}.
  Add Ring Fr : cring.
  Open Scope s_scope.
  Lemma inv_unique (x y : F) : y <> s0 -> x * y = s1 -> x = s1 / y.
  Proof.
    intros Hy E. transitivity (x * ((s1 / y) * y)); [rewrite field_div by done; ring|].
    transitivity ((x * y) * (s1 / y)); [ring|]. rewrite E. ring.
  Qed.
  Lemma mul_nz (x y : F) : x <> s0 -> y <> s0 -> x * y <> s0.
  Proof.
    intros Hx Hy E. apply Hx. transitivity ((x * y) * (s1 / y)).
    - transitivity (x * ((s1 / y) * y)); [rewrite field_div by done; ring|ring].
    - rewrite E. ring.
  Qed.
  Lemma inv_nz (y : F) : y <> s0 -> s1 / y <> s0.
  Proof. intros Hy E. pose proof (field_div s1 y Hy) as H. rewrite E in H. apply field_10. rewrite <- H. ring. Qed.
  Lemma unit_diag (d r : F) : d <> s0 -> r * r = d -> (s1 / r) * d * (s1 / r) = s1.
  Proof.
    intros Hd E. assert (r <> s0) as Hr. { intros ->. apply Hd. rewrite <- E. ring. }
    rewrite <- E. transitivity (((s1 / r) * r) * ((s1 / r) * r)); [ring|]. rewrite field_div by done. ring.
  Qed.
End Scaling.
Lemma vat_diagonal_scale {F} {O : SOps F} ssqrt n (A : nat -> nat -> F) i : i < n -> vat (diagonal_scale ssqrt n A) i = (s1 / ssqrt (A i i))%s.
Proof. intros Hi. unfold diagonal_scale. rewrite vat_fmap_seq by done. reflexivity. Qed.

(** computing with scaling: S A S has unit diagonal *)
Theorem C58_unit_diagonal :
  forall (F : Type) (O : SOps F) (R : Field F) ssqrt sabs (M : srmat F) k chunk usethreads nthr finit info gi gs st i,
  let n := nbrows M in
  let A := dense M in
  wf_mat M -> length (vals M) = nnz M -> length gi = nnz M -> length gs = n ->
  (forall i, i < n -> A i i <> s0 /\ (ssqrt (A i i) * ssqrt (A i i))%s = A i i) -> finit <> INIT_F_SGS ->
  scalar_ilu0_compute ssqrt sabs k chunk usethreads nthr finit true info gi gs M ilu_new (Ok (st, i)) ->
  exists s, st_scale st = Some s /\ length s = n /\ forall i, i < n -> scaled_mat (Some s) A i i = s1.
Proof.
  intros F O R ssqrt sabs M k chunk ut nthr finit info gi gs st i n A HM Hv Hgi Hgs Hsq Hf Hout.
  pose proof HM as (Hw & Hd & Hs).
  assert (exists o, length o = nnz M /\ forall out,
    scalar_ilu0_compute ssqrt sabs k chunk ut nthr finit true info gi gs M ilu_new out <->
    (ndo (ilu, scale, i) := factorize_from sabs M k chunk ut nthr info (Some (scaling_list ssqrt M 1)) o in
     nret (IluState (Some ilu) scale (positions M), i)) out) as (o & _ & Ho).
  { assert (finit = INIT_F_NONE \/ finit <> INIT_F_NONE) as [->|Hne] by (destruct finit; (left; reflexivity) || (right; discriminate)).
    - destruct (compute_none ssqrt sabs M Hw Hd Hs Hv true k chunk ut nthr info gi gs ilu_new) as (o & (H1 & _) & H2); auto.
      exists o. auto.
    - destruct (compute_outcomes ssqrt sabs M Hw Hd Hs Hv true finit Hne) as (o & H1 & _ & H2); [congruence|].
      exists o. split; [exact H1|]. intros out. apply H2; auto. }
  apply Ho in Hout. apply nbind_Ok in Hout as ([[ilu sc] i'] & H1 & H2). injection H2 as -> <-.
  unfold factorize_from in H1. apply nbind_Ok in H1 as (a0 & H3 & H1). apply nbind_Ok in H1 as (x & H4 & H1).
  apply nbind_Ok in H1 as (a1 & H5 & H1). injection H1 as -> -> ->. simpl.
  rewrite scaling_dense by done. eexists. split; [reflexivity|]. split.
  - unfold diagonal_scale. rewrite fmap_length, seq_length. reflexivity.
  - intros r Hr. destruct (Hsq r Hr) as [E1 E2]. unfold scaled_mat. rewrite vat_diagonal_scale by done.
    apply unit_diag; auto.
Qed.

(** ** C57 *)
(** no fill-in: wherever elimination could create an entry, there is one *)
Definition no_fill {A} (M : srmat A) : Prop :=
  forall i c t, i < nbrows M -> c < nbrows M -> t < i -> t < c -> pos M i t <> None -> pos M t c <> None -> pos M i c <> None.
Section NoFill.
  Context {F : Type} {O : SOps F} {R : CRing F}.
  Add Ring Fr2 : cring.
  Open Scope s_scope.
  Lemma no_fill_exact (M : srmat F) (B A : nat -> nat -> F) : no_fill M ->
    (forall i c, pos M i c = None -> B i c = s0) -> (forall i c, pos M i c = None -> A i c = s0) ->
    exact_on_pattern M (unitlower B) (upper B) A ->
    forall i c, (i < nbrows M)%nat -> (c < nbrows M)%nat -> mprod (nbrows M) (unitlower B) (upper B) i c = A i c.
  Proof.
    intros Hf HB HA Hex i c Hi Hc. destruct (pos M i c) as [j|] eqn:E; [apply Hex; auto; congruence|].
    rewrite HA by done. unfold mprod. apply bsum_zero. intros t Ht. unfold unitlower, upper.
    destruct (decide (t < i)%nat), (decide (t <= c)%nat); try ring.
    - destruct (decide (t = c)) as [->|Hne]; [rewrite (HB i c) by done; ring|].
      destruct (pos M i t) eqn:E1; [|rewrite (HB i t) by done; ring].
      destruct (pos M t c) eqn:E2; [|rewrite (HB t c) by done; ring].
      exfalso. apply (Hf i c t); auto; try congruence; lia.
    - destruct (decide (i = t)) as [->|]; [|ring]. rewrite (HB t c) by done. ring.
  Qed.
  Lemma scaled_solve (n : nat) (A : nat -> nat -> F) scale (x r : list F) : scale_ok scale n -> length x = n -> length r = n ->
    match scale with Some s => forall i, (i < n)%nat -> exists y, y * vat s i = s1 | None => True end ->
    is_prod n (scaled_mat scale A) x (scaled_rhs scale r) -> is_prod n A (scaled_sol scale x) r.
  Proof.
    destruct scale as [s|]; [|intros; assumption]. simpl. intros Hs Hx Hr Hinv H i Hi. specialize (H i Hi).
    destruct (Hinv i Hi) as (y & Hy). unfold scaled_mat in H.
    assert (forall v w j, length v = n -> length w = n -> (j < n)%nat -> vat (zip_with smul v w) j = vat v j * vat w j) as Hz.
    { intros v w j Hv Hw Hj. apply vat_eq. rewrite lookup_zip_with, (vat_Some v), (vat_Some w) by lia. reflexivity. }
    rewrite Hz in H by done.
    transitivity (y * bsum n (fun j => vat s i * A i j * vat s j * vat x j)).
    - rewrite <- bsum_mul_l. apply bsum_ext. intros j Hj. rewrite Hz by done.
      transitivity ((y * vat s i) * (A i j * (vat x j * vat s j))); [rewrite Hy; ring|ring].
    - rewrite H. transitivity ((y * vat s i) * vat r i); [ring|]. rewrite Hy. ring.
  Qed.
  Lemma is_prod_ext n (A B : nat -> nat -> F) x b : (forall i j, (i < n)%nat -> (j < n)%nat -> A i j = B i j) -> is_prod n A x b -> is_prod n B x b.
  Proof. intros E H i Hi. rewrite <- (H i Hi). apply bsum_ext. intros j Hj. rewrite E by done. reflexivity. Qed.
End NoFill.
(** A new object; sequential compute; sequential apply. [lu] is what compute stores. If
    its pivots are nonzero then apply returns the solution of A z = r. *)
Theorem C57_direct_solver :
  forall (F : Type) (O : SOps F) (R : Field F) ssqrt sabs (M : srmat F) usescaling,
  let n := nbrows M in
  let A := dense M in
  let scale := scale_used ssqrt usescaling n A in
  wf_mat M -> length (vals M) = nnz M -> no_fill M ->
  (usescaling = true -> forall i, i < n -> ssqrt (A i i) <> s0) ->
  exists lu,
    (forall k chunk usethreads nthr finit info gi gs,
      length gi = nnz M -> length gs = n -> 1 <= k -> 1 <= chunk -> usethreads = false \/ nthr = 1 ->
      finit <> INIT_F_SGS \/ usescaling = false ->
      nok (scalar_ilu0_compute ssqrt sabs k chunk usethreads nthr finit usescaling info gi gs M ilu_new)
          (fun '(st, _) => st_ilu st = Some lu /\ st_scale st = scale)) /\
    ((forall i, i < n -> entry M lu i i <> s0) -> forall r, length r = n ->
      exists z, length z = n /\ is_prod n A z r /\
        forall ytemp z0 nsweeps chunk usethreads nthr init,
          length ytemp = n -> length z0 = n -> 1 <= nsweeps -> 1 <= chunk -> init <> INIT_A_NONE ->
          usethreads = false \/ nthr = 1 ->
          nok (scalar_ilu0_apply M lu scale ytemp nsweeps chunk usethreads nthr init r z0) (fun '(_, z') => z' = z)).
Proof.
  intros F O R ssqrt sabs M us n A scale HM Hv Hnf Hsq.
  destruct (C29_compute_sequential F O R ssqrt sabs M us HM Hv) as (lu & Hl & Hex & _ & Hc). exists lu. split; [exact Hc|].
  intros Hp r Hr. specialize (Hex Hp). fold n in Hex. fold A in Hex. fold scale in Hex.
  assert (scale_ok scale n) as Hsc.
  { unfold scale, scale_used. destruct us; simpl; [|exact I]. unfold diagonal_scale. rewrite fmap_length, seq_length. reflexivity. }
  destruct (C34_scalar_sequential_apply F O R M lu scale r HM Hl Hp Hsc Hr) as (x & Hx & Hprod & _ & y & Happ).
  exists (scaled_sol scale x). split; [|split].
  - destruct scale as [s|]; simpl; [|exact Hx]. rewrite zip_with_length. simpl in Hsc. fold n in Hx. lia.
  - apply scaled_solve; auto.
    + unfold scale, scale_used. destruct us; [|exact I]. intros i Hi. rewrite vat_diagonal_scale by done.
      exists (ssqrt (A i i)). rewrite smul_comm. apply field_div. auto.
    + eapply is_prod_ext; [|exact Hprod]. intros i j Hi Hj.
      apply no_fill_exact; auto.
      * intros i' c' E. unfold entry. rewrite E. reflexivity.
      * intros i' c' E. unfold scaled_mat, A, dense. rewrite E. destruct scale; [|reflexivity].
        rewrite smul_0_r, smul_0_l. reflexivity.
  - intros. eapply nok_mono; [apply Happ; auto|]. intros [y' z'] E. injection E as -> ->. reflexivity.
Qed.
Section BlockNoFill.
  Context {F : Type} {O : SOps F} {R : CRing F}.
  Add Ring Fr3 : cring.
  Open Scope s_scope.
  Lemma block_no_fill_exact bs (M : srmat F) (B A : nat -> nat -> F) : no_fill M ->
    (forall i c p q, (p < bs)%nat -> (q < bs)%nat -> pos M i c = None -> B (i * bs + p)%nat (c * bs + q)%nat = s0) ->
    (forall i c p q, (p < bs)%nat -> (q < bs)%nat -> pos M i c = None -> A (i * bs + p)%nat (c * bs + q)%nat = s0) ->
    bexact_on_pattern bs M (bunitlower bs B) (bupper bs B B) A ->
    forall I J, (I < nbrows M * bs)%nat -> (J < nbrows M * bs)%nat ->
      mprod (nbrows M * bs) (bunitlower bs B) (bupper bs B B) I J = A I J.
  Proof.
    intros Hf HB HA Hex I J HI HJ. destruct (unflat bs (nbrows M) I HI) as (i & p & -> & Hi & Hp).
    destruct (unflat bs (nbrows M) J HJ) as (c & q & -> & Hc & Hq).
    destruct (pos M i c) as [j|] eqn:E; [apply Hex; auto; rewrite !flat_div by done; congruence|].
    rewrite HA by done. unfold mprod. apply bsum_zero. intros K HK. destruct (unflat bs (nbrows M) K HK) as (t & u & -> & Ht & Hu).
    unfold bunitlower, bupper. rewrite !flat_div by done.
    destruct (decide (t < i)%nat) as [Hti|Hti].
    - destruct (decide (t < c)%nat) as [Htc|Htc].
      + destruct (pos M i t) eqn:E1; [|rewrite (HB i t) by done; ring].
        destruct (pos M t c) eqn:E2; [|rewrite (HB t c) by done; ring].
        exfalso. apply (Hf i c t); auto; congruence.
      + destruct (decide (t = c)) as [->|Hne]; [|ring]. rewrite (HB i c) by done. ring.
    - destruct (decide (i * bs + p = t * bs + u)%nat) as [Eq|]; [|ring]. apply flat_eq in Eq as [-> ->]; [|done..].
      rewrite (HB t c) by done. destruct (decide (t < c)%nat); [ring|]. destruct (decide (t = c)); ring.
  Qed.
End BlockNoFill.
Theorem C57_block_direct_solver :
  forall (F : Type) (O : SOps F) (R : Field F) ssqrt sabs inv so bs (M : srmat F) usescaling,
  let n := nbrows M in
  let A := bdense so bs M in
  let scale := scale_used ssqrt usescaling (n * bs) A in
  1 <= bs -> wf_mat M -> wf_end M -> length (vals M) = nnz M * (bs * bs) -> inverse_oracle so bs inv -> no_fill M ->
  (usescaling = true -> forall I, I < n * bs -> ssqrt (A I I) <> s0) ->
  exists lu x,
    (forall k chunk usethreads nthr finit info gi gs dblks,
      length gi = nnz M * (bs * bs) -> length gs = n * bs -> length dblks = n * (bs * bs) ->
      1 <= k -> 1 <= chunk -> usethreads = false \/ nthr = 1 ->
      nok (block_ilu0_compute ssqrt sabs inv so bs k chunk usethreads nthr finit usescaling info gi gs dblks M ilu_new)
          (fun '(st, _) => st_ilu st = Some lu /\ st_scale st = scale)) /\
    ((* the diagonal blocks of U *) (forall i, i < n -> exists Y, is_inverse bs (dblock bs (bentry so bs M x) i) Y) ->
     forall r, length r = n * bs ->
      exists z, length z = n * bs /\ is_prod (n * bs) A z r /\
        forall ytemp z0 nsweeps chunk usethreads nthr init,
          length ytemp = n * bs -> length z0 = n * bs -> 1 <= nsweeps -> 1 <= chunk -> init <> INIT_A_NONE ->
          usethreads = false \/ nthr = 1 ->
          nok (block_ilu0_apply so bs M lu scale ytemp nsweeps chunk usethreads nthr init r z0) (fun '(_, z') => z' = z)).
Proof.
  intros F O R ssqrt sabs inv so bs M us n A scale Hbs HM He Hv Hor Hnf Hsq.
  destruct (C29_block_compute_sequential F O _ ssqrt sabs inv so bs M us HM He Hv Hor) as (lu & x & Hl & Hxl & Hex & _ & Hc).
  exists lu, x. split; [exact Hc|]. intros Hp r Hr. destruct (Hex Hp) as (Hexact & Hst & Hsi). clear Hex Hc.
  assert (scale_ok scale (n * bs)) as Hsc.
  { unfold scale, scale_used. destruct us; simpl; [|exact I]. unfold diagonal_scale. rewrite fmap_length, seq_length. reflexivity. }
  destruct (C34_block_sequential_apply F O _ so bs M lu (bentry so bs M x) scale r Hbs HM Hl Hsi Hsc Hr) as (v & Hvl & Hprod & _ & y & Happ).
  exists (scaled_sol scale v). split; [|split].
  - destruct scale as [s|]; simpl; [|exact Hvl]. rewrite zip_with_length. simpl in Hsc. fold n in Hvl. lia.
  - apply scaled_solve; auto.
    + unfold scale, scale_used. destruct us; [|exact I]. intros i Hi. rewrite vat_diagonal_scale by done.
      exists (ssqrt (A i i)). rewrite smul_comm. apply field_div. auto.
    + eapply is_prod_ext; [|exact Hprod]. intros I J HI HJ.
      transitivity (mprod (n * bs) (bunitlower bs (bentry so bs M x)) (bupper bs (bentry so bs M x) (bentry so bs M x)) I J).
      * unfold mprod. apply bsum_ext. intros K HK. f_equal.
        -- unfold bunitlower. destruct (decide (K / bs < I / bs)); [|reflexivity]. apply Hst; auto; lia.
        -- unfold bupper. destruct (decide (K / bs < J / bs)); [|reflexivity]. apply Hst; auto; lia.
      * apply block_no_fill_exact; auto.
        -- intros i c p q Hp' Hq E. rewrite bentry_flat, E by done. reflexivity.
        -- intros i c p q Hp' Hq E. apply scaled_unstored; auto.
  - intros. eapply nok_mono; [apply Happ; auto|]. intros [y' z'] E. injection E as -> ->. reflexivity.
Qed.
(** a case: a tridiagonal matrix has no fill-in *)
Example C57_case : wf_mat exM /\ length (vals exM) = nnz exM /\ no_fill exM.
Proof.
  split; [split; [apply exM_pat|split; [apply exM_diag|apply exM_sorted]]|]. split; [reflexivity|].
  intros i c t Hi Hc. simpl in Hi, Hc. destruct i as [|[|[|]]]; [| | |lia]; destruct c as [|[|[|]]]; try lia;
    destruct t as [|[|]]; try lia; vm_compute; congruence.
Qed.
(** its factors have nonzero pivots: C30_case *)
Print Assumptions C57_direct_solver.
Print Assumptions C57_block_direct_solver.
Print Assumptions C58_unit_diagonal.
