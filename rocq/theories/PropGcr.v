(** * PropGcr: properties C100 (GCR is flexible GMRES) and C101 (GCR ends within as many steps as there are unknowns) *)
From Verif Require Import Base Alg SRMatrix Nd Reduction Matvec TriSpec TriFacts SymSpec SymFacts SolveSpec Solvers SolversFacts GcrFacts PropSolvers Sgs PropSgs PropLinearEx Inst.
From Coq Require Import QArith.Qcanon.
Open Scope nat_scope.

(** Every answer of the preconditioner to a residual is of use: the residual is not orthogonal to A times it. *)
Definition useful {F} {O : SOps F} (N : nat) (A : nat -> nat -> F) (prec : list F -> list F -> nd (list F)) : Prop :=
  forall s z, length s = N -> nonzero N s -> answer N prec s z -> dot N s (times N A z) <> s0.

Section Main.
  Context {F : Type} {O : SOps F} {FF : Field F}.
  Add Ring Fr : (@cring F O field_ring).
  Variables (pos : F -> Prop) (ssqrt : F -> F) (slt sle : F -> F -> bool) (N : nat) (A : nat -> nat -> F).
  Variables (Aapply : list F -> list F -> nd (list F)) (Agemv3 : F -> list F -> F -> list F -> list F -> nd (list F)) (prec : list F -> list F -> nd (list F)).
  Variables (maxiter : nat) (tol : F) (nrestart : nat) (b x0 : list F).
  Hypotheses (Hpos : ordered pos) (HM : matrix_object N A Aapply Agemv3) (HP : prec_object N prec) (HU : useful N A prec).
  Hypotheses (Hb : length b = N) (Hx : length x0 = N) (Hn : 0 < nrestart) (Hnz : nonzero N (resid N A b x0)).
  Hypothesis Hstop : slt (ssqrt s0 / ssqrt (sqnorm N b))%s tol = true.
  Notation run := (gcr ssqrt slt sle N Aapply Agemv3 prec maxiter tol nrestart b x0).
  Notation prepre := (Pre pos N A (answer N prec) b nrestart).
  Notation postpost := (Post pos N A (answer N prec) b nrestart).
  Lemma slt_nonzero (v : list F) : slt (ssqrt (sqnorm N v) / ssqrt (sqnorm N b))%s tol = false -> nonzero N v.
  Proof.
    intros H. destruct (zero_or_not pos N Hpos v) as [H0|H1]; [exfalso|exact H1].
    assert (sqnorm N v = s0) as E by (apply bsum_zero; intros i Hi; rewrite H0 by exact Hi; ring).
    rewrite E, Hstop in H. discriminate H.
  Qed.
  Definition lt_res (x y : list F) : Prop := pos (sqnorm N (resid N A b y) - sqnorm N (resid N A b x))%s.
  Definition Cyc (step : nat) (s : @gstate F) : Prop :=
    gs_good N nrestart b s /\ restarted pos N A (answer N prec) nrestart b x0 step (gx s) /\ nonzero N (resid N A b (gx s)) /\
    (step = 0 /\ gx s = x0 \/ lt_res (gx s) x0) /\ (N <= nrestart -> step = 0).
  Lemma Post_lt xc k s : postpost xc k s -> lt_res (gx s) xc.
  Proof. intros (_ & _ & zs & _ & _ & _ & H). exact H. Qed.
  Lemma lt_res_trans x y z : lt_res x y -> lt_res y z -> lt_res x z.
  Proof.
    unfold lt_res. intros H1 H2. pose proof (pos_add _ Hpos _ _ H1 H2) as H.
    match goal with |- pos ?a => match type of H with pos ?c => replace a with c by ring end end. exact H.
  Qed.
  Lemma run_ok : nok run (fun '(x', info) =>
      (maxiter = 0 /\ x' = x0 /\ iters info = 0) \/
      resnorm info = ssqrt (sqnorm N (resid N A b x')) /\ bnorm info = ssqrt (sqnorm N b) /\ 0 < iters info <= maxiter /\
      (iters info < maxiter -> slt (resnorm info / bnorm info)%s tol = true) /\
      exists sc m0 k s, Cyc m0 sc /\ k < nrestart /\ iters info = m0 + k + 1 /\ (0 < m0 -> nrestart <= m0) /\ postpost (gx sc) k s /\ x' = gx s).
  Proof.
    destruct HM as [HA HG]. unfold gcr. cbv zeta.
    eapply nok_bind; [apply (vdot_ok N); exact Hb|]. intros ? ->.
    eapply nok_bind.
    - apply (gcr_loop_ok ssqrt slt N A Aapply Agemv3 prec HA HG HP maxiter nrestart tol b Hb _ Cyc prepre postpost).
      + intros step s H. apply H.
      + intros xc k s H. apply H.
      + intros step s p0 (Hg & _ & Hne & _) L0 H0. apply Start_Pre; assumption.
      + intros xc k s Hk H. apply Pre_Post; assumption.
      + intros xc k s z beta Hk H Hi Ht Lz Hz Lbe. apply Post_Pre; try assumption.
        destruct Hi as (_ & -> & _). apply slt_nonzero, Ht.
      + intros step sc s (Hg & Hr & Hne & Hlt & _) H Hi Ht. split; [apply Hi|]. split; [|split; [apply slt_nonzero, Ht|split]].
        * destruct H as (_ & _ & zs & Hd & Hf & _). eapply rs_next; [exact Hr|exact Hf|]. rewrite (d_len _ _ _ _ _ Hd). lia.
        * right. apply Post_lt in H. destruct Hlt as [[_ E]|Hlt]; [rewrite E in H; exact H|eapply lt_res_trans; eassumption].
        * intros HN. exfalso. destruct (Post_count pos N A Hpos (answer N prec) b nrestart _ _ _ H) as [_ Hc]. destruct Hi as (_ & Er & _). rewrite Er in Hc.
          specialize (Hc (slt_nonzero _ Ht)). lia.
      + exact Hn.
      + lia.
      + split; [|split; [constructor|split; [exact Hnz|split; [left; auto|reflexivity]]]].
        unfold gs_good. cbn. rewrite !replicate_length. repeat (split; [assumption || reflexivity|]). split; [|split; [|reflexivity]]; apply Forall_replicate, replicate_length.
    - intros [[x' m] rn] H. apply nok_ret. cbn in *.
      destruct H as [(H1 & -> & -> & ->)|(H1 & H2 & H3 & sc & m0 & k' & s' & H4 & H5 & H6 & H7 & H8 & H9 & H10 & H11 & H12)]; [left; split; [lia|auto]|right].
      split; [exact H2|]. split; [reflexivity|]. split; [lia|]. split; [exact H3|]. exists sc, m0, k', s'. auto 10.
  Qed.
  Lemma fgmres_main : 0 < maxiter -> nok run (fun '(x', info) => exists m xc zs,
      restarted pos N A (answer N prec) nrestart b x0 m xc /\ fgmres pos N A (answer N prec) b xc zs x' /\
      0 < length zs <= nrestart /\ iters info = m + length zs /\ lt_res x' x0).
  Proof.
    intros Hm. eapply nok_mono; [apply run_ok|]. intros [x' info] [(H & _)|(_ & _ & _ & _ & sc & m0 & k & s & (_ & Hr & _ & Hlt & _) & Hk & Hit & _ & Hp & ->)]; [lia|].
    pose proof (Post_lt _ _ _ Hp) as Hlt'. destruct Hp as (_ & _ & zs & Hd & Hf & _). exists m0, (gx sc), zs. pose proof (d_len _ _ _ _ _ Hd) as L.
    split; [exact Hr|]. split; [exact Hf|]. split; [lia|]. split; [lia|].
    destruct Hlt as [[_ E]|Hlt]; [rewrite E in Hlt'; exact Hlt'|eapply lt_res_trans; eassumption].
  Qed.
  Lemma finite_main : N <= nrestart -> N <= maxiter -> nok run (fun '(x', info) =>
      0 < iters info <= N /\ resnorm info = ssqrt (sqnorm N (resid N A b x')) /\ slt (resnorm info / bnorm info)%s tol = true).
  Proof.
    intros HNr HNm. assert (0 < N) as HN0 by (destruct Hnz as (i & Hi & _); lia).
    destruct HM as [HA HG].
    eapply nok_mono; [apply run_ok|]. intros [x' info] [(H & _)|(Hrn & Hbn & Hit & Hlt & sc & m0 & k & s & Hc & Hk & Hm & Hm0 & Hp & ->)]; [lia|].
    destruct (Post_count pos N A Hpos (answer N prec) b nrestart _ _ _ Hp) as [Hc1 Hc2].
    assert (gres s = resid N A b (gx s)) as Er by (destruct Hp as ((_ & E & _) & _); exact E).
    destruct Hc as (_ & _ & _ & _ & H0). specialize (H0 HNr). subst m0.
    assert (slt (resnorm info / bnorm info)%s tol = true) as Ht.
    { destruct (slt (resnorm info / bnorm info)%s tol) eqn:Et; [reflexivity|exfalso]. destruct (decide (iters info < maxiter)) as [Hl|Hl].
      - specialize (Hlt Hl). discriminate Hlt.
      - rewrite Hrn, Hbn in Et. apply slt_nonzero in Et. rewrite <- Er in Et. specialize (Hc2 Et). lia. }
    split; [lia|]. auto.
  Qed.
End Main.

(** ** C100: GCR is flexible GMRES *)
(** The documentation: "In exact arithmetic, this should be the same as a flexible GMRES" (tests/solvers.hpp:108-110). In exact arithmetic over
    an ordered field, from an initial guess with nonzero residual, and if a zero residual meets the tolerance: whatever the schedule and the
    answers of the preconditioner, the returned vector is that of flexible GMRES restarted after [nrestart] directions, with [iters] directions
    in all, and its residual is strictly smaller than that of the initial guess. *)
Theorem C100_flexible_gmres : forall (F : Type) (O : SOps F) (FF : Field F) (pos : F -> Prop) ssqrt slt sle N A Aapply Agemv3 prec maxiter tol nrestart (b x0 : list F),
  ordered pos -> matrix_object N A Aapply Agemv3 -> prec_object N prec -> useful N A prec -> length b = N -> length x0 = N ->
  0 < nrestart -> 0 < maxiter -> nonzero N (resid N A b x0) -> slt (ssqrt s0 / ssqrt (sqnorm N b))%s tol = true ->
  nok (gcr ssqrt slt sle N Aapply Agemv3 prec maxiter tol nrestart b x0) (fun '(x', info) => exists m xc zs,
    restarted pos N A (answer N prec) nrestart b x0 m xc /\ fgmres pos N A (answer N prec) b xc zs x' /\ 0 < length zs <= nrestart /\
    iters info = m + length zs /\ pos (sqnorm N (resid N A b x0) - sqnorm N (resid N A b x'))%s).
Proof. intros. eapply fgmres_main; eassumption. Qed.
(** ** C101: with no restart the solver meets the tolerance within N steps, whatever the tolerance *)
Theorem C101_finite : forall (F : Type) (O : SOps F) (FF : Field F) (pos : F -> Prop) ssqrt slt sle N A Aapply Agemv3 prec maxiter tol nrestart (b x0 : list F),
  ordered pos -> matrix_object N A Aapply Agemv3 -> prec_object N prec -> useful N A prec -> length b = N -> length x0 = N ->
  N <= nrestart -> N <= maxiter -> nonzero N (resid N A b x0) -> slt (ssqrt s0 / ssqrt (sqnorm N b))%s tol = true ->
  nok (gcr ssqrt slt sle N Aapply Agemv3 prec maxiter tol nrestart b x0) (fun '(x', info) =>
    0 < iters info <= N /\ resnorm info = ssqrt (sqnorm N (resid N A b x')) /\ slt (resnorm info / bnorm info)%s tol = true).
Proof.
  intros. eapply finite_main; try eassumption. match goal with H : nonzero _ _ |- _ => destruct H as (i & Hi & _) end. lia.
Qed.

(** with a tolerance which only a zero residual meets, the result is the solution of A x = b *)
Theorem C101_solution : forall (F : Type) (O : SOps F) (FF : Field F) (pos : F -> Prop) ssqrt slt sle N A Aapply Agemv3 prec maxiter tol nrestart (b x0 : list F),
  ordered pos -> matrix_object N A Aapply Agemv3 -> prec_object N prec -> useful N A prec -> length b = N -> length x0 = N ->
  N <= nrestart -> N <= maxiter -> nonzero N (resid N A b x0) -> slt (ssqrt s0 / ssqrt (sqnorm N b))%s tol = true ->
  (forall a, slt (ssqrt a / ssqrt (sqnorm N b))%s tol = true -> a = s0) ->
  nok (gcr ssqrt slt sle N Aapply Agemv3 prec maxiter tol nrestart b x0) (fun '(x', info) => iters info <= N /\ is_prod N A x' b).
Proof.
  intros F O FF pos ssqrt slt sle N A Aapply Agemv3 prec maxiter tol nrestart b x0 Hpos HM HP HU Hb Hx Hr Hm Hnz Hstop Htol.
  assert (0 < nrestart) as Hn by (destruct Hnz as (i & Hi & _); lia).
  assert (0 < maxiter) as Hm0 by (destruct Hnz as (i & Hi & _); lia).
  pose proof (C101_finite F O FF pos ssqrt slt sle N A Aapply Agemv3 prec maxiter tol nrestart b x0 Hpos HM HP HU Hb Hx Hr Hm Hnz Hstop) as H1.
  pose proof (C99_gcr F O field_ring ssqrt slt sle N A Aapply Agemv3 prec maxiter tol nrestart b x0 HM HP Hb Hx Hn) as H2.
  split; [apply H1|]. intros o Ho. destruct H1 as [_ H1], H2 as [_ H2]. specialize (H1 o Ho). specialize (H2 o Ho).
  destruct o as [[x' info]| | |]; try contradiction. destruct H1 as (Hi & Hrn & Ht), H2 as (Hbn & _). split; [lia|].
  rewrite Hrn, Hbn in Ht. apply Htol in Ht. intros i Hi0.
  destruct (zero_or_not pos N Hpos (resid N A b x')) as [H0|H0]; [|exfalso; exact (sqnorm_ne pos N Hpos _ H0 Ht)].
  specialize (H0 i Hi0). rewrite resid_at, times_at in H0 by exact Hi0.
  assert (forall a c : F, (a - c)%s = s0 -> c = a) as Hsub.
  { intros a c E. pose proof (@cring F O field_ring) as RT. rewrite (Rsub_def RT) in E.
    rewrite <- (Radd_0_l RT c), <- E, <- (Radd_assoc RT), (Radd_comm RT (sopp c) c), (Ropp_def RT). rewrite (Radd_comm RT). apply (Radd_0_l RT). }
  apply Hsub, H0.
Qed.

(** ** Preconditioners which meet the condition *)
(** no preconditioner, if A is positive definite (symmetric or not) *)
Theorem C100_useful_identity : forall (F : Type) (O : SOps F) (R : CRing F) (pos : F -> Prop) N (A : nat -> nat -> F) bs (M : srmat F), ordered pos ->
  pos_def pos N A -> nbrows M * bs = N -> prec_object N (noprec_apply bs M) /\ useful N A (noprec_apply bs M).
Proof.
  intros F O R pos N A bs M Hpos Hd HN. split.
  - intros x y Hx Hy. eapply nok_mono; [apply (C42_identity F O bs M x y); lia|]. intros y' ->. exact Hx.
  - intros s z Ls Hs (old & Lo & Ha). destruct (C42_identity F O bs M s old ltac:(lia) ltac:(lia)) as [[_ H] _].
    specialize (H _ Ha). simpl in H. subst z. intros E. apply (pos_zero _ Hpos). rewrite <- E.
    replace (dot N s (times N A s)) with (form N A (fun i => vat s i)); [apply Hd; exact Hs|].
    unfold form, dot. apply bsum_ext. intros i Hi. rewrite times_at by exact Hi. reflexivity.
Qed.
(** any preconditioner which solves P z = s with a matrix P for which P z and A z are never orthogonal; in particular P = A *)
Theorem C100_useful_solver : forall (F : Type) (O : SOps F) (R : CRing F) (pos : F -> Prop) N (A P : nat -> nat -> F) prec, ordered pos ->
  (forall s z, length s = N -> answer N prec s z -> is_prod N P z s) ->
  (forall z : list F, nonzero N (times N P z) -> pos (dot N (times N P z) (times N A z))) -> useful N A prec.
Proof.
  intros F O R pos N A P prec Hpos Hp Hd s z Ls Hs Ha E. specialize (Hp s z Ls Ha). apply (pos_zero _ Hpos). rewrite <- E.
  replace (dot N s (times N A z)) with (dot N (times N P z) (times N A z)).
  - apply Hd. destruct Hs as (i & Hi & Hne). exists i. split; [exact Hi|]. rewrite times_at by exact Hi. rewrite Hp by exact Hi. exact Hne.
  - unfold dot. apply bsum_ext. intros i Hi. rewrite (times_at N P z i Hi), Hp by exact Hi. reflexivity.
Qed.
Theorem C100_useful_exact : forall (F : Type) (O : SOps F) (FF : Field F) (pos : F -> Prop) N (A : nat -> nat -> F) prec, ordered pos ->
  (forall s z, length s = N -> answer N prec s z -> is_prod N A z s) -> useful N A prec.
Proof.
  intros F O FF pos N A prec Hpos Hp. apply (C100_useful_solver F O field_ring pos N A A prec Hpos Hp). intros z Hz. apply sqnorm_pos; assumption.
Qed.

(** ** A case: the symmetric positive definite matrix [symT] with three unknowns, no preconditioner *)
Example C100_case : ordered positive /\ matrix_object 3 (dense symT) (csr_apply symT) (fun a x b y z => csr_gemv3 symT a x b (Some y) z) /\
  prec_object 3 (noprec_apply 1 symT) /\ useful 3 (dense symT) (noprec_apply 1 symT) /\ nonzero 3 (resid 3 (dense symT) [q 1; q 2; q 3] [q 0; q 0; q 0]) /\
  qlt (qsqrt s0 / qsqrt (sqnorm 3 [q 1; q 2; q 3]))%s (q 1 / q 10)%Qc = true.
Proof.
  assert (matrix_object 3 (dense symT) (csr_apply symT) (fun a x b y z => csr_gemv3 symT a x b (Some y) z)) as HM.
  { apply (proj1 (C99_matrix_views Qc Qc_ops Qc_ring symT (proj1 symT_wf) (sorted_nodup symT (proj2 (proj2 symT_wf))))). reflexivity. }
  destruct (C100_useful_identity Qc Qc_ops Qc_ring positive 3 (dense symT) 1 symT Qc_ordered symT_pos eq_refl) as [H1 H2].
  split; [exact Qc_ordered|]. split; [exact HM|]. split; [exact H1|]. split; [exact H2|]. split; [|vm_compute; reflexivity].
  exists 0. split; [lia|]. vm_compute. discriminate.
Qed.

Print Assumptions C101_solution.
Print Assumptions C100_useful_identity.
Print Assumptions C100_useful_solver.
Print Assumptions C100_useful_exact.
Print Assumptions C100_flexible_gmres.
Print Assumptions C101_finite.
