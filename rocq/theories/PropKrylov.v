(** * PropKrylov: property C109 (the iterative solvers with the library's preconditioners) *)
From Coq Require Import ZArith QArith.Qcanon.
From Verif Require Import Base Alg Norms SRMatrix Nd Reduction Matvec MatvecFacts SymSpec SymFacts SolveSpec BicgSpec Solvers SolversFacts GcrFacts BicgFacts
  PropSolvers PropGcr PropBicg.
From Verif Require Import Kernels KernelFacts IluApply IluApplyFacts IluApplyProofs TriSpec TriFacts
  IluApplyMain IluPattern IluFactor IluFactorProofs IluFactorMain Sgs SgsFacts SgsProofs SgsForms SgsMain Memory Levels PropLevels PropIluInit
  PropIluFactor PropIluApply PropIluSolve Factory Petsc Objects ObjFacts ObjHistory ObjAlg ObjTotal ScaledLu PropSgs PropObjects Inst PropObjectsEx PropScaleIlu PropLinear PropLinearEx.
Open Scope nat_scope.

(** ** Specification *)
(** What a solver sees of a preconditioner object of class [p] whose last compute() was for [M]: the object may have been used before in any way,
    and each call may find it in another state. *)
Definition object_prec {F} {O : SOps F} (ssqrt sabs : F -> F) (inv : list F -> list F) (maxthr nthr : nat) (p : prec) (M0 M : srmat F)
    (r z : list F) : nd (list F) := fun o =>
  exists st g, lived ssqrt sabs inv p maxthr M0 M st /\ (ndo (_, z') := obj_apply nthr g p M st r z in nret z') o.
(** the preconditioner solves the system exactly *)
Definition exact_prec {F} {O : SOps F} (N : nat) (A : nat -> nat -> F) (prec : list F -> list F -> nd (list F)) : Prop :=
  forall s z, length s = N -> length z = N -> nok (prec s z) (fun z' => length z' = N /\ is_prod N A z' s).

(** ** The objects of the library are linear *)
Lemma finite_choice {B} (Q : nat -> B -> Prop) (d : B) n : (forall j, j < n -> exists x, Q j x) -> exists f, forall j, j < n -> Q j (f j).
Proof.
  induction n as [|n IH]; intros H; [exists (fun _ => d); intros; lia|].
  destruct IH as [f Hf]; [intros; apply H; lia|]. destruct (H n ltac:(lia)) as [x Hx].
  exists (fun j => if decide (j = n) then x else f j). intros j Hj. destruct (decide (j = n)) as [->|Hne]; [exact Hx|apply Hf; lia].
Qed.
Section Linear.
  Context {F : Type} {O : SOps F} {R : Field F}.
  Add Ring Fr : (@cring F O field_ring).
  Variables (ssqrt sabs : F -> F) (inv : list F -> list F).
  Theorem C109_linear maxthr nthr p (M0 M : srmat F) P :
    well_equipped inv p M0 -> same_pattern M0 M -> fits (pshape p) M -> 1 <= nthr -> in_order maxthr nthr p -> regular ssqrt p M ->
    matrix_for p M P -> (exists st, lived ssqrt sabs inv p maxthr M0 M st) ->
    exists K, is_inverse (obj_dim p M) P K /\ linear_prec (obj_dim p M) K (object_prec ssqrt sabs inv maxthr nthr p M0 M).
  Proof.
    intros Heq Hsame Hf Hn Hio Hreg HP [st0 Hst0]. set (N := obj_dim p M).
    pose proof (operator ssqrt sabs inv maxthr nthr p M0 M P Heq Hsame Hf Hn Hio Hreg HP) as Hs. unfold solves in Hs. fold N in Hs.
    set (e := fun j : nat => (fun i => ident i j : F) <$> seq 0 N).
    assert (forall j, length (e j) = N) as Le by (intros; unfold e; rewrite fmap_length, seq_length; reflexivity).
    destruct (finite_choice (fun j z => length z = N /\ is_prod N P z (e j)) [] N) as [f Hfc].
    { intros j _. destruct (Hs (e j) (Le j)) as (z & H1 & H2 & _). eauto. }
    set (K := fun i j => vat (f j) i). exists K.
    assert (forall i j, i < N -> j < N -> bsum N (fun k => P i k * K k j)%s = ident i j) as HPK.
    { intros i j Hi Hj. destruct (Hfc j Hj) as [_ H]. specialize (H i Hi). unfold e in H. rewrite vat_fmap_seq in H by exact Hi. exact H. }
    assert (forall x i, i < N -> bsum N (fun k => P i k * bsum N (fun j => K k j * vat x j))%s = vat x i) as HPKx.
    { intros x i Hi. transitivity (bsum N (fun j => ident i j * vat x j)%s).
      - transitivity (bsum N (fun j => bsum N (fun k => P i k * K k j) * vat x j)%s); [|apply bsum_ext; intros j Hj; rewrite HPK by assumption; reflexivity].
        transitivity (bsum N (fun k => bsum N (fun j => P i k * K k j * vat x j))%s).
        + apply bsum_ext. intros k _. rewrite <- bsum_mul_l. apply bsum_ext. intros j _. ring.
        + rewrite bsum_swap. apply bsum_ext. intros j _. rewrite <- bsum_mul_r. reflexivity.
      - rewrite (bsum_single _ i _ Hi); [unfold ident; rewrite decide_True by done; ring|]. intros j Hj Hne. unfold ident. rewrite decide_False by congruence. ring. }
    assert (forall r z, length r = N -> length z = N -> is_prod N P z r -> is_prod N K r z) as Hinv.
    { intros r z Lr Lz Hz. destruct (Hs r Lr) as (z1 & _ & _ & Hu & _).
      assert (z = (fun i => bsum N (fun j => K i j * vat r j)%s) <$> seq 0 N) as ->.
      { transitivity z1; [apply Hu; assumption|symmetry; apply Hu; [rewrite fmap_length, seq_length; reflexivity|]].
        intros i Hi. etransitivity; [|apply (HPKx r i Hi)]. apply bsum_ext. intros k Hk. rewrite vat_fmap_seq by exact Hk. reflexivity. }
      intros i Hi. rewrite vat_fmap_seq by exact Hi. reflexivity. }
    split.
    - intros i j Hi Hj. split; [apply HPK; assumption|].
      (* K P e_j = e_j, because P e_j is mapped to e_j *)
      set (c := (fun i => P i j) <$> seq 0 N). assert (is_prod N P (e j) c) as Hc.
      { intros i' Hi'. unfold c. rewrite vat_fmap_seq by exact Hi'. rewrite (bsum_single _ j _ Hj).
        - unfold e. rewrite vat_fmap_seq by exact Hj. unfold ident. rewrite decide_True by done. ring.
        - intros k Hk Hne. unfold e. rewrite vat_fmap_seq by exact Hk. unfold ident. rewrite decide_False by congruence. ring. }
      pose proof (Hinv c (e j) ltac:(unfold c; rewrite fmap_length, seq_length; reflexivity) (Le j) Hc i Hi) as H.
      unfold e in H. rewrite vat_fmap_seq in H by exact Hi. cbn beta in H. rewrite <- H. apply bsum_ext. intros k Hk. unfold c. rewrite vat_fmap_seq by exact Hk. reflexivity.
    - intros x y Hx Hy. destruct (Hs x Hx) as (z & Lz & Pz & _ & Hg). pose proof (Hinv x z Hx Lz Pz) as Hz.
      assert (forall st g, lived ssqrt sabs inv p maxthr M0 M st ->
        nok (ndo (_, z') := obj_apply nthr g p M st x y in nret z') (fun y' => length y' = N /\ is_prod N K x y')) as Hall.
      { intros st g Hst. eapply nok_bind; [apply (Hg st g y Hst Hy)|]. intros [st' z'] ->. apply nok_ret. auto. }
      pose (g0 := Fresh (fun _ _ => s0 : F) (fun _ _ => 0) (fun _ => 0%Z)).
      split; [destruct (Hall st0 g0 Hst0) as [[o Ho] _]; exists o, st0, g0; auto|].
      intros o (st & g & Hst & Ho). exact (proj2 (Hall st g Hst) o Ho).
  Qed.
End Linear.

(** ** Exact preconditioners *)
Local Notation vadd := SolveSpec.vadd.
Section Exact.
  Context {F : Type} {O : SOps F} {FF : Field F}.
  Add Ring Fr2 : (@cring F O field_ring).
  Variables (pos : F -> Prop) (ssqrt : F -> F) (slt sle : F -> F -> bool) (N : nat) (A : nat -> nat -> F).
  Variables (Aapply : list F -> list F -> nd (list F)) (Agemv3 : F -> list F -> F -> list F -> list F -> nd (list F)) (prec : list F -> list F -> nd (list F)).
  Variables (maxiter : nat) (tol : F) (nrestart : nat) (b x0 : list F).
  Hypotheses (Hpos : ordered pos) (HM : matrix_object N A Aapply Agemv3) (HE : exact_prec N A prec).
  Hypotheses (Hb : length b = N) (Hx : length x0 = N).
  Hypothesis Hstop : slt (ssqrt s0 / ssqrt (sqnorm N b))%s tol = true.
  Open Scope s_scope.
  Lemma exact_object : prec_object N prec.
  Proof. intros x y Lx Ly. eapply nok_mono; [apply (HE x y Lx Ly)|]. intros y' [H _]. exact H. Qed.
  (** one step removes the residual *)
  Lemma exact_step x d : length x = N -> length d = N -> is_prod N A d (resid N A b x) -> forall i, (i < N)%nat -> vat (resid N A b (vadd N x d)) i = s0.
  Proof.
    intros Lx Ld Hd i Hi. specialize (Hd i Hi). rewrite resid_at in Hd |- * by exact Hi. rewrite times_at in Hd |- * by exact Hi.
    replace (bsum N (fun j => A i j * vat (vadd N x d) j)) with (bsum N (fun j => A i j * vat x j) + bsum N (fun j => A i j * vat d j)).
    - rewrite Hd. ring.
    - rewrite <- bsum_add. apply bsum_ext. intros j Hj. unfold vadd. rewrite vat_fmap_seq by exact Hj. ring.
  Qed.
  Lemma sub_zero (a c : F) : a - c = s0 -> c = a.
  Proof. intros E. transitivity (a - (a - c)); [ring|]. rewrite E. ring. Qed.
  Lemma resid_prod x : (forall i, (i < N)%nat -> vat (resid N A b x) i = s0) -> is_prod N A x b.
  Proof. intros H i Hi. specialize (H i Hi). rewrite resid_at, times_at in H by exact Hi. apply sub_zero, H. Qed.
  Lemma exact_diff (a : F) : s1 * a + sopp s1 * a = s0.
  Proof. ring. Qed.
  Lemma zero_norm (v : list F) : (forall i, (i < N)%nat -> vat v i = s0) -> sqnorm N v = s0.
  Proof. intros H. apply bsum_zero. intros i Hi. rewrite H by exact Hi. ring. Qed.
  Lemma richardson_exact : (2 <= maxiter)%nat ->
    nok (richardson ssqrt slt N Agemv3 prec maxiter tol b x0) (fun '(x', info) =>
      iters info = 0%nat /\ x' = x0 /\ slt (ssqrt (sqnorm N (resid N A b x0)) / ssqrt (sqnorm N b)) tol = true \/
      iters info = 1%nat /\ is_prod N A x' b /\ resnorm info = ssqrt s0).
  Proof.
    intros Hm. destruct HM as [_ HG]. unfold richardson.
    eapply nok_bind; [apply vdot_ok; exact Hb|]. intros ? ->. cbv zeta. change (dot N b b) with (sqnorm N b).
    eapply nok_bind with (P := fun '(x', m, rn) => m = 0%nat /\ x' = x0 /\ slt (ssqrt (sqnorm N (resid N A b x0)) / ssqrt (sqnorm N b)) tol = true \/
      m = 1%nat /\ is_prod N A x' b /\ rn = ssqrt s0); [|intros [[x' m] rn] H; apply nok_ret; exact H].
    destruct maxiter as [|[|k]]; [lia..|]. cbn [richardson_loop].
    eapply nok_bind; [apply (Agemv3_ok N A Agemv3 HG); auto using replicate_length|]. intros ? ->.
    eapply nok_bind; [apply vdot_ok; apply resid_length|]. intros ? ->. cbv zeta.
    change (dot N (resid N A b x0) (resid N A b x0)) with (sqnorm N (resid N A b x0)).
    destruct (slt (ssqrt (sqnorm N (resid N A b x0)) / ssqrt (sqnorm N b)) tol) eqn:E; [apply nok_ret; left; auto|].
    eapply nok_bind; [apply HE; [apply resid_length|apply replicate_length]|]. intros d [Ld Hd].
    eapply nok_bind; [apply axpby_ok; assumption|]. intros ? ->. rewrite vadd_axpby by assumption.
    eapply nok_bind; [apply (Agemv3_ok N A Agemv3 HG); [unfold vadd; rewrite fmap_length, seq_length; reflexivity|exact Hb|apply resid_length]|]. intros ? ->.
    eapply nok_bind; [apply vdot_ok; apply resid_length|]. intros ? ->. cbv zeta.
    pose proof (exact_step x0 d Hx Ld Hd) as Hz.
    change (dot N (resid N A b (vadd N x0 d)) (resid N A b (vadd N x0 d))) with (sqnorm N (resid N A b (vadd N x0 d))).
    rewrite (zero_norm _ Hz), Hstop. apply nok_ret. right. split; [reflexivity|]. split; [apply resid_prod, Hz|reflexivity].
  Qed.
  Hypothesis Hnz : nonzero N (resid N A b x0).
  Lemma one_ratio (a : F) : a <> s0 -> a / a = s1.
  Proof. intros Ha. set (y := s1 / a). assert (y * a = s1) as Hy by (apply field_div, Ha).
    transitivity (a / a * (y * a)); [rewrite Hy; ring|]. transitivity (a / a * a * y); [ring|]. rewrite field_div by exact Ha. rewrite <- Hy. ring. Qed.
  Lemma gcr_exact : (0 < nrestart)%nat -> (0 < maxiter)%nat ->
    nok (gcr ssqrt slt sle N Aapply Agemv3 prec maxiter tol nrestart b x0) (fun '(x', info) =>
      iters info = 1%nat /\ is_prod N A x' b /\ resnorm info = ssqrt s0).
  Proof.
    intros Hr Hm. destruct HM as [HA HG]. unfold gcr. cbv zeta.
    eapply nok_bind; [apply (vdot_ok N); exact Hb|]. intros ? ->. change (dot N b b) with (sqnorm N b).
    eapply nok_bind with (P := fun '(x', m, rn) => m = 1%nat /\ is_prod N A x' b /\ rn = ssqrt s0); [|intros [[x' m] rn] H; apply nok_ret; exact H].
    set (s := Solvers.GS _ _ _ _ _ _). assert (gs_good N nrestart b s) as Hg.
    { unfold gs_good, s. cbn. rewrite !replicate_length. do 5 (split; [reflexivity || exact Hx|]).
      split; [|split; [|reflexivity]]; apply Forall_forall; intros v Hv; apply elem_of_replicate in Hv as [-> _]; apply replicate_length. }
    destruct maxiter as [|k]; [lia|]. cbn [gcr_loop]. replace (negb (0 <? S k)%nat) with false by reflexivity.
    eapply nok_bind.
    { apply (gcr_start_ok N A Aapply Agemv3 prec HA HG exact_object nrestart b s Hb Hg Hr). }
    intros ? (p0 & Lp & (old & Lo & Ha) & ->).
    assert (is_prod N A p0 (resid N A b x0)) as Hp.
    { pose proof (nok_all_ok _ _ _ (HE (resid N A b x0) old (resid_length _ _ _ _) Lo) Ha) as [_ H]. exact H. }
    pose proof (start_inv N A nrestart b s p0 Hg Hr Lp) as [Hg' _].
    eapply nok_bind; [apply vdot_ok; apply resid_length|]. intros rr _.
    eapply nok_bind with (P := fun '(s', m, rn) => m = 1%nat /\ is_prod N A (gx s') b /\ rn = ssqrt s0).
    - destruct nrestart as [|n']; [lia|]. cbn [gcr_inner].
      eapply nok_bind; [apply (gcr_update_ok N (S n') b 0 _ Hg' Hr)|]. intros s' ->.
      set (s' := update_state N 0 _).
      assert (acoef N 0 (start_state N A b p0 s) = s1) as Eal.
      { unfold acoef, start_state. cbn [gres gq gx]. rewrite list_lookup_insert by (unfold s; cbn; lia). cbn [default].
        replace (times N A p0) with (resid N A b x0).
        - apply one_ratio, (sqnorm_ne pos N Hpos _ Hnz).
        - apply vec_eq; [rewrite resid_length, times_length; reflexivity|]. intros i Hi. rewrite resid_length in Hi. rewrite (times_at N A p0 i Hi). symmetry. apply Hp, Hi. }
      assert (gx s' = vadd N x0 p0) as Ex.
      { unfold s', update_state. cbn [gx]. rewrite Eal. apply list_fmap_ext. intros ? i _. unfold start_state. cbn [gx gp]. rewrite list_lookup_insert by (unfold s; cbn; lia).
        cbn. ring. }
      assert (forall i, (i < N)%nat -> vat (gres s') i = s0) as Er.
      { intros i Hi. unfold s', update_state. cbn [gres]. rewrite vat_fmap_seq by exact Hi. rewrite Eal. unfold start_state. cbn [gq gres gx].
        rewrite list_lookup_insert by (unfold s; cbn; lia). change (default [] (Some (times N A p0))) with (times N A p0). rewrite times_at by exact Hi. change (gx s) with x0. rewrite (Hp i Hi). ring. }
      eapply nok_bind; [apply vdot_ok; unfold s', update_state; cbn; rewrite fmap_length, seq_length; reflexivity|]. intros ? ->. cbv zeta.
      change (dot N (gres s') (gres s')) with (sqnorm N (gres s')). rewrite (zero_norm _ Er), Hstop. apply nok_ret.
      split; [reflexivity|]. split; [|reflexivity]. rewrite Ex. apply resid_prod, exact_step; assumption.
    - intros [[s' m] rn] (-> & H1 & ->). rewrite Hstop. apply nok_ret. auto.
  Qed.
End Exact.

(** ** C109: the solvers with an exact preconditioner, in exact arithmetic *)
(** Richardson needs one step, or none if the tolerance is met already. *)
Theorem C109_richardson_exact : forall (F : Type) (O : SOps F) (FF : Field F) ssqrt slt N A Aapply Agemv3 prec maxiter tol (b x0 : list F),
  matrix_object N A Aapply Agemv3 -> exact_prec N A prec -> length b = N -> length x0 = N -> 2 <= maxiter ->
  slt (ssqrt s0 / ssqrt (sqnorm N b))%s tol = true ->
  nok (richardson ssqrt slt N Agemv3 prec maxiter tol b x0) (fun '(x', info) =>
    iters info = 0 /\ x' = x0 /\ slt (ssqrt (sqnorm N (resid N A b x0)) / ssqrt (sqnorm N b))%s tol = true \/
    iters info = 1 /\ is_prod N A x' b /\ resnorm info = ssqrt s0).
Proof. intros. eapply richardson_exact; eassumption. Qed.
(** GCR needs one step, with any restart length. *)
Theorem C109_gcr_exact : forall (F : Type) (O : SOps F) (FF : Field F) (pos : F -> Prop) ssqrt slt sle N A Aapply Agemv3 prec maxiter tol nrestart (b x0 : list F),
  ordered pos -> matrix_object N A Aapply Agemv3 -> exact_prec N A prec -> length b = N -> length x0 = N -> 0 < nrestart -> 0 < maxiter ->
  nonzero N (resid N A b x0) -> slt (ssqrt s0 / ssqrt (sqnorm N b))%s tol = true ->
  nok (gcr ssqrt slt sle N Aapply Agemv3 prec maxiter tol nrestart b x0) (fun '(x', info) =>
    iters info = 1 /\ is_prod N A x' b /\ resnorm info = ssqrt s0).
Proof. intros. eapply gcr_exact; eassumption. Qed.
(** BiCGSTAB: one step, whatever 0 / 0 is (it is always computed) *)
Theorem C109_bicgstab_exact : forall (F : Type) (O : SOps F) (FF : Field F) (pos : F -> Prop) ssqrt slt N A K Aapply Agemv3 prec maxiter tol hundred (b x0 : list F),
  ordered pos -> matrix_object N A Aapply Agemv3 -> linear_prec N K prec -> is_inverse N A K -> length b = N -> length x0 = N -> 0 < maxiter ->
  nonzero N (resid N A b x0) -> slt (ssqrt s0 / ssqrt (sqnorm N b))%s tol = true ->
  nok (bicgstab ssqrt slt N Aapply Agemv3 prec maxiter tol hundred b x0) (fun '(x', info) =>
    iters info = 1 /\ is_prod N A x' b /\ resnorm info = ssqrt s0).
Proof.
  intros F O FF pos ssqrt slt N A K Aapply Agemv3 prec maxiter tol hundred b x0 Hpos HM HP HK Lb Lx Hm Hnz Htol.
  assert (forall v i, i < N -> vat (AK N A K v) i = vat v i) as HAK.
  { intros v i Hi. unfold AK. rewrite times_at by exact Hi. symmetry.
    apply (inverse_apply N K A (vat (times N K v)) (vat v) (is_inverse_sym _ _ _ HK)); [|exact Hi]. intros j Hj. apply times_at, Hj. }
  pose proof (sqnorm_ne pos N Hpos _ Hnz) as Hne.
  assert (tb_alpha N A K b x0 (tb_at N A K b x0 0) = s1) as Eal.
  { unfold tb_alpha, tb_rho, tb_sigma, tb_v. cbn [tb_at tb_r tb_p].
    replace (dot N (tb_r0 N A b x0) (AK N A K (tb_r0 N A b x0))) with (dot N (tb_r0 N A b x0) (tb_r0 N A b x0)).
    - apply one_ratio, Hne.
    - apply bsum_ext. intros i Hi. rewrite HAK by exact Hi. reflexivity. }
  assert (forall k, k < N -> vat (tb_r (tb_at N A K b x0 1)) k = s0) as Hz.
  { apply (s_zero N A K b x0 0). intros k Hk. unfold tb_s, comb. rewrite vat_fmap_seq by exact Hk. rewrite Eal. unfold tb_v. rewrite HAK by exact Hk. cbn [tb_at tb_r tb_p].
    apply exact_diff. }
  assert (sqnorm N (resid N A b (tb_x (tb_at N A K b x0 1))) = s0) as En.
  { rewrite <- (tb_resid N A K b x0). apply zero_norm, Hz. }
  pose proof (C99_bicgstab F O field_ring ssqrt slt N A Aapply Agemv3 prec maxiter tol hundred b x0 HM) as H2.
  pose proof (C102_textbook F O field_ring ssqrt slt N A K Aapply Agemv3 prec maxiter tol hundred b x0 HM HP Lb Lx) as H1.
  assert (prec_object N prec) as Hob. { intros x y Hx Hy. eapply nok_mono; [apply (HP x y Hx Hy)|]. intros y' [H _]. exact H. }
  specialize (H2 Hob Lb Lx).
  split; [apply H1|]. intros o Ho. destruct H1 as [_ H1], H2 as [_ H2]. specialize (H1 o Ho). specialize (H2 o Ho).
  destruct o as [[x' info]| | |]; try contradiction. cbn -[tb_at] in H1, H2 |- *. destruct H1 as (Hi & Hbn & Hx' & Hlt & Hlast), H2 as (_ & _ & _ & _ & H2 & _).
  destruct (H2 Hm) as [Hrn _]. rewrite Hbn in *.
  assert (iters info = 1) as E1.
  { destruct (decide (iters info = 1)) as [E|E]; [exact E|exfalso]. destruct (decide (maxiter = 1)) as [->|Hm1].
    - assert (Nat.min (iters info) 1 = 1) as Em by lia. rewrite Em, En in Hlast. apply (proj2 (Hlast Hm)) in Htol. lia.
    - specialize (Hlt 1 ltac:(lia)). rewrite En, Htol in Hlt. discriminate Hlt. }
  split; [exact E1|]. rewrite E1 in Hx'. replace (Nat.min 1 maxiter) with 1 in Hx' by lia. rewrite <- Hx' in En. split; [|rewrite Hrn, En; reflexivity].
  apply resid_prod. intros i Hi'. rewrite Hx', <- (tb_resid N A K b x0). apply Hz, Hi'.
Qed.

(** ** The preconditioners which are exact *)
Theorem C109_inverse_exact : forall (F : Type) (O : SOps F) (FF : Field F) N A K prec, is_inverse N A K -> linear_prec N K prec -> exact_prec N A prec.
Proof.
  intros F O FF N A K prec HK HP s z Ls Lz. eapply nok_mono; [apply (HP s z Ls Lz)|]. intros z' [L H]. split; [exact L|].
  intros i Hi. symmetry. apply (inverse_apply N K A (vat z') (vat s) (is_inverse_sym _ _ _ HK)); [|exact Hi]. intros j Hj. symmetry. apply H, Hj.
Qed.
(** ILU objects, asynchronous or by levels, if elimination creates no new entries *)
Theorem C109_no_fill : forall (F : Type) (O : SOps F) (FF : Field F) (ssqrt sabs : F -> F) (inv : list F -> list F) maxthr nthr sh i p (M0 M : srmat F),
  p = PIlu sh i \/ p = PLevelIlu sh i -> no_fill M ->
  well_equipped inv p M0 -> same_pattern M0 M -> fits sh M -> 1 <= nthr -> in_order maxthr nthr p -> regular ssqrt p M ->
  (exists st, lived ssqrt sabs inv p maxthr M0 M st) ->
  exists K, is_inverse (obj_dim p M) (matrix_of sh M) K /\ linear_prec (obj_dim p M) K (object_prec ssqrt sabs inv maxthr nthr p M0 M).
Proof.
  intros F O FF ssqrt sabs inv maxthr nthr sh i p M0 M Hp Hnf Heq Hsame Hf Hn Hio Hreg Hst.
  assert (pshape p = sh) as Esh by (destruct Hp as [-> | ->]; reflexivity).
  assert (exists L U, incomplete_factors sh M L U) as (L & U & HLU) by (destruct Hp as [-> | ->]; apply Hreg).
  assert (matrix_for p M (mprod (obj_dim p M) L U)) as HP by (destruct Hp as [-> | ->]; cbn [matrix_for]; eauto 6).
  destruct (C109_linear ssqrt sabs inv maxthr nthr p M0 M _ Heq Hsame ltac:(rewrite Esh; exact Hf) Hn Hio Hreg HP Hst) as (K & HK & HL).
  exists K. split; [|exact HL].
  assert (forall I J, I < obj_dim p M -> J < obj_dim p M -> mprod (obj_dim p M) L U I J = matrix_of sh M I J) as E.
  { unfold obj_dim. rewrite Esh. destruct sh as [|bs so]; cbn [width matrix_of incomplete_factors] in *.
    - rewrite Nat.mul_1_r. destruct HLU as (lu & _ & -> & -> & Hex & _). apply no_fill_exact; auto.
      + intros i' c' E. unfold entry. rewrite E. reflexivity.
      + intros i' c' E. unfold dense. rewrite E. reflexivity.
    - destruct HLU as (x & _ & -> & -> & Hex & _). apply block_no_fill_exact; auto.
      + intros i' c' p' q' Hp' Hq E. rewrite bentry_flat, E by done. reflexivity.
      + intros i' c' p' q' Hp' Hq E. rewrite bdense_flat, E by done. reflexivity. }
  intros I J HI HJ. destruct (HK I J HI HJ) as [H1 H2]. split; [rewrite <- H1|rewrite <- H2]; apply bsum_ext; intros k Hk; rewrite <- E by assumption; reflexivity.
Qed.

(** ** Cases: the tridiagonal matrix [symT] with every class of preconditioner, and with ILU as an exact one *)
Example C109_case : (forall p, p ∈ PCscBgs 2 3 :: ordered_classes Scalar -> usual 1 p symT) /\
  no_fill symT /\ ordered positive /\ matrix_object 3 (dense symT) (csr_apply symT) (fun a x b y z => csr_gemv3 symT a x b (Some y) z) /\
  nonzero 3 (resid 3 (dense symT) [q 1; q 2; q 3] [q 0; q 0; q 0]) /\
  qlt (qsqrt s0 / qsqrt (sqnorm 3 [q 1; q 2; q 3]))%s (q 1 / q 10)%Qc = true.
Proof.
  split; [exact C78_case|]. split.
  - intros i c t Hi Hc. cbn in Hi, Hc. intros H1 H2. destruct i as [|[|[|]]], c as [|[|[|]]], t as [|[|[|]]]; try lia; vm_compute; try congruence; auto.
  - split; [exact Qc_ordered|]. split; [apply C100_case|]. split; [apply C100_case|apply C100_case].
Qed.

Print Assumptions C109_linear.
Print Assumptions C109_richardson_exact.
Print Assumptions C109_gcr_exact.
Print Assumptions C109_bicgstab_exact.
Print Assumptions C109_inverse_exact.
Print Assumptions C109_no_fill.
