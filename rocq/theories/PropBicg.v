(** * PropBicg: properties C102 (BiCGSTAB is the textbook method) and C103 (it ends within N steps unless it breaks down) *)
From Verif Require Import Base Alg SRMatrix Nd Reduction Matvec MatvecFacts TriSpec TriFacts SymSpec SymFacts SolveSpec BicgSpec Solvers SolversFacts GcrFacts BicgFacts
  PropSolvers Sgs PropSgs PropLinearEx Inst.
From Coq Require Import QArith.Qcanon.
Open Scope nat_scope.

(** The preconditioner multiplies by the N x N matrix K. *)
Definition linear_prec {F} {O : SOps F} (N : nat) (K : nat -> nat -> F) (prec : list F -> list F -> nd (list F)) : Prop :=
  forall x y, length x = N -> length y = N -> nok (prec x y) (fun y' => length y' = N /\ is_prod N K x y').

Section Main.
  Context {F : Type} {O : SOps F} {R : CRing F}.
  Add Ring Fr3 : (@cring F O R).
  Variables (ssqrt : F -> F) (slt : F -> F -> bool).
  Variables (N : nat) (A K : nat -> nat -> F).
  Variable Aapply : list F -> list F -> nd (list F).
  Variable Agemv3 : F -> list F -> F -> list F -> list F -> nd (list F).
  Variable prec : list F -> list F -> nd (list F).
  Hypothesis HM : matrix_object N A Aapply Agemv3.
  Hypothesis HP : linear_prec N K prec.
  Variables (b x0 : list F) (tol : F).
  Hypothesis Lb : length b = N.
  Hypothesis Lx0 : length x0 = N.
  Open Scope s_scope.
  Notation mk f := (fmap (M:=list) (f : nat -> F) (seq 0 N)).
  Notation st i := (tb_at N A K b x0 i).
  Notation rhat := (tb_r0 N A b x0).
  Notation rho i := (tb_rho N A b x0 (st i)).
  Notation alpha i := (tb_alpha N A K b x0 (st i)).
  Notation omega i := (tb_omega N A K b x0 (st i)).

  Lemma ident_times v k : (k < N)%nat -> vat (times N ident v) k = vat v k.
  Proof.
    intros Hk. rewrite times_at by exact Hk. rewrite (bsum_single N k (fun j => ident k j * vat v j)); [|exact Hk|].
    - unfold ident. rewrite decide_True by reflexivity. ring.
    - intros j Hj Hne. unfold ident. rewrite decide_False by auto. ring.
  Qed.
  Lemma tb_x_length i : length (tb_x (st i)) = N.
  Proof. destruct i; [exact Lx0|apply mk_length]. Qed.
  Lemma tb_r_length i : length (tb_r (st i)) = N.
  Proof. destruct i; [apply resid_length|apply mk_length]. Qed.
  Lemma tb_p_length i : length (tb_p (st i)) = N.
  Proof. destruct i; [apply resid_length|apply mk_length]. Qed.
  Lemma tb_resid i : tb_r (st i) = resid N A b (tb_x (st i)).
  Proof.
    induction i as [|i IH]; [reflexivity|]. apply vec_eq; [rewrite tb_r_length, resid_length; reflexivity|]. intros j Hj. rewrite tb_r_length in Hj.
    rewrite resid_at by exact Hj. cbn [tb_at tb_step tb_x tb_r]. unfold comb at 2. rewrite times_lin by exact Hj. unfold comb at 2. rewrite times_lin by exact Hj.
    rewrite comb_at by exact Hj. unfold tb_s at 1. rewrite comb_at by exact Hj. rewrite IH, resid_at by exact Hj.
    unfold tb_t, tb_v, AK. ring.
  Qed.

  Definition tb_inv (i : nat) (s : bstate) : Prop :=
    length (bs_p s) = N /\ length (bs_v s) = N /\ length (bs_y s) = N /\ length (bs_z s) = N /\ length (bs_t s) = N /\
    bs_x s = tb_x (st i) /\ bs_r s = tb_r (st i) /\
    (let beta := rho i * bs_alpha s / (bs_rhoold s * bs_omega s) in
     mk (fun k => beta * vat (bs_p s) k + s1 * vat (bs_r s) k + sopp beta * bs_omega s * vat (bs_v s) k) = tb_p (st i)).
  Lemma prec_lin x y : length x = N -> length y = N -> nok (prec x y) (fun y' => y' = times N K x).
  Proof.
    intros Hx Hy. eapply nok_mono; [apply HP; assumption|]. intros y' [L H]. apply mk_eq; [exact L|]. intros i Hi. symmetry. apply H, Hi.
  Qed.
  Lemma step_ok i s : tb_inv i s ->
    nok (bicgstab_step N Aapply prec rhat s) (fun '(s', r) => r = rho i /\ bs_r s' = tb_r (st (S i)) /\
      tb_inv (S i) (BS (bs_omega s') r (bs_alpha s') (bs_r s') (bs_p s') (bs_v s') (bs_y s') (bs_z s') (bs_t s') (bs_x s'))).
  Proof.
    destruct HM as [HA _]. destruct s as [om rho0 al r p v y z t x]. unfold tb_inv. cbn -[tb_at].
    intros (Lp & Lv & Ly & Lz & Lt & -> & -> & Hp).
    eapply nok_bind; [apply vdot_ok; [apply resid_length|apply tb_r_length]|]. intros ? ->.
    change (dot N rhat (tb_r (st i))) with (rho i).
    eapply nok_bind; [apply axpbypcz_ok; [exact Lp|apply tb_r_length|exact Lv]|]. intros ? ->. rewrite Hp.
    eapply nok_bind; [apply prec_lin; [apply tb_p_length|exact Ly]|]. intros ? ->.
    eapply nok_bind; [apply (Aapply_ok N A Aapply HA); [apply times_length|exact Lv]|]. intros ? ->.
    change (times N A (times N K (tb_p (st i)))) with (tb_v N A K (st i)).
    eapply nok_bind; [apply vdot_ok; [apply resid_length|apply times_length]|]. intros ? ->.
    change (rho i / dot N rhat (tb_v N A K (st i))) with (alpha i).
    eapply nok_bind; [apply axpby_ok; [apply tb_r_length|apply times_length]|]. intros ? ->.
    change (mk (fun i0 => s1 * vat (tb_r (st i)) i0 + sopp (alpha i) * vat (tb_v N A K (st i)) i0)) with (tb_s N A K b x0 (st i)).
    eapply nok_bind; [apply prec_lin; [apply mk_length|exact Lz]|]. intros ? ->.
    eapply nok_bind; [apply (Aapply_ok N A Aapply HA); [apply times_length|exact Lt]|]. intros ? ->.
    change (times N A (times N K (tb_s N A K b x0 (st i)))) with (tb_t N A K b x0 (st i)).
    eapply nok_bind; [apply vdot_ok; [apply times_length|apply mk_length]|]. intros ? ->.
    eapply nok_bind; [apply vdot_ok; apply times_length|]. intros ? ->.
    change (dot N (tb_t N A K b x0 (st i)) (tb_s N A K b x0 (st i)) / dot N (tb_t N A K b x0 (st i)) (tb_t N A K b x0 (st i))) with (omega i).
    eapply nok_bind; [apply axpbypcz_ok; [apply tb_x_length|apply times_length|apply times_length]|]. intros ? ->.
    eapply nok_bind; [apply axpby_ok; [apply mk_length|apply times_length]|]. intros ? ->.
    change (mk (fun i0 => s1 * vat (tb_s N A K b x0 (st i)) i0 + sopp (omega i) * vat (tb_t N A K b x0 (st i)) i0)) with (tb_r (st (S i))).
    apply nok_ret. cbn [bs_omega bs_rhoold bs_alpha bs_r bs_p bs_v bs_y bs_z bs_t bs_x].
    split; [reflexivity|]. split; [reflexivity|]. split; [apply tb_p_length|]. do 4 (split; [apply times_length|]). split; [|split; [reflexivity|]].
    - apply vec_eq; [rewrite tb_x_length; apply mk_length|]. intros k Hk. rewrite mk_length in Hk. rewrite (mk_at N _ k Hk).
      cbn [tb_at tb_step tb_x]. rewrite !comb_at by exact Hk. ring.
    - cbv zeta. change (rho (S i) * alpha i / (rho i * omega i)) with (bet N A K b x0 i).
      apply vec_eq; [rewrite tb_p_length; apply mk_length|]. intros k Hk. rewrite mk_length in Hk. rewrite (mk_at N _ k Hk).
      change (tb_p (st (S i))) with (comb N s1 (tb_r (st (S i))) (bet N A K b x0 i) (comb N s1 (tb_p (st i)) (sopp (omega i)) (tb_v N A K (st i)))).
      rewrite !comb_at by exact Hk. ring.
  Qed.
  Notation rnorm i := (ssqrt (sqnorm N (tb_r (st i)))).
  Lemma loop_ok bn k : forall step rn s, tb_inv step s -> 
      ((0 < step)%nat -> rn = rnorm step) -> (forall j, (0 < j <= step)%nat -> slt (rnorm j / bn) tol = false) ->
      nok (bicgstab_loop ssqrt slt N Aapply prec tol rhat bn k step rn s)
        (fun '(x', m, rn') => exists i, (step <= i <= step + k)%nat /\ x' = tb_x (st i) /\ ((0 < step + k)%nat -> (0 < i)%nat /\ rn' = rnorm i) /\
          (forall j, (0 < j < i)%nat -> slt (rnorm j / bn) tol = false) /\
          ((m + 1 = i)%nat /\ slt (rnorm i / bn) tol = true \/ (m = i)%nat /\ (i = step + k)%nat /\ ((0 < i)%nat -> slt (rnorm i / bn) tol = false)) /\
          (step + k = 0 -> rn' = rn)%nat).
  Proof.
    induction k as [|k IH]; intros step rn s Hi Hrn Hprev; cbn [bicgstab_loop].
    - apply nok_ret. exists step. split; [lia|]. split; [apply Hi|]. split; [intros; split; [lia|apply Hrn; lia]|]. split; [intros; apply Hprev; lia|].
      split; [|reflexivity]. right. split; [reflexivity|]. split; [lia|]. intros; apply Hprev; lia.
    - eapply nok_bind; [apply step_ok, Hi|]. intros [s' r]. cbn beta iota. intros (-> & Er & Hi').
      rewrite Er. eapply nok_bind; [apply vdot_ok; apply tb_r_length|]. intros ? ->. cbv zeta.
      change (dot N (tb_r (st (S step))) (tb_r (st (S step)))) with (sqnorm N (tb_r (st (S step)))).
      destruct (slt (rnorm (S step) / bn) tol) eqn:Et.
      + apply nok_ret. exists (S step). split; [lia|]. split; [apply Hi'|]. split; [intros; split; [lia|reflexivity]|]. split; [intros; apply Hprev; lia|].
        split; [left; split; [lia|exact Et]|lia].
      + replace (step + 1)%nat with (S step) by lia. rewrite <- Er. eapply nok_mono; [apply IH; [exact Hi'|intros _; rewrite Er; reflexivity|]|].
        * intros j Hj. destruct (decide (j = S step)) as [->|Hne]; [exact Et|apply Hprev; lia].
        * intros [[x' m] rn']. cbn beta iota. intros (i & H1 & H2 & H3 & H4 & H5 & H6). exists i. split; [lia|]. split; [exact H2|].
          split; [intros; apply H3; lia|]. split; [exact H4|]. split; [|lia]. destruct H5 as [H5|(E1 & E2 & E3)]; [left; exact H5|].
          right. split; [exact E1|]. split; [lia|exact E3].
  Qed.
  Lemma textbook_main maxiter hundred :
    nok (bicgstab ssqrt slt N Aapply Agemv3 prec maxiter tol hundred b x0) (fun '(x', info) =>
      let i := Nat.min (iters info) maxiter in
      bnorm info = ssqrt (sqnorm N b) /\ (1 <= iters info <= maxiter + 1)%nat /\ x' = tb_x (st i) /\
      (resnorm info = if decide (maxiter = 0)%nat then hundred else rnorm i) /\
      (forall j, (0 < j < i)%nat -> slt (rnorm j / bnorm info) tol = false) /\
      ((0 < maxiter)%nat -> ((iters info <= maxiter)%nat <-> slt (rnorm i / bnorm info) tol = true))).
  Proof.
    destruct HM as [HA HG]. unfold bicgstab. cbv zeta.
    eapply nok_bind; [apply (Agemv3_ok N A Agemv3 HG); auto using replicate_length|]. intros ? ->.
    eapply nok_bind; [apply rhs_loop_ok; auto using replicate_length, resid_length|]. intros [bb rh] [-> ->].
    eapply nok_bind; [apply (loop_ok (ssqrt (dot N b b)) maxiter 0 hundred)|].
    - unfold tb_inv. cbn [bs_omega bs_rhoold bs_alpha bs_r bs_p bs_v bs_y bs_z bs_t bs_x tb_at tb_x tb_r tb_p]. rewrite !replicate_length. do 7 (split; [reflexivity|]).
      cbv zeta. apply vec_eq; [rewrite mk_length; symmetry; apply resid_length|]. intros k Hk. rewrite mk_length in Hk. rewrite (mk_at N _ k Hk).
      assert (vat (replicate N (s0 : F)) k = s0) as ->; [|change (resid N A b x0) with rhat; ring].
      unfold vat. rewrite lookup_replicate_2 by exact Hk. reflexivity.
    - lia.
    - intros; lia.
    - intros [[x' m] rn]. cbn beta iota. intros (i & H1 & H2 & H3 & H4 & H5 & H6). apply nok_ret. cbn [bnorm iters resnorm].
      assert (Nat.min (m + 1) maxiter = i) as Ei by (destruct H5 as [[? _]|(? & ? & _)]; lia). rewrite Ei.
      split; [reflexivity|]. split; [destruct H5 as [[? _]|(? & ? & _)]; lia|]. split; [exact H2|]. split; [|split; [exact H4|]].
      + destruct (decide (maxiter = 0%nat)) as [E|E]; [apply H6; lia|apply H3; lia].
      + intros Hm. destruct H5 as [[E Ht]|(E1 & E2 & E3)]; [split; [intros; exact Ht|lia]|].
        split; [lia|]. intros Ht. rewrite E3 in Ht by (apply H3; lia). discriminate Ht.
  Qed.
End Main.

(** ** C102: the program is the textbook method *)
(** With a preconditioner which multiplies by a matrix K, the returned vector is the iterate of the textbook method, and the run
    ends with the first iterate which meets the tolerance. This needs no law of division: it holds also after a breakdown. *)
Theorem C102_textbook : forall (F : Type) (O : SOps F) (R : CRing F) ssqrt slt N A K Aapply Agemv3 prec maxiter tol hundred (b x0 : list F),
  matrix_object N A Aapply Agemv3 -> linear_prec N K prec -> length b = N -> length x0 = N ->
  nok (bicgstab ssqrt slt N Aapply Agemv3 prec maxiter tol hundred b x0) (fun '(x', info) =>
    let steps := Nat.min (iters info) maxiter in
    let relnorm j := (ssqrt (sqnorm N (resid N A b (tb_x (tb_at N A K b x0 j)))) / bnorm info)%s in
    1 <= iters info <= maxiter + 1 /\ bnorm info = ssqrt (sqnorm N b) /\ x' = tb_x (tb_at N A K b x0 steps) /\
    (forall j, 0 < j < steps -> slt (relnorm j) tol = false) /\
    (0 < maxiter -> (iters info <= maxiter <-> slt (relnorm steps) tol = true))).
Proof.
  intros F O R ssqrt slt N A K Aapply Agemv3 prec maxiter tol hundred b x0 HM HP Lb Lx.
  eapply nok_mono; [apply (textbook_main ssqrt slt N A K Aapply Agemv3 prec HM HP b x0 tol Lb Lx maxiter hundred)|].
  intros [x' info]. cbv zeta. intros (H1 & H2 & H3 & H4 & H5 & H6). split; [exact H2|]. split; [exact H1|]. split; [exact H3|]. split.
  - intros j Hj. rewrite <- (tb_resid N A K b x0). apply H5, Hj.
  - rewrite <- (tb_resid N A K b x0). exact H6.
Qed.

(** ** C103: the textbook method ends within N steps *)
Section Finite.
  Context {F : Type} {O : SOps F} {FF : Field F}.
  Add Ring Fr4 : (@cring F O field_ring).
  Variables (pos : F -> Prop) (N : nat) (A K : nat -> nat -> F) (b x0 : list F).
  Hypothesis Hpos : ordered pos.
  Notation st i := (tb_at N A K b x0 i).
  Notation zero v := (forall k, k < N -> vat v k = s0).
  Lemma times_zero M v : zero v -> zero (times N M v).
  Proof. intros H k Hk. rewrite times_at by exact Hk. apply bsum_zero. intros j Hj. rewrite H by exact Hj. ring. Qed.
  Lemma comb_zero a u c v : zero u -> zero v -> zero (comb N a u c v).
  Proof. intros Hu Hv k Hk. rewrite comb_at, Hu, Hv by exact Hk. ring. Qed.
  Lemma sq_zero v : zero v -> sqnorm N v = s0.
  Proof. intros H. unfold sqnorm, dot. apply bsum_zero. intros l Hl. rewrite H by exact Hl. ring. Qed.
  Lemma half_zero (a : F) : a = sopp a -> a = s0.
  Proof.
    intros E. destruct (pos_total _ Hpos a) as [H|[H|H]]; [exact H| |].
    - exfalso. apply (pos_zero _ Hpos). replace (s0 : F) with (a + a)%s by (rewrite E at 1; ring). apply (pos_add _ Hpos); exact H.
    - exfalso. apply (pos_zero _ Hpos). replace (s0 : F) with (sopp a + sopp a)%s by (rewrite E at 1; ring). apply (pos_add _ Hpos); exact H.
  Qed.
  Lemma skew_zero : (forall i j, i < N -> j < N -> A i j = sopp (A j i)) -> dot N (tb_r0 N A b x0) (AK N A ident (tb_r0 N A b x0)) = s0.
  Proof.
    intros Hs. set (r := tb_r0 N A b x0). apply half_zero.
    assert (dot N r (AK N A ident r) = bsum N (fun i => bsum N (fun j => vat r i * A i j * vat r j)%s)) as E.
    { unfold dot, AK. apply bsum_ext. intros i Hi. rewrite times_at by exact Hi. rewrite <- bsum_mul_l. apply bsum_ext. intros j Hj.
      rewrite ident_times by exact Hj. ring. }
    rewrite E at 2. rewrite bsum_swap, E. transitivity (sopp s1 * bsum N (fun j => bsum N (fun i => vat r i * A i j * vat r j)))%s; [|ring].
    rewrite <- bsum_mul_l. apply bsum_ext. intros i Hi. rewrite <- bsum_mul_l. apply bsum_ext. intros j Hj. rewrite (Hs i j) by assumption. ring.
  Qed.
  Lemma s_zero i : zero (tb_s N A K b x0 (st i)) -> zero (tb_r (st (S i))).
  Proof. intros H. apply comb_zero; [exact H|]. apply times_zero, times_zero, H. Qed.
  Lemma ends k : (forall j, j < N -> nonzero N (tb_r (st j)) -> ~ tb_breakdown N A K b x0 (st j)) -> k <= N ->
    (forall j, j < k -> regular N A K b x0 j) \/ exists m, 1 <= m <= k /\ zero (tb_r (st m)).
  Proof.
    intros Hb. induction k as [|k IH]; intros Hk; [left; intros; lia|].
    destruct IH as [IH|(m & Hm & Hz)]; [lia| |right; exists m; split; [lia|exact Hz]].
    destruct (zero_or_not pos N Hpos (tb_r (st k))) as [Hz|Hnz].
    - right. destruct k as [|k]; [|exists (S k); split; [lia|exact Hz]].
      exists 1. split; [lia|]. apply s_zero. apply comb_zero; [exact Hz|]. apply times_zero, times_zero. exact Hz.
    - specialize (Hb k ltac:(lia) Hnz). unfold tb_breakdown in Hb.
      destruct (zero_or_not pos N Hpos (tb_s N A K b x0 (st k))) as [Hs|Hs].
      + right. exists (S k). split; [lia|]. apply s_zero, Hs.
      + left. intros j Hj. destruct (decide (j = k)) as [->|Hne]; [|apply IH; lia].
        split; [tauto|]. split; [tauto|]. intros E. apply Hb. right; right. split; [exact Hs|].
        destruct (zero_or_not pos N Hpos (tb_t N A K b x0 (st k))) as [Ht|Ht].
        * unfold dot. apply bsum_zero. intros l Hl. rewrite Ht by exact Hl. ring.
        * unfold tb_omega in E. rewrite <- (field_div (dot N (tb_t N A K b x0 (st k)) (tb_s N A K b x0 (st k))) _ (sqnorm_ne pos N Hpos _ Ht)). rewrite E. ring.
  Qed.
  Lemma textbook_ends : 0 < N -> (forall j, j < N -> nonzero N (tb_r (st j)) -> ~ tb_breakdown N A K b x0 (st j)) ->
    exists m, 1 <= m <= N /\ zero (tb_r (st m)).
  Proof.
    intros HN Hb. destruct (ends N Hb (le_n N)) as [H|H]; [|exact H]. exists N. split; [lia|].
    apply (tb_full pos N A K b x0 Hpos H).
  Qed.
End Finite.

(** If the first N steps of the textbook method do not break down, the method has found the solution after at most N steps ... *)
Theorem C103_textbook_finite : forall (F : Type) (O : SOps F) (FF : Field F) (pos : F -> Prop) N A K (b x0 : list F), ordered pos -> 0 < N ->
  (forall j, j < N -> nonzero N (resid N A b (tb_x (tb_at N A K b x0 j))) -> ~ tb_breakdown N A K b x0 (tb_at N A K b x0 j)) ->
  exists m, 1 <= m <= N /\ is_prod N A (tb_x (tb_at N A K b x0 m)) b.
Proof.
  intros F O FF pos N A K b x0 Hpos HN Hb.
  destruct (textbook_ends pos N A K b x0 Hpos HN) as (m & Hm & Hz).
  - intros j Hj. rewrite (tb_resid N A K b x0). apply Hb, Hj.
  - exists m. split; [exact Hm|]. intros i Hi. specialize (Hz i Hi). rewrite (tb_resid N A K b x0), resid_at, times_at in Hz by exact Hi.
    assert (forall a c : F, (a - c)%s = s0 -> c = a) as Hsub.
    { intros a c E. pose proof (@cring F O field_ring) as RT. rewrite (Rsub_def RT) in E.
      rewrite <- (Radd_0_l RT c), <- E, <- (Radd_assoc RT), (Radd_comm RT (sopp c) c), (Ropp_def RT). rewrite (Radd_comm RT). apply (Radd_0_l RT). }
    apply Hsub, Hz.
Qed.
(** ... and so the program, if it may take N steps, ends within N steps and meets any tolerance which a zero residual meets. *)
Theorem C103_finite : forall (F : Type) (O : SOps F) (FF : Field F) (pos : F -> Prop) ssqrt slt N A K Aapply Agemv3 prec maxiter tol hundred (b x0 : list F),
  ordered pos -> matrix_object N A Aapply Agemv3 -> linear_prec N K prec -> length b = N -> length x0 = N -> 0 < N -> N <= maxiter ->
  (forall j, j < N -> nonzero N (resid N A b (tb_x (tb_at N A K b x0 j))) -> ~ tb_breakdown N A K b x0 (tb_at N A K b x0 j)) ->
  slt (ssqrt s0 / ssqrt (sqnorm N b))%s tol = true ->
  nok (bicgstab ssqrt slt N Aapply Agemv3 prec maxiter tol hundred b x0) (fun '(x', info) =>
    0 < iters info <= N /\ slt (ssqrt (sqnorm N (resid N A b x')) / ssqrt (sqnorm N b))%s tol = true /\
    resnorm info = ssqrt (sqnorm N (resid N A b x'))).
Proof.
  intros F O FF pos ssqrt slt N A K Aapply Agemv3 prec maxiter tol hundred b x0 Hpos HM HP Lb Lx HN Hmax Hb Htol.
  destruct (textbook_ends pos N A K b x0 Hpos HN) as (m & Hm & Hz).
  { intros j Hj. rewrite (tb_resid N A K b x0). apply Hb, Hj. }
  pose proof (sq_zero N _ Hz) as En.
  eapply nok_mono; [apply (textbook_main ssqrt slt N A K Aapply Agemv3 prec HM HP b x0 tol Lb Lx maxiter hundred)|].
  intros [x' info]. cbv zeta. intros (H1 & H2 & H3 & H4 & H5 & H6). rewrite decide_False in H4 by lia.
  rewrite H1 in *. rewrite H3, <- (tb_resid N A K b x0).
  assert (iters info <= N) as Hle.
  { destruct (decide (iters info <= N)) as [Hl|Hl]; [exact Hl|exfalso].
    destruct (decide (m < Nat.min (iters info) maxiter)) as [Hlt|Hge].
    - specialize (H5 m ltac:(lia)). rewrite En, Htol in H5. discriminate H5.
    - assert (Nat.min (iters info) maxiter = m) as Em by lia. rewrite Em in H6. rewrite En in H6. apply H6 in Htol; lia. }
  split; [lia|]. split; [|exact H4]. apply H6; lia.
Qed.

(** ** Breakdowns and cases *)
(** No preconditioner is the matrix one. *)
Theorem C103_linear_identity : forall (F : Type) (O : SOps F) (R : CRing F) N bs (M : srmat F), nbrows M * bs = N -> linear_prec N ident (noprec_apply bs M).
Proof.
  intros F O R N bs M HN x y Hx Hy. eapply nok_mono; [apply (C42_identity F O bs M x y); lia|]. intros y' ->. split; [exact Hx|].
  intros i Hi. rewrite <- (times_at N ident x i Hi). apply (ident_times N x i Hi).
Qed.
(** Some systems break down: for a skew-symmetric matrix without preconditioner the first step divides by zero, whatever the right-hand side. *)
Theorem C103_skew_refuted : forall (F : Type) (O : SOps F) (FF : Field F) (pos : F -> Prop) N A (b x0 : list F), ordered pos ->
  (forall i j, i < N -> j < N -> A i j = sopp (A j i)) -> tb_breakdown N A ident b x0 (tb_at N A ident b x0 0).
Proof.
  intros F O FF pos N A b x0 Hpos Hs. right; left. apply (skew_zero pos N A b x0 Hpos Hs).
Qed.
(** The symmetric positive definite matrix [symT] with three unknowns, without preconditioner: no breakdown. *)
Example C103_case : ordered positive /\ matrix_object 3 (dense symT) (csr_apply symT) (fun a x b y z => csr_gemv3 symT a x b (Some y) z) /\
  linear_prec 3 ident (noprec_apply 1 symT) /\
  let run := tb_at 3 (dense symT) ident [q 1; q 2; q 4] [q 0; q 0; q 0] in
  nonzero 3 (tb_r (run 2)) /\ (forall j, j < 3 -> ~ tb_breakdown 3 (dense symT) ident [q 1; q 2; q 4] [q 0; q 0; q 0] (run j)) /\
  qlt (qsqrt s0 / qsqrt (sqnorm 3 [q 1; q 2; q 4]))%s (q 1 / q 10)%Qc = true.
Proof.
  split; [exact Qc_ordered|]. split; [|split; [|split; [|split]]].
  - apply (proj1 (C99_matrix_views Qc Qc_ops Qc_ring symT (proj1 symT_wf) (sorted_nodup symT (proj2 (proj2 symT_wf))))). reflexivity.
  - apply C103_linear_identity; [exact Qc_ring|reflexivity].
  - exists 0. split; [lia|]. vm_compute. discriminate.
  - intros [|[|[|j]]] Hj; [| | |lia]; (intros [E|[E|[Hn E]]]; [revert E; vm_compute; discriminate..|]).
    + revert E. vm_compute. discriminate.
    + revert E. vm_compute. discriminate.
    + destruct Hn as (i & Hi & Hne). apply Hne. destruct i as [|[|[|i]]]; [apply Qc_is_canon; vm_compute; reflexivity..|lia].
  - vm_compute. reflexivity.
Qed.

Print Assumptions C102_textbook.
Print Assumptions C103_textbook_finite.
Print Assumptions C103_finite.
Print Assumptions C103_linear_identity.
Print Assumptions C103_skew_refuted.
