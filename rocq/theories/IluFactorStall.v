(** * IluFactorStall: asynchronous factorisation need not give exact factors *)
From Verif Require Import Base Alg SRMatrix Async AsyncTheory AsyncSystem AsyncSweeps AsyncFlat Nd Kernels KernelFacts
  Helpers IluPattern IluPatternFacts IluApply IluApplyFacts TriSpec TriFacts IluApplyProofs IluApplyMain IluApplyStall
  IluFactor IluFactorFacts IluFactorProofs.

(** ** A schedule: one thread finishes the first chunk and takes the second; the other
    takes the third, reads what its task needs first, and stalls until all else is done *)
Section Schedule.
  Context {V : Type}.
  Variable (T : nat -> @P V unit).
  Lemma run_pure1 {A B} (p : @P V A) (f : A -> @P V B) (g : B -> @P V unit) q x rs m o a :
    writefree p -> exec m p = Ok (a, m) ->
    exists n, run T (replicate n (1, 0)) (Mach q [x; Busy (pbind (pbind p f) g) rs] m o) =
      Ok (Mach q [x; Busy (pbind (f a) g) rs] m o).
  Proof.
    induction p as [b|l k IH|l v k IH|]; intros Hw He; cbn [exec] in He; simpl in Hw.
    - injection He as <-. exists 0. reflexivity.
    - apply bind_Ok in He as (v & Hg & He). destruct (IH v (Hw v) He) as (n & Hn).
      exists (S n). cbn [replicate run]. unfold step at 1. simpl. rewrite Hg. simpl. exact Hn.
    - destruct Hw.
    - discriminate.
  Qed.
  Lemma run_last1 (p : @P V unit) : forall q x m o m',
    exec m p = Ok (tt, m') ->
    exists n o', run T (replicate n (1, 0)) (Mach q [x; Busy p []] m o) = Ok (Mach q [x; Idle] m' o').
  Proof.
    induction p as [b|l k IH|l v k IH|]; intros q x m o m' He; cbn [exec] in He.
    - injection He as _ <-. exists 1, o. reflexivity.
    - apply bind_Ok in He as (v & Hg & He). destruct (IH v q x m o m' He) as (n & o' & Hn).
      exists (S n), o'. cbn [replicate run]. unfold step at 1. simpl. rewrite Hg. simpl. exact Hn.
    - apply bind_Ok in He as (m1 & Hs & He). destruct (IH q x m1 (m :: o) m' He) as (n & o' & Hn).
      exists (S n), o'. cbn [replicate run]. unfold step at 1. simpl. rewrite Hs. simpl. exact Hn.
    - discriminate.
  Qed.
  Lemma stalled_row {A B} c0 c1 r rest (p : @P V A) (f : A -> @P V B) g m m0 a m1 m' :
    c0 <> [] -> c1 <> [] -> T r = pbind (pbind p f) g -> writefree p ->
    exec_seq T c0 m = Ok m0 -> exec m0 p = Ok (a, m0) ->
    exec_seq T (c1 ++ concat rest) m0 = Ok m1 -> exec m1 (pbind (f a) g) = Ok (tt, m') ->
    region_sc T 2 (c0 :: c1 :: [r] :: rest) m m'.
  Proof.
    intros H0 H1 HT Hw Hs0 He Hs Hf.
    rewrite exec_seq_app' in Hs. apply bind_Ok in Hs as (m2 & Hs1 & Hs).
    destruct (run_chunk T c0 (c1 :: [r] :: rest) [Idle] m [] m0 Hs0) as (n1 & o1 & R1).
    destruct (run_pure1 p f g rest (next_task T c1) [] m0 o1 a Hw He) as (n2 & R2).
    destruct (run_chunk T c1 rest [Busy (pbind (f a) g) []] m0 o1 m2 Hs1) as (n3 & o3 & R3).
    destruct (run_queue T rest [Busy (pbind (f a) g) []] m2 o3 m1 Hs) as (n4 & o4 & R4).
    destruct (run_last1 (pbind (f a) g) [] Idle m1 o4 m' Hf) as (n5 & o5 & R5).
    exists ((0, 0) :: replicate n1 (0, 0) ++ (0, 0) :: (1, 0) :: replicate n2 (1, 0) ++
            replicate n3 (0, 0) ++ replicate n4 (0, 0) ++ replicate n5 (1, 0)).
    exists (Mach [] [Idle; Idle] m' o5). split; [|split; [|split; [|reflexivity]]].
    - apply Forall_cons; split; [reflexivity|]. apply Forall_app; split; [apply Forall_replicate; reflexivity|].
      do 2 (apply Forall_cons; split; [reflexivity|]).
      repeat (apply Forall_app; split); apply Forall_replicate; reflexivity.
    - change (run T (replicate n1 (0, 0) ++ (0, 0) :: (1, 0) :: replicate n2 (1, 0) ++
            replicate n3 (0, 0) ++ replicate n4 (0, 0) ++ replicate n5 (1, 0))
          (Mach (c1 :: [r] :: rest) [next_task T c0; Idle] m []) = Ok (Mach [] [Idle; Idle] m' o5)).
      rewrite run_app, R1. cbn [bind].
      change (run T (replicate n2 (1, 0) ++ replicate n3 (0, 0) ++ replicate n4 (0, 0) ++ replicate n5 (1, 0))
          (Mach rest [next_task T c1; Busy (T r) []] m0 o1) = Ok (Mach [] [Idle; Idle] m' o5)).
      rewrite HT. rewrite run_app, R2. cbn [bind]. rewrite run_app, R3. cbn [bind].
      rewrite run_app, R4. cbn [bind]. exact R5.
    - split; [reflexivity|]. simpl. repeat constructor.
  Qed.
End Schedule.

(** tasks leave the entries of others alone *)
Section Frame.
  Context {V : Type}.
  Variables (w : nat) (C : nat -> @P V (list V)) (N : nat) (dep : nat -> nat -> Prop).
  Lemma exec_T_frame r m m' l : kernel_ok w C N dep r -> length m = N * w -> ~ own w r l ->
    exec m (T w C r) = Ok (tt, m') -> m' !! l = m !! l.
  Proof.
    intros [Hr Hk] Hl Hn He. unfold T in He. rewrite exec_bind in He.
    destruct (wp_det (reads w N dep r) m (C r) _ Hk) as (seg & Hs & Hlen & _).
    { intros l' [H _]. lia. }
    rewrite Hs in He. cbn [bind] in He. simpl in Hlen.
    destruct (exec_pwseg seg (r * w) m) as (m2 & E & _ & _ & Hfr); [nia|].
    rewrite E in He. injection He as <-. apply Hfr. unfold own in Hn. lia.
  Qed.
  Lemma exec_seq_frame rs l : forall m m', (forall r, r ∈ rs -> kernel_ok w C N dep r) -> length m = N * w ->
    (forall r, r ∈ rs -> ~ own w r l) -> exec_seq (T w C) rs m = Ok m' -> m' !! l = m !! l.
  Proof.
    induction rs as [|r rs IH]; intros m m' Hk Hl Hn He; cbn [exec_seq] in He; [injection He as <-; reflexivity|].
    apply bind_Ok in He as ([[] m1] & H1 & H2).
    assert (length m1 = N * w) as Hl1.
    { destruct (exec_seq_total w C N dep [r] m) as (ms & E & Hm); auto.
      - intros r' H. apply elem_of_list_singleton in H as ->. apply Hk. left.
      - cbn [exec_seq] in E. rewrite H1 in E. cbn [bind exec_seq] in E. injection E as <-. exact Hm. }
    rewrite (IH m1 m'); auto.
    - eapply exec_T_frame; eauto; [apply Hk; left|apply Hn; left].
    - intros r' H. apply Hk. right. exact H.
    - intros r' H. apply Hn. right. exact H.
  Qed.
End Frame.

Section Matrix.
  Context {F : Type} {O : SOps F} {R : Field F}.
  Add Ring Fst : cring.
  Variable a : nat.
  Notation two := (s1 + s1)%s.
  (** the identity except for the last three rows and columns, which hold
      {{1,1,.},{1,2,.},{.,1,1}} (. is not stored) *)
  Definition lagM : srmat F :=
    SR (seq 0 a ++ [a; a + 2; a + 4; a + 6]) (seq 0 a ++ [a; a + 1; a; a + 1; a + 1; a + 2])
       (replicate a s1 ++ [s1; s1; s1; two; s1; s1])
       (seq 0 a ++ [a; a + 3; a + 5]) (seq 1 a ++ [a + 2; a + 4; a + 6]) (a + 3) (a + 6) (a + 6).
  Definition lag_lu : list F := replicate (a + 6) s1.

  Lemma look_lo (l : list nat) i : i < a -> (seq 0 a ++ l) !!! i = i.
  Proof. intros H. rewrite list_lookup_total_alt, lookup_app_l by (rewrite seq_length; lia). rewrite lookup_seq_lt by lia. reflexivity. Qed.
  Lemma look_hi (l : list nat) k : (seq 0 a ++ l) !!! (a + k) = l !!! k.
  Proof. rewrite !list_lookup_total_alt, lookup_app_r by (rewrite seq_length; lia). rewrite seq_length. do 2 f_equal. lia. Qed.
  Lemma rp_lo i : i < a -> rp lagM i = i.
  Proof. apply look_lo. Qed.
  Lemma rp_hi k : k <= 3 -> rp lagM (a + k) = a + 2 * k.
  Proof. intros H. unfold rp. simpl browptr. rewrite look_hi. destruct k as [|[|[|[|k]]]]; simpl; lia. Qed.
  Lemma col_lo i : i < a -> col lagM i = i.
  Proof. apply look_lo. Qed.
  Definition tailcol (k : nat) : nat := match k with 0 | 2 => a | 1 | 3 | 4 => a + 1 | _ => a + 2 end.
  Lemma col_hi k : k <= 5 -> col lagM (a + k) = tailcol k.
  Proof. intros H. unfold col. simpl bcolind. rewrite look_hi. destruct k as [|[|[|[|[|[|k]]]]]]; simpl; lia. Qed.
  Lemma dg_lo i : i < a -> dg lagM i = i.
  Proof. apply look_lo. Qed.
  Definition taildg (k : nat) : nat := match k with 0 => a | 1 => a + 3 | _ => a + 5 end.
  Lemma dg_hi k : k <= 2 -> dg lagM (a + k) = taildg k.
  Proof. intros H. unfold dg. simpl diagind. rewrite look_hi. destruct k as [|[|[|k]]]; simpl; lia. Qed.
  Lemma lag_nnz : nnz lagM = a + 6.
  Proof. unfold nnz. simpl nbrows. rewrite rp_hi by lia. lia. Qed.
  Lemma split_row i : i < a + 3 -> i < a \/ exists k, k <= 2 /\ i = a + k.
  Proof. intros H. destruct (decide (i < a)); [auto|]. right. exists (i - a). lia. Qed.
  Lemma split_pos j : j < a + 6 -> j < a \/ exists k, k <= 5 /\ j = a + k.
  Proof. intros H. destruct (decide (j < a)); [auto|]. right. exists (j - a). lia. Qed.
  Lemma row_lo i : i < a -> rp lagM (i + 1) = i + 1.
  Proof. intros H. destruct (decide (i + 1 < a)); [apply rp_lo; lia|]. replace (i + 1) with (a + 0) by lia. rewrite rp_hi by lia. lia. Qed.
  Lemma row_hi k : k <= 2 -> rp lagM (a + k + 1) = a + 2 * k + 2.
  Proof. intros H. replace (a + k + 1) with (a + (k + 1)) by lia. rewrite rp_hi by lia. lia. Qed.
  Lemma lag_wf : wf_mat lagM.
  Proof.
    split; [|split].
    - constructor; rewrite ?lag_nnz.
      + simpl. rewrite app_length, seq_length. simpl. lia.
      + destruct (decide (0 < a)); [apply rp_lo; lia|]. replace 0 with (a + 0) at 1 by lia. rewrite rp_hi by lia. lia.
      + simpl nbrows. intros i Hi. destruct (split_row i Hi) as [H|(k & Hk & ->)].
        * rewrite rp_lo, row_lo by lia. lia.
        * rewrite rp_hi, row_hi by lia. lia.
      + simpl. rewrite app_length, seq_length. simpl. lia.
      + simpl nbrows. intros j Hj. destruct (split_pos j Hj) as [H|(k & Hk & ->)].
        * rewrite col_lo by lia. lia.
        * rewrite col_hi by lia. unfold tailcol. destruct k as [|[|[|[|[|k]]]]]; lia.
    - split; [simpl; rewrite app_length, seq_length; simpl; lia|]. simpl nbrows. intros i Hi.
      destruct (split_row i Hi) as [H|(k & Hk & ->)].
      + rewrite rp_lo, row_lo, dg_lo, col_lo by lia. lia.
      + rewrite rp_hi, row_hi, dg_hi by lia. destruct k as [|[|[|k]]]; [| | |lia]; cbn [taildg].
        * replace a with (a + 0) at 5 by lia. rewrite col_hi by lia. simpl. lia.
        * rewrite col_hi by lia. simpl. lia.
        * rewrite col_hi by lia. simpl. lia.
    - intros i j1 j2 Hi. simpl in Hi. destruct (split_row i Hi) as [H|(k & Hk & ->)].
      + rewrite rp_lo, row_lo by lia. lia.
      + rewrite rp_hi, row_hi by lia. intros H1 H2 H3.
        replace j1 with (a + 2 * k) by lia. replace j2 with (a + (2 * k + 1)) by lia.
        rewrite !col_hi by lia. destruct k as [|[|[|k]]]; simpl; lia.
  Qed.
  Lemma pos_hi i k c : k <= 5 -> i <= 2 -> 2 * i <= k < 2 * i + 2 -> tailcol k = c -> pos lagM (a + i) c = Some (a + k).
  Proof.
    intros H1 H2 H3 <-. rewrite <- col_hi by lia. apply pos_of; [apply sorted_nodup, lag_wf|].
    split; [simpl; lia|]. rewrite rp_hi, row_hi by lia. lia.
  Qed.
  Lemma pos_lo i c : i < a -> pos lagM i c = if decide (c = i) then Some i else None.
  Proof.
    intros H. destruct (decide (c = i)) as [->|Hn].
    - rewrite <- (col_lo i H) at 2. apply pos_of; [apply sorted_nodup, lag_wf|]. split; [simpl; lia|]. rewrite rp_lo, row_lo by lia. lia.
    - destruct (pos lagM i c) as [j|] eqn:E; [|reflexivity]. apply pos_Some in E as [[_ Hj] Hc]; [|simpl; lia].
      rewrite rp_lo, row_lo in Hj by lia. replace j with i in Hc by lia. rewrite col_lo in Hc by lia. congruence.
  Qed.
  Lemma pos_none i c : i <= 2 -> tailcol (2 * i) <> c -> tailcol (2 * i + 1) <> c -> pos lagM (a + i) c = None.
  Proof.
    intros Hi H1 H2. destruct (pos lagM (a + i) c) as [j|] eqn:E; [|reflexivity].
    apply pos_Some in E as [[_ Hj] Hc]; [|simpl; lia]. rewrite rp_hi, row_hi in Hj by lia.
    destruct (decide (j = a + 2 * i)) as [->|]; [rewrite col_hi in Hc by lia; congruence|].
    replace j with (a + (2 * i + 1)) in Hc by lia. rewrite col_hi in Hc by lia. congruence.
  Qed.
  Lemma lag_vals_len : length (vals lagM) = nnz lagM.
  Proof. rewrite lag_nnz. simpl. rewrite app_length, replicate_length. simpl. lia. Qed.
  Lemma lag_val k : k <= 5 -> vat (vals lagM) (a + k) = if decide (k = 3) then two else s1.
  Proof.
    intros Hk. unfold vat. simpl vals. rewrite lookup_app_r by (rewrite replicate_length; lia). rewrite replicate_length.
    replace (a + k - a) with k by lia. destruct k as [|[|[|[|[|[|k]]]]]]; try reflexivity. lia.
  Qed.
  Lemma lag_val_lo i : i < a -> vat (vals lagM) i = s1.
  Proof.
    intros Hk. unfold vat. simpl vals. rewrite lookup_app_l by (rewrite replicate_length; lia).
    rewrite lookup_replicate_2 by lia. reflexivity.
  Qed.

  Section Exact.
  Variable ilu : list F.
  Notation B := (entry lagM ilu).
  Notation n := (a + 3).
  Lemma B_hi i k c : k <= 5 -> i <= 2 -> 2 * i <= k < 2 * i + 2 -> tailcol k = c -> B (a + i) c = vat ilu (a + k).
  Proof. intros. unfold entry. rewrite (pos_hi i k c) by auto. reflexivity. Qed.
  Lemma B_none i c : i <= 2 -> tailcol (2 * i) <> c -> tailcol (2 * i + 1) <> c -> B (a + i) c = s0.
  Proof. intros. unfold entry. rewrite pos_none by auto. reflexivity. Qed.
  Lemma B_lo i c : i < a -> B i c = if decide (c = i) then vat ilu i else s0.
  Proof. intros H. unfold entry. rewrite pos_lo by auto. destruct (decide (c = i)); reflexivity. Qed.
  (** products of factor entries: only one that is not zero *)
  Lemma lag_below i c : i < n -> c < n -> pos lagM i c <> None ->
    bsum n (fun t => if decide (t < i /\ t < c) then (B i t * B t c)%s else s0) =
    if decide (i = a + 1 /\ c = a + 1) then (vat ilu (a + 2) * vat ilu (a + 1))%s else s0.
  Proof.
    intros Hi Hc Hp. destruct (decide (i = a + 1 /\ c = a + 1)) as [[-> ->]|Hne].
    - rewrite (bsum_single n a); [|lia|].
      + rewrite decide_True by lia. rewrite (B_hi 1 2 a) by (simpl; lia). replace a with (a + 0) at 2 by lia.
        rewrite (B_hi 0 1) by (simpl; lia). reflexivity.
      + intros t Ht Hta. destruct (decide _) as [[H1 _]|]; [|reflexivity].
        rewrite (B_none 1) by (simpl; lia). ring.
    - apply bsum_zero. intros t Ht. destruct (decide _) as [[H1 H2]|]; [|reflexivity].
      destruct (split_row i Hi) as [H|(k & Hk & ->)].
      + rewrite (B_lo i) by lia. rewrite decide_False by lia. ring.
      + destruct k as [|[|[|k]]]; [| | |lia].
        * rewrite (B_none 0) by (simpl; lia). ring.
        * destruct (decide (t = a)) as [->|]; [|rewrite (B_none 1) by (simpl; lia); ring].
          exfalso. apply Hp. apply pos_none; simpl; lia.
        * destruct (decide (t = a + 1)) as [->|]; [|rewrite (B_none 2) by (simpl; lia); ring].
          rewrite (B_none 1) by (simpl; lia). ring.
  Qed.
  Lemma lag_product i c : i < n -> c < n -> pos lagM i c <> None ->
    mprod n (unitlower B) (upper B) i c =
    ((if decide (i = a + 1 /\ c = a + 1)%nat then vat ilu (a + 2) * vat ilu (a + 1) else s0) +
     (if (c <? i)%nat then B i c * B c c else B i c))%s.
  Proof.
    intros Hi Hc Hp. rewrite <- lag_below by auto. exact (lu_entry lagM B i c Hi Hc).
  Qed.
  (** what exactness says *)
  Lemma lag_exact_value :
    (forall i c, i < n -> c < n -> pos lagM i c <> None -> mprod n (unitlower B) (upper B) i c = dense lagM i c) ->
    vat ilu (a + 4) = s1.
  Proof.
    intros H.
    assert (forall i k c, k <= 5 -> i <= 2 -> 2 * i <= k < 2 * i + 2 -> tailcol k = c ->
      ((if decide (a + i = a + 1 /\ c = a + 1)%nat then vat ilu (a + 2) * vat ilu (a + 1) else s0) +
       (if (c <? a + i)%nat then vat ilu (a + k) * B c c else vat ilu (a + k)))%s = if decide (k = 3) then two else s1) as Hx.
    { intros i k c H1 H2 H3 H4. rewrite <- (lag_val k) by lia.
      assert (pos lagM (a + i) c = Some (a + k)) as Hp by (apply pos_hi; auto).
      assert (c < n) by (rewrite <- H4; unfold tailcol; destruct k as [|[|[|[|[|k]]]]]; lia).
      rewrite <- (B_hi i k c) by auto. rewrite <- lag_product by (auto; try lia; congruence).
      rewrite H by (auto; try lia; congruence). unfold dense, vat. rewrite Hp. reflexivity. }
    pose proof (Hx 0 0 a ltac:(lia) ltac:(lia) ltac:(lia) eq_refl) as E0.
    pose proof (Hx 0 1 (a + 1) ltac:(lia) ltac:(lia) ltac:(lia) eq_refl) as E1.
    pose proof (Hx 1 2 a ltac:(lia) ltac:(lia) ltac:(lia) eq_refl) as E2.
    pose proof (Hx 1 3 (a + 1) ltac:(lia) ltac:(lia) ltac:(lia) eq_refl) as E3.
    pose proof (Hx 2 4 (a + 1) ltac:(lia) ltac:(lia) ltac:(lia) eq_refl) as E4.
    clear Hx H.
    assert (B a a = vat ilu (a + 0)) as Ba by (rewrite <- (B_hi 0 0 a) by (simpl; lia); f_equal; lia).
    rewrite Ba in E2. rewrite (B_hi 1 3 (a + 1)) in E4 by (simpl; lia).
    rewrite (proj2 (Nat.ltb_ge a (a + 0))) in E0 by lia. rewrite (proj2 (Nat.ltb_ge (a + 1) (a + 0))) in E1 by lia.
    rewrite (proj2 (Nat.ltb_lt a (a + 1))) in E2 by lia. rewrite (proj2 (Nat.ltb_ge (a + 1) (a + 1))) in E3 by lia.
    rewrite (proj2 (Nat.ltb_lt (a + 1) (a + 2))) in E4 by lia.
    repeat match goal with H : context[decide ?Q] |- _ => destruct (decide Q); try lia end.
    assert (vat ilu (a + 0) = s1) as F0 by (etransitivity; [|exact E0]; ring).
    assert (vat ilu (a + 1) = s1) as F1 by (etransitivity; [|exact E1]; ring).
    assert (vat ilu (a + 2) = s1) as F2 by (rewrite F0 in E2; etransitivity; [|exact E2]; ring).
    assert (vat ilu (a + 3) = s1) as F3.
    { rewrite F1, F2 in E3. transitivity (s0 + s1 * s1 + vat ilu (a + 3) - s1)%s; [ring|].
      transitivity (two - s1)%s; [|ring]. rewrite <- E3. ring. }
    rewrite F3 in E4. etransitivity; [|exact E4]. ring.
  Qed.
  End Exact.

  Lemma lag_lu_exact i c : i < a + 3 -> c < a + 3 -> pos lagM i c <> None ->
    mprod (a + 3) (unitlower (entry lagM lag_lu)) (upper (entry lagM lag_lu)) i c = dense lagM i c.
  Proof.
    intros Hi Hc Hp. rewrite lag_product by auto.
    assert (forall j, j < a + 6 -> vat lag_lu j = s1) as Hv.
    { intros j Hj. apply vat_eq, lookup_replicate_2. lia. }
    destruct lag_wf as (Hw & Hd & Hs).
    assert (forall i, i < a + 3 -> entry lagM lag_lu i i = s1) as Hdi.
    { intros i' Hi'. rewrite (entry_diag lagM lag_lu Hd Hs i') by (simpl; lia). apply Hv.
      pose proof (row_bounds lagM Hw Hd i' ltac:(simpl; lia)). rewrite lag_nnz in *. lia. }
    rewrite Hdi by lia. rewrite !Hv by lia. unfold entry, dense.
    destruct (pos lagM i c) as [j|] eqn:E; [|congruence]. pose proof E as Ep.
    apply pos_Some in Ep as [Ej Ec]; [|simpl; lia]. pose proof (inrow_lt lagM i j Hw Ej) as Hj. rewrite lag_nnz in Hj.
    fold (vat (vals lagM) j). rewrite Hv by lia.
    assert (vat (vals lagM) j = if decide (i = a + 1 /\ c = a + 1) then two else s1) as ->.
    { destruct (split_pos j Hj) as [H|(k & Hk & ->)].
      - rewrite lag_val_lo by lia. destruct Ej as [_ Ej].
        destruct (decide _) as [[-> ->]|]; [|reflexivity]. rewrite rp_hi in Ej by lia. lia.
      - rewrite lag_val by lia. rewrite col_hi in Ec by lia.
        destruct (split_row i Hi) as [H|(r & Hr & ->)].
        + destruct Ej as [_ Ej]. rewrite rp_lo, row_lo in Ej by lia. lia.
        + destruct Ej as [_ Ej]. rewrite rp_hi, row_hi in Ej by lia.
          assert (k = 2 * r \/ k = 2 * r + 1) as Hkr by lia.
          destruct r as [|[|[|r]]]; [| | |lia]; destruct Hkr as [-> | ->]; simpl in Ec;
            repeat match goal with |- context[decide ?Q] => destruct (decide Q); try lia end; reflexivity. }
    destruct (decide _) as [[-> ->]|].
    - rewrite Nat.ltb_irrefl. ring.
    - destruct (c <? i); ring.
  Qed.
End Matrix.

Section StallF.
  Context {F : Type} {O : SOps F} {R : Field F}.
  Add Ring Fst2 : cring.
  Variable c : nat.
  Hypothesis Hc : 1 <= c.
  Notation a := (2 * c - 2).
  Notation M := (lagM (F := F) a).
  Notation two := (s1 + s1)%s.

  Lemma half_not_one : two <> s0 -> (s1 / two)%s <> s1.
  Proof.
    intros H2 E. symmetry in E. apply div_eq in E; [|exact H2]. apply field_10.
    transitivity (s1 * two - s1)%s; [ring|]. rewrite E. ring.
  Qed.
  Lemma chunks_three : chunks c (seq 0 (a + 3)) = [seq 0 c; seq c c; [2 * c]].
  Proof.
    unfold chunks. rewrite seq_length. replace (a + 3) with (S (S (S a))) at 1 by lia.
    replace (a + 3) with (c + (c + 1)) by lia. rewrite !seq_app. cbn [chunks_fuel].
    assert (forall (l l' : list nat), length l = c -> take c (l ++ l') = l /\ drop c (l ++ l') = l') as Hsp.
    { intros l l' Hl. rewrite take_app_alt, drop_app_alt by done. auto. }
    destruct (Hsp (seq 0 c) (seq (0 + c) c ++ seq (0 + c + c) 1) (seq_length _ _)) as [-> ->].
    destruct (Hsp (seq (0 + c) c) (seq (0 + c + c) 1) (seq_length _ _)) as [-> ->].
    assert (forall (l l' : list nat) (x y : list (list nat)), l <> [] -> match l ++ l' with [] => x | _ => y end = y) as Hne.
    { intros [|] ? ? ?; [congruence|reflexivity]. }
    assert (forall s, seq s c <> []) as Hs.
    { intros s E. apply (f_equal length) in E. rewrite seq_length in E. simpl in E. lia. }
    rewrite !Hne by auto. simpl. rewrite take_ge, drop_ge by (simpl; lia). f_equal. f_equal. f_equal; [f_equal; lia|].
    generalize (c + (c + 0) - 2). intros []; reflexivity.
  Qed.
  Lemma writefree_factor (M' : srmat F) pl scale i j : writefree (factor_entry M' pl scale i j).
  Proof.
    unfold factor_entry, entry_sum. apply writefree_bind.
    - repeat (apply writefree_bind; [apply writefree_plift|intros ?]). apply writefree_pfor. intros k s.
      repeat (apply writefree_bind; [apply writefree_plift|intros ?]). simpl. auto.
    - intros s. apply writefree_bind; [apply writefree_plift|]. intros cc. destruct (cc <? i); [|simpl; auto].
      apply writefree_bind; [apply writefree_plift|]. intros d. simpl. auto.
  Qed.
  (** whatever the initial contents, provided the pivot of the last but one row is the
      matrix entry *)
  Lemma async_factor_value k ilu : 1 <= k -> length ilu = nnz M -> ilu !! (a + 3) = Some two ->
    exists ilu', execute_ilu0 M (positions M) None k c true 2 ilu (Ok ilu') /\ length ilu' = nnz M /\
      vat ilu' (a + 4) = (s1 / two)%s.
  Proof.
    intros Hk Hl Hu. destruct (lag_wf (F := F) a) as (Hw & Hd & Hs). pose proof (lag_nnz (F := F) a) as HN.
    pose proof (lag_vals_len (F := F) a) as Hv.
    set (EC := factor_entry M (positions M) None). set (C := entC M EC).
    assert (forall j, j < nnz M -> kernel_ok 1 C (nnz M) (fdep M) j) as Hker.
    { intros j Hj. apply scalar_factor_ok; auto. simpl. auto. }
    destruct k as [|k']; [lia|].
    set (n := a + 3) in *.
    set (rest := @concat (list nat) (replicate k' (chunks c (seq 0 n)))).
    assert (nowait_sweeps (S k') c (seq 0 n) = seq 0 c :: seq c c :: [2 * c] :: rest) as Hq.
    { unfold nowait_sweeps. cbn [replicate concat]. unfold n at 1. rewrite chunks_three. reflexivity. }
    assert (forall r, r ∈ seq c c ++ concat rest -> r < n) as Hrows.
    { intros r Hr. apply elem_of_app in Hr as [Hr|Hr]; [apply elem_of_seq in Hr; unfold n; lia|].
      assert (r ∈ concat (nowait_sweeps (S k') c (seq 0 n))) as H'.
      { rewrite Hq. cbn [concat]. do 2 (apply elem_of_app; right). right. exact Hr. }
      rewrite concat_nowait in H' by done. apply elem_of_concat_replicate, elem_of_seq in H'. lia. }
    destruct (factor_exec_total 1 M EC Hw Hker (seq 0 c) ilu) as (m0 & E0 & L0); [|lia|].
    { intros r Hr. apply elem_of_seq in Hr. simpl nbrows. lia. }
    assert (m0 !! (a + 3) = Some two) as U0.
    { rewrite <- Hu. rewrite (exec_seq_flat _ (T 1 C) (ents M)) in E0.
      2:{ apply Hrow_rows; auto. intros r Hr. apply elem_of_seq in Hr. simpl nbrows. lia. }
      assert (forall r, r ∈ seq 0 c -> r < nbrows M) as Hr0 by (intros r Hr; apply elem_of_seq in Hr; simpl nbrows; lia).
      apply (exec_seq_frame 1 C (nnz M) (fdep M) (flat (ents M) (seq 0 c))); [| | |exact E0].
      - intros r Hr. apply Hker. apply elem_flat in Hr as [Hr _]; auto.
      - lia.
      - intros r Hr Ho. apply elem_flat in Hr as [Hr1 Hr2]; auto.
        unfold own in Ho. assert (r = a + 3) as -> by (unfold n in Ho; lia). apply elem_of_seq in Hr2.
        rewrite (rowof_inrow M (a + 1)) in Hr2; auto; [lia|]. split; [simpl; lia|].
        rewrite (rp_hi a 1), (row_hi a 1) by lia. lia. }
    assert (rowof M (a + 4) = a + 2) as Hrow4.
    { apply rowof_inrow; auto. split; [simpl; lia|]. rewrite (rp_hi a 2), (row_hi a 2) by lia. lia. }
    assert (exec m0 (C (a + 4)) = Ok ([(s1 / two)%s], m0)) as Hst.
    { unfold C, entC, EC. rewrite (exec_factor_entry M Hw Hd Hs None m0 Hv Logic.I ltac:(lia) (a + 4)) by lia.
      unfold below. rewrite Hrow4. rewrite (col_hi a 4) by lia. cbn [tailcol].
      rewrite (proj2 (Nat.ltb_lt _ _)) by lia. rewrite (dg_hi a 1) by lia. cbn [taildg].
      rewrite (vat_eq _ _ _ U0).
      assert (pos M (a + 2) (a + 1) = Some (a + 4)) as Hp4 by (apply pos_hi; simpl; lia).
      assert (scaled_mat None (dense M) (a + 2) (a + 1) = s1) as ->.
      { unfold scaled_mat, dense. rewrite Hp4. apply (lag_val a 4). lia. }
      simpl nbrows. rewrite (lag_below a m0) by (try lia; congruence). rewrite decide_False by lia.
      do 3 f_equal. f_equal. ring. }
    destruct (factor_exec_total 1 M EC Hw Hker (seq c c ++ concat rest) m0) as (m1 & E1 & L1); auto.
    assert (row_task 1 M EC (2 * c) = pbind (pbind (C (a + 4)) (pwseg ((a + 4) * 1))) (fun _ => pseq (T 1 C) [a + 5])) as HT.
    { assert (forall r, r = a + 2 -> row_task 1 M EC r = pbind (pbind (C (a + 4)) (pwseg ((a + 4) * 1))) (fun _ => pseq (T 1 C) [a + 5])) as H; [|apply H; lia].
      intros r ->. rewrite (row_ents 1 M EC Hw) by (simpl; lia). unfold ents.
      rewrite (rp_hi a 2), (row_hi a 2) by lia. replace (a + 2 * 2) with (a + 4) by lia.
      unfold range. replace (a + 4 + 2 - (a + 4)) with 2 by lia. cbn [seq]. replace (S (a + 4)) with (a + 5) by lia. reflexivity. }
    destruct (exec_pwseg [(s1 / two)%s] ((a + 4) * 1) m1) as (m2 & E2 & L2 & V2 & _); [simpl; lia|].
    assert (exists m3, exec_seq (T 1 C) [a + 5] m2 = Ok m3 /\ length m3 = nnz M * 1) as (m3 & E3 & L3).
    { apply (exec_seq_total 1 C (nnz M) (fdep M)); [|lia]. intros r Hr. apply elem_of_list_singleton in Hr as ->. apply Hker. lia. }
    exists m3. split; [|split; [lia|]].
    - unfold execute_ilu0, omp_region. cbn [andb Nat.eqb negb]. left. exists m3. split; [|reflexivity].
      fold EC. change (nbrows M) with n. rewrite Hq. apply region_sc_region.
      apply (stalled_row (row_task 1 M EC) (seq 0 c) (seq c c) (2 * c) rest (C (a + 4)) (pwseg ((a + 4) * 1))
               (fun _ => pseq (T 1 C) [a + 5]) ilu m0 [(s1 / two)%s] m1 m3); auto.
      + intros E. apply (f_equal length) in E. rewrite seq_length in E. simpl in E. lia.
      + intros E. apply (f_equal length) in E. rewrite seq_length in E. simpl in E. lia.
      + apply writefree_factor.
      + rewrite exec_bind, E2. cbn [bind]. rewrite exec_pseq, E3. reflexivity.
    - apply vat_eq. rewrite (exec_seq_frame 1 C (nnz M) (fdep M) [a + 5] (a + 4) m2 m3); auto.
      + specialize (V2 0 ltac:(simpl; lia)). replace ((a + 4) * 1 + 0) with (a + 4) in V2 by lia. exact V2.
      + intros r Hr. apply elem_of_list_singleton in Hr as ->. apply Hker. lia.
      + lia.
      + intros r Hr. apply elem_of_list_singleton in Hr as ->. unfold own. lia.
  Qed.
End StallF.
