(** * Contract: how far the relaxations are from the solution after each call *)
From Verif Require Import Base Alg Norms SRMatrix Async AsyncTheory AsyncSystem AsyncSweeps AsyncSets Nd Kernels KernelFacts
  IluApply IluApplyFacts TriSpec TriFacts IluApplyProofs IluApplyMain Sgs SgsFacts SgsProofs SgsForms SgsMain RelaxNear.

Section Contract.
  Context {F : Type} {O : SOps F} {R : CRing F} {mag : F -> F} {le : F -> F -> Prop} {HM : Magnitude F mag le}.
  Add Ring Fr : cring.
  Open Scope s_scope.
  Infix "<=" := le : s_scope.
  Variables (w n : nat) (A E : nat -> nat -> F) (dinv : nat -> nat -> nat -> F) (relaxC : list F -> nat -> @P F (list F)) (dep : nat -> nat -> Prop).
  Notation N := (n * w)%nat.
  Hypothesis Hinv : forall i, (i < n)%nat -> is_inverse w (dinv i) (dblock w A i).
  Hypothesis HE : is_inverse N (bdiag w A) E.
  Hypothesis HF : relax_form w n A dinv relaxC.
  Hypothesis Hnear : relax_near (mag := mag) (le := le) w n A dinv relaxC.
  Hypothesis Hker : forall z i, length z = N -> (i < n)%nat -> kernel_ok w (relaxC z) n dep i.
  Variables (u : nat -> F) (rho : F).
  Hypothesis Hu : forall l, (l < N)%nat -> s0 <= u l.
  Hypothesis Hrho0 : s0 <= rho.
  Hypothesis Hrho1 : rho <= s1.
  Hypothesis Hdom : forall i p, (i < n)%nat -> (p < w)%nat ->
    bsum w (fun k => mag (dinv i p k) * off_sum w n i (fun J => mag (A (i * w + k)%nat J) * u J)) <= rho * u (i * w + p)%nat.
  Variables (b xs : list F).
  Hypothesis (Hb : length b = N) (Hxs : length xs = N) (Hsol : is_prod N A xs b).

  (** every entry of [x] is within [e] times its weight of the solution's *)
  Definition within (e : F) (x : list F) : Prop :=
    length x = N /\ forall l, (l < N)%nat -> mag (vat x l - vat xs l) <= e * u l.
  Definition ballv (e : F) (l : nat) (v : F) : Prop := mag (v - vat xs l) <= e * u l.

  Lemma within_all e x : within e x <-> all_in N (ballv e) x.
  Proof.
    unfold within, all_in, ballv. split; intros [Hl H]; (split; [exact Hl|]).
    - intros l v Hv. rewrite <- (vat_eq x l v Hv). apply H. rewrite <- Hl. eapply lookup_lt_Some; eauto.
    - intros l Hll. apply H. apply vat_Some. lia.
  Qed.
  Lemma within_mono e e' x : e <= e' -> within e x -> within e' x.
  Proof.
    intros He [Hl H]. split; [exact Hl|]. intros l Hll. eapply sle_trans; [apply H, Hll|]. apply sle_mul_r; auto.
  Qed.
  Lemma off_le i f g : (forall l, (l < N)%nat -> f l <= g l) -> (i < n)%nat -> off_sum w n i f <= off_sum w n i g.
  Proof.
    intros H Hi. unfold off_sum. apply bsum_le. intros c Hc. destruct (decide (c = i)); [apply sle_refl|].
    apply bsum_le. intros q Hq. apply H. nia.
  Qed.
  Lemma off_scale i e f : off_sum w n i (fun J => e * f J) = e * off_sum w n i f.
  Proof.
    unfold off_sum. rewrite <- bsum_mul_l. apply bsum_ext. intros c Hc. destruct (decide (c = i)); [ring|].
    apply bsum_mul_l.
  Qed.
  Lemma off_ext i f g : (forall l, f l = g l) -> off_sum w n i f = off_sum w n i g.
  Proof.
    intros H. unfold off_sum. apply bsum_ext. intros c Hc. destruct (decide (c = i)); [reflexivity|].
    apply bsum_ext. intros; apply H.
  Qed.
  Lemma solution_row i p : (i < n)%nat -> (p < w)%nat ->
    vat xs (i * w + p) = bsum w (fun k => dinv i p k * (vat b (i * w + k) - off_sum w n i (fun J => A (i * w + k)%nat J * vat xs J))).
  Proof.
    intros Hi Hp.
    pose proof (proj2 (relax_steady w n A dinv relaxC Hinv b xs HF Hb Hxs) Hsol i Hi) as (seg & He & Hk).
    destruct (HF b xs i Hb Hxs Hi) as (v & He' & Hv & Hval). rewrite He in He'. injection He' as ->.
    specialize (Hk p Hp). assert (vat xs (i * w + p) = vat v p) as ->.
    { apply vat_eq. rewrite Hk. apply vat_Some. lia. }
    rewrite Hval by done. apply bsum_ext. intros k Hk'. f_equal. f_equal. rewrite off_split. reflexivity.
  Qed.
  (** what a row writes is nearer than what it reads *)
  Lemma relax_improves e i : s0 <= e -> (i < n)%nat -> improves w n (relaxC b) (ballv e) (ballv (rho * e)) i.
  Proof.
    intros He Hi. split; [exact Hi|].
    assert (forall l, (l < N)%nat -> s0 <= e * u l) as Hr by (intros; apply sle_pos_mul; auto).
    eapply wp_post; [apply (Hnear b i (fun l => vat xs l) (fun l => e * u l) Hb Hi Hr)|].
    intros seg (Hl & t & Ht & Hd). split; [exact Hl|]. intros p v Hv.
    assert (p < w)%nat as Hp by (rewrite <- Hl; eapply lookup_lt_Some; eauto).
    rewrite <- (vat_eq seg p v Hv). unfold ballv. rewrite Ht by done. rewrite solution_row by done.
    rewrite <- bsum_sub. rewrite (bsum_ext w _ (fun k => dinv i p k * (off_sum w n i (fun J => A (i * w + k)%nat J * vat xs J) - t k))).
    2: { intros k Hk. ring. }
    eapply sle_trans; [apply bsum_mag; intros k Hk; rewrite mag_mul; apply sle_mul; [apply mag_pos|]; rewrite mag_sub; apply Hd, Hk|].
    rewrite (bsum_ext w _ (fun k => e * (mag (dinv i p k) * off_sum w n i (fun J => mag (A (i * w + k)%nat J) * u J)))).
    2: { intros k Hk. rewrite (off_ext i _ (fun J => e * (mag (A (i * w + k)%nat J) * u J))) by (intros; ring). rewrite off_scale. ring. }
    rewrite bsum_mul_l. replace (rho * e * u (i * w + p)%nat) with (e * (rho * u (i * w + p)%nat)) by ring.
    apply sle_mul; auto.
  Qed.
  Lemma better e l v : s0 <= e -> (l < N)%nat -> ballv (rho * e) l v -> ballv e l v.
  Proof.
    unfold ballv. intros He Hl H. eapply sle_trans; [exact H|]. apply sle_mul_r; auto. apply sle_mul_1; auto.
  Qed.
  (** one parallel region that handles rows *)
  Lemma region_contracts ut nthr q e x : (1 <= nthr)%nat -> s0 <= e -> (forall i, i ∈ concat q -> (i < n)%nat) -> within e x ->
    nok (omp_region ut (T w (relaxC b)) nthr q x) (fun x' => within e x' /\
      ((forall i, (i < n)%nat -> i ∈ concat q) -> within (rho * e) x')).
  Proof.
    intros Hn He Hq Hx. apply within_all in Hx. eapply nok_mono.
    - apply (region_improves w n (relaxC b) (ballv e) (ballv (rho * e)) (fun l v H => better e l v He H) ut nthr q x dep Hn).
      + intros i Hi. split; [apply relax_improves; auto|apply Hker; auto].
      + exact Hx.
    - intros x' [Ha Hown]. split; [apply within_all, Ha|]. intros Hall. apply within_all. split; [apply Ha|].
      intros l v Hv. assert (l < N)%nat as Hl by (rewrite <- (proj1 Ha); eapply lookup_lt_Some; eauto).
      destruct (own_ex w n l Hl) as (i & Hi & Ho). eapply Hown; eauto.
  Qed.
  Lemma chaotic_contracts steps chunk nthr e x : (1 <= chunk)%nat -> (1 <= nthr)%nat -> s0 <= e -> within e x ->
    nok (chaotic_relax w n relaxC steps chunk nthr b x) (fun x' => within (if steps =? 0 then e else rho * e) x').
  Proof.
    intros Hc Hn He Hx. unfold chaotic_relax.
    assert (concat (nowait_sweeps steps chunk (seq 0 n)) = concat (replicate steps (seq 0 n))) as Hq by (apply concat_nowait; exact Hc).
    eapply nok_mono; [apply (region_contracts true nthr _ e x Hn He); [|exact Hx]|].
    - intros i Hi. rewrite Hq in Hi. apply elem_of_concat_replicate, elem_of_seq in Hi. lia.
    - intros x' [Ha Hs]. destruct steps as [|k]; cbn [Nat.eqb]; [exact Ha|]. apply Hs. intros i Hi. rewrite Hq. simpl.
      apply elem_of_app. left. apply elem_of_seq. lia.
  Qed.
  Lemma sgs_contracts its chunk nthr e x : (1 <= chunk)%nat -> (1 <= nthr)%nat -> s0 <= e -> within e x ->
    nok (sgs_relax w n relaxC its chunk nthr b x) (fun x' => within (if its =? 0 then e else rho * e) x').
  Proof.
    intros Hc Hn He Hx. unfold sgs_relax.
    pose proof (sgs_queue n its chunk Hc) as Hq.
    eapply nok_mono; [apply (region_contracts true nthr _ e x Hn He); [|exact Hx]|].
    - intros i Hi. rewrite Hq in Hi. apply elem_of_concat_replicate, elem_seq_rev in Hi. exact Hi.
    - intros x' [Ha Hs]. destruct its as [|k]; cbn [Nat.eqb]; [exact Ha|]. apply Hs. intros i Hi. rewrite Hq. simpl.
      apply elem_of_app. left. apply elem_of_app. left. apply elem_of_seq. lia.
  Qed.
  (** rows in order, one thread *)
  Lemma seq_contracts rs e x x' : s0 <= e -> (forall i, i ∈ rs <-> (i < n)%nat) -> within e x ->
    exec_seq (T w (relaxC b)) rs x = Ok x' -> within (rho * e) x'.
  Proof.
    intros He Hrs Hx Hex.
    destruct (region_contracts false 1 [rs] e x ltac:(lia) He) as [_ H]; [intros i Hi; simpl in Hi; rewrite app_nil_r in Hi; apply Hrs, Hi|exact Hx|].
    specialize (H (Ok x')). rewrite omp_region_seq in H by auto. simpl in H. rewrite app_nil_r in H.
    destruct (H (eq_sym Hex)) as [_ H']. apply H'. intros i Hi. apply Hrs, Hi.
  Qed.
  Lemma sweeps_contract (rs : list nat) k : (forall i, i ∈ rs <-> (i < n)%nat) -> forall e x x', s0 <= e -> within e x ->
    exec_seq (T w (relaxC b)) (concat (replicate k rs)) x = Ok x' -> within (spow rho k * e) x'.
  Proof.
    intros Hrs. induction k as [|k IH]; intros e x x' He Hx Hex; cbn [replicate concat spow] in *.
    - injection Hex as <-. eapply within_mono; [|exact Hx]. apply sle_eq. ring.
    - rewrite exec_seq_app in Hex. apply bind_Ok in Hex as (x1 & H1 & H2).
      apply (seq_contracts rs e x x1 He Hrs Hx) in H1.
      eapply within_mono; [|apply (IH (rho * e) x1 x'); auto; apply sle_pos_mul; auto]. apply sle_eq. ring.
  Qed.
  Lemma seq_all i : i ∈ seq 0 n <-> (i < n)%nat.
  Proof. rewrite elem_of_seq. lia. Qed.
  Lemma rev_all i : i ∈ rev (seq 0 n) <-> (i < n)%nat.
  Proof. rewrite elem_of_list_In, <- in_rev, <- elem_of_list_In. apply seq_all. Qed.
  Lemma there_and_back k : forall e x x', s0 <= e -> within e x ->
    exec_seq (T w (relaxC b)) (concat (replicate k (seq 0 n ++ rev (seq 0 n)))) x = Ok x' -> within (spow rho (2 * k) * e) x'.
  Proof.
    induction k as [|k IH]; intros e x x' He Hx Hex; cbn [replicate concat] in *.
    - injection Hex as <-. eapply within_mono; [|exact Hx]. apply sle_eq. simpl. ring.
    - rewrite exec_seq_app in Hex. apply bind_Ok in Hex as (x2 & H12 & H3).
      rewrite exec_seq_app in H12. apply bind_Ok in H12 as (x1 & H1 & H2).
      apply (seq_contracts _ e x x1 He seq_all Hx) in H1.
      apply (seq_contracts _ (rho * e) x1 x2) in H2; [|apply sle_pos_mul; auto|apply rev_all|exact H1].
      eapply within_mono; [|apply (IH (rho * (rho * e)) x2 x'); auto].
      + apply sle_eq. replace (2 * S k)%nat with (S (S (2 * k))) by lia. cbn [spow]. ring.
      + repeat apply sle_pos_mul; auto.
  Qed.
  Lemma chaotic_seq_contracts steps chunk e x : (1 <= chunk)%nat -> s0 <= e -> within e x ->
    nok (chaotic_relax w n relaxC steps chunk 1 b x) (fun x' => within (spow rho steps * e) x').
  Proof.
    intros Hc He Hx. destruct (chaotic_contracts steps chunk 1 e x Hc ltac:(lia) He Hx) as [Hex Hall].
    split; [exact Hex|]. intros o Ho. pose proof (Hall o Ho) as Hok. destruct o as [x'| | |]; simpl in Hok |- *; try contradiction.
    unfold chaotic_relax in Ho. rewrite omp_region_seq in Ho by auto. rewrite concat_nowait in Ho by done.
    eapply sweeps_contract; [exact seq_all|exact He|exact Hx|]. symmetry. exact Ho.
  Qed.
  Lemma sgs_seq_contracts its chunk e x : (1 <= chunk)%nat -> s0 <= e -> within e x ->
    nok (sgs_relax w n relaxC its chunk 1 b x) (fun x' => within (spow rho (2 * its) * e) x').
  Proof.
    intros Hc He Hx. destruct (sgs_contracts its chunk 1 e x Hc ltac:(lia) He Hx) as [Hex Hall].
    split; [exact Hex|]. intros o Ho. pose proof (Hall o Ho) as Hok. destruct o as [x'| | |]; simpl in Hok |- *; try contradiction.
    unfold sgs_relax in Ho. rewrite omp_region_seq in Ho by auto. rewrite sgs_queue in Ho by done.
    eapply there_and_back; [exact He|exact Hx|]. symmetry. exact Ho.
  Qed.
  Lemma level_contracts levels its nthr e x : (1 <= nthr)%nat -> levels_for n dep levels -> s0 <= e -> within e x ->
    nok (level_relax w relaxC levels its nthr b x) (fun x' => within (spow rho (2 * its) * e) x').
  Proof.
    intros Hn Hlev He Hx. eapply nok_mono; [apply (level_relax_spec w n relaxC dep Hker); auto; apply Hx|].
    intros x' [_ Hex]. eapply there_and_back; eauto.
  Qed.
  Lemma jacobi_iter_contracts e x : s0 <= e -> within e x -> within (rho * e) (jacobi_iter N A E b x).
  Proof.
    intros He Hx. split; [apply jacobi_iter_length|]. intros l Hl.
    destruct (unflat w n l Hl) as (i & p & -> & Hi & Hp).
    rewrite (jacobi_iter_val w n A E dinv Hinv HE b x i Hi p Hp).
    destruct (HF b x i Hb (proj1 Hx) Hi) as (v & Hex & Hv & Hval). rewrite <- Hval by done.
    destruct (relax_improves e i He Hi) as [_ Hwp].
    destruct (exec_wp x (relaxC b i) (fun seg => length seg = w /\ forall k y, seg !! k = Some y -> ballv (rho * e) (i * w + k) y)) as (seg & He2 & _ & Hq).
    { eapply wp_mono; [exact Hwp| | |auto|auto].
      - intros l' (y & Hl' & _). exists (vat x l'). apply vat_Some. rewrite (proj1 Hx). exact Hl'.
      - intros l' y Hy (y' & Hl' & _). split; [exact Hl'|]. unfold ballv. rewrite <- (vat_eq x l' y Hy). apply Hx, Hl'. }
    rewrite Hex in He2. injection He2 as ->. apply (Hq p). apply vat_Some. lia.
  Qed.
  Lemma iterate_contracts k : forall e x, s0 <= e -> within e x -> within (spow rho k * e) (iterate N A E b x k).
  Proof.
    induction k as [|k IH]; intros e x He Hx.
    - eapply within_mono; [|exact Hx]. apply sle_eq. simpl. ring.
    - unfold iterate in *. simpl. eapply within_mono; [|apply (jacobi_iter_contracts (spow rho k * e)); [|apply (IH e x He Hx)]].
      + apply sle_eq. ring.
      + apply sle_pos_mul; auto. apply spow_pos; auto. apply one_pos.
  Qed.
End Contract.
