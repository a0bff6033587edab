(** * GsSweep: what one sequential sweep of a relaxation computes *)
From Verif Require Import Base Alg SRMatrix Async AsyncTheory AsyncSystem AsyncSweeps Nd Kernels KernelFacts
  IluApply IluApplyFacts TriSpec TriFacts Sgs SgsFacts SgsProofs SgsForms.
Open Scope nat_scope.

(** ** Specification: Gauss-Seidel sweeps in terms of the matrix *)
Section Spec.
  Context {F : Type} {O : SOps F}.
  (** the blocks right of and left of the diagonal blocks *)
  Definition above (w : nat) (A : nat -> nat -> F) (i j : nat) : F := if decide (i / w < j / w) then A i j else s0.
  Definition below (w : nat) (A : nat -> nat -> F) (i j : nat) : F := if decide (j / w < i / w) then A i j else s0.
  (** (D+L) x' + U x = b *)
  Definition gs_forward (w N : nat) (A : nat -> nat -> F) (b x x' : list F) : Prop :=
    length x' = N /\ forall i, i < N ->
    (bsum N (fun j => blower w A A i j * vat x' j) + bsum N (fun j => above w A i j * vat x j) = vat b i)%s.
  (** (D+U) x' + L x = b *)
  Definition gs_backward (w N : nat) (A : nat -> nat -> F) (b x x' : list F) : Prop :=
    length x' = N /\ forall i, i < N ->
    (bsum N (fun j => bupper w A A i j * vat x' j) + bsum N (fun j => below w A i j * vat x j) = vat b i)%s.
  Definition gs_symmetric w N A (b x x' : list F) : Prop := exists y, gs_forward w N A b x y /\ gs_backward w N A b y x'.
  (** [k] steps of an iteration *)
  Fixpoint iterated (step : list F -> list F -> Prop) (k : nat) (x x' : list F) : Prop :=
    match k with 0 => x' = x | S k => exists y, step x y /\ iterated step k y x' end.
End Spec.

Section Sweep.
  Context {F : Type} {O : SOps F} {R : CRing F}.
  Add Ring Fr : cring.
  Variables (w n : nat) (A : nat -> nat -> F) (dinv : nat -> nat -> nat -> F) (relaxC : list F -> nat -> @P F (list F)) (dep : nat -> nat -> Prop).
  Notation N := (n * w)%nat.
  Hypothesis Hinv : forall i, (i < n)%nat -> is_inverse w (dinv i) (dblock w A i).
  Hypothesis HF : relax_form w n A dinv relaxC.
  Hypothesis Hk : forall b i, length b = N -> i < n -> kernel_ok w (relaxC b) n dep i.
  Hypothesis Hself : forall r, r < n -> ~ dep r r.

  (** the contribution of the other rows, whose values are given by [f] *)
  Definition rest (f : nat -> nat -> F) (i p : nat) : F :=
    (bsum n (fun c => if decide (c < i)%nat then bsum w (fun q => A (i * w + p)%nat (c * w + q)%nat * f c q) else s0) +
     bsum n (fun c => if decide (i < c)%nat then bsum w (fun q => A (i * w + p)%nat (c * w + q)%nat * f c q) else s0))%s.
  Lemma rest_vat x i p : rest (fun c q => vat x (c * w + q)) i p = (offl w n A x i p + offu w n A x i p)%s.
  Proof. reflexivity. Qed.
  Lemma rest_ext f g i p : (forall c q, c < n -> q < w -> c <> i -> f c q = g c q) -> rest f i p = rest g i p.
  Proof.
    intros H. unfold rest. f_equal; apply bsum_ext; intros c Hc; destruct (decide _); try reflexivity;
      apply bsum_ext; intros q Hq; rewrite H by lia; reflexivity.
  Qed.
  (** one row *)
  Lemma relax_row b x i : length b = N -> length x = N -> i < n ->
    exists x', exec x (T w (relaxC b) i) = Ok (tt, x') /\ length x' = N /\
      (forall c q, q < w -> c <> i -> c < n -> vat x' (c * w + q) = vat x (c * w + q)) /\
      forall p, p < w -> bsum w (fun q => A (i * w + p)%nat (i * w + q)%nat * vat x' (i * w + q))%s = (vat b (i * w + p) - rest (fun c q => vat x (c * w + q)) i p)%s.
  Proof.
    intros Hb Hx Hi. destruct (HF b x i Hb Hx Hi) as (u & He & Hu & Hv).
    destruct (exec_T w (relaxC b) n dep x i (Hk b i Hb Hi) Hx (Hself i Hi)) as (x' & E1 & Hl & _ & Hoff).
    exists x'. split; [exact E1|]. split; [exact Hl|]. split.
    - intros c q Hq Hne Hc. unfold vat. rewrite Hoff; [reflexivity|]. unfold own. intros Ho. apply Hne.
      destruct (decide (c < i)); [nia|]. destruct (decide (i < c)); [nia|]. lia.
    - assert (forall p, p < w -> vat x' (i * w + p) = vat u p) as Hxu.
      { intros p Hp. unfold T in E1. rewrite exec_bind, He in E1. cbn [bind] in E1.
        destruct (exec_pwseg u (i * w) x) as (m' & E & _ & K1 & K2); [nia|]. rewrite E in E1. injection E1 as <-.
        apply vat_eq. rewrite K1 by lia. apply vat_Some. lia. }
      pose proof (solve_iff w (dinv i) (dblock w A i) (fun p => vat x' (i * w + p))
        (fun k => vat b (i * w + k) - (offl w n A x i k + offu w n A x i k))%s (Hinv i Hi)) as [H _].
      apply H. intros p Hp. rewrite Hxu by done. apply Hv, Hp.
  Qed.
  (** a sweep over the rows [rs], each at most once *)
  Lemma relax_rows b x rs : length b = N -> length x = N -> NoDup rs -> (forall r, r ∈ rs -> r < n) ->
    exists x', exec_seq (T w (relaxC b)) rs x = Ok x' /\ length x' = N /\
      (forall c q, q < w -> c < n -> ~ c ∈ rs -> vat x' (c * w + q) = vat x (c * w + q)) /\
      forall k i, rs !! k = Some i -> forall p, p < w ->
        bsum w (fun q => A (i * w + p)%nat (i * w + q)%nat * vat x' (i * w + q))%s =
        (vat b (i * w + p) - rest (fun c q => if decide (c ∈ take k rs) then vat x' (c * w + q) else vat x (c * w + q)) i p)%s.
  Proof.
    intros Hb Hx. induction rs as [|r rs IH] using rev_ind; intros Hnd Hlt.
    - exists x. split; [reflexivity|]. split; [exact Hx|]. split; [reflexivity|]. intros k i E. rewrite lookup_nil in E. discriminate.
    - apply NoDup_app in Hnd as (Hnd & Hnr & _).
      assert (~ r ∈ rs) as Hr by (intros Hr; apply (Hnr r Hr); left).
      destruct IH as (m & Em & Hm & Hoff & Hrow); [exact Hnd|intros r' Hr'; apply Hlt, elem_of_app; auto|].
      assert (r < n) as Hrn by (apply Hlt, elem_of_app; right; left).
      destruct (relax_row b m r Hb Hm Hrn) as (x' & E & Hx' & Hoff' & Hrow').
      exists x'. split; [rewrite exec_seq_app, Em; cbn [bind exec_seq]; rewrite E; reflexivity|]. split; [exact Hx'|]. split.
      + intros c q Hq Hc Hni. rewrite not_elem_of_app, elem_of_list_singleton in Hni. destruct Hni as [H1 H2].
        rewrite Hoff' by done. apply Hoff; auto.
      + intros k i Ek p Hp. destruct (decide (k = length rs)) as [->|Hne].
        * rewrite lookup_app_r, Nat.sub_diag in Ek by lia. injection Ek as <-. rewrite Hrow' by done.
          rewrite take_app. f_equal. apply rest_ext. intros c q Hc Hq Hci. destruct (decide (c ∈ rs)) as [Hin|Hin].
          -- symmetry. apply Hoff'; auto.
          -- apply Hoff; auto.
        * assert (k < length rs) as Hkl by (apply lookup_lt_Some in Ek; rewrite app_length in Ek; simpl in Ek; lia).
          rewrite lookup_app_l in Ek by lia.
          assert (i ∈ rs) as Hin by (eapply elem_of_list_lookup_2; exact Ek).
          assert (i <> r) as Hir by congruence. assert (i < n) as Hin' by (apply Hlt, elem_of_app; auto).
          rewrite (bsum_ext w _ (fun q => A (i * w + p)%nat (i * w + q)%nat * vat m (i * w + q))%s)
            by (intros q Hq; rewrite Hoff' by done; reflexivity).
          rewrite (Hrow k i Ek p Hp). f_equal. apply rest_ext. intros c q Hc Hq Hci.
          rewrite take_app_le by lia. destruct (decide (c ∈ take k rs)) as [Hck|Hck]; [|reflexivity].
          symmetry. apply Hoff'; auto. intros ->. apply Hr. eapply elem_of_take in Hck as (j & Hj & _). eapply elem_of_list_lookup_2, Hj.
  Qed.

  Lemma above_row i p (x : list F) : i < n -> p < w ->
    bsum N (fun J => above w A (i * w + p) J * vat x J)%s = offu w n A x i p.
  Proof.
    intros Hi Hp. rewrite bsum_flat. unfold offu. apply bsum_ext. intros c Hc.
    destruct (decide (i < c)%nat) as [H|H].
    - apply bsum_ext. intros q Hq. unfold above. rewrite !flat_div by done. rewrite decide_True by done. reflexivity.
    - apply bsum_zero. intros q Hq. unfold above. rewrite !flat_div by done. rewrite decide_False by done. ring.
  Qed.
  Lemma below_row i p (x : list F) : i < n -> p < w ->
    bsum N (fun J => below w A (i * w + p) J * vat x J)%s = offl w n A x i p.
  Proof.
    intros Hi Hp. rewrite bsum_flat. unfold offl. apply bsum_ext. intros c Hc.
    destruct (decide (c < i)%nat) as [H|H].
    - apply bsum_ext. intros q Hq. unfold below. rewrite !flat_div by done. rewrite decide_True by done. reflexivity.
    - apply bsum_zero. intros q Hq. unfold below. rewrite !flat_div by done. rewrite decide_False by done. ring.
  Qed.

  Lemma sweep_forward b x : length b = N -> length x = N ->
    exists x', exec_seq (T w (relaxC b)) (seq 0 n) x = Ok x' /\ gs_forward w N A b x x'.
  Proof.
    intros Hb Hx. destruct (relax_rows b x (seq 0 n) Hb Hx) as (x' & E & Hl & _ & Hrow).
    - apply NoDup_seq.
    - intros r Hr. apply elem_of_seq in Hr. lia.
    - exists x'. split; [exact E|]. split; [exact Hl|]. intros I HI.
      destruct (unflat w n I HI) as (i & p & -> & Hi & Hp).
      rewrite blower_row, above_row by done. unfold ond.
      rewrite (Hrow i i) by (try apply lookup_seq_lt; done).
      rewrite (rest_ext _ (fun c q => if decide (c < i) then vat x' (c * w + q) else vat x (c * w + q))).
      + unfold rest. rewrite (bsum_ext n _ (fun c => if decide (c < i)%nat then bsum w (fun q => A (i * w + p)%nat (c * w + q)%nat * vat x' (c * w + q))%s else s0)).
        2: { intros c Hc. destruct (decide (c < i)); reflexivity. }
        rewrite (bsum_ext n (fun c => if decide (i < c) then _ else s0) (fun c => if decide (i < c)%nat then bsum w (fun q => A (i * w + p)%nat (c * w + q)%nat * vat x (c * w + q))%s else s0)).
        2: { intros c Hc. destruct (decide (i < c)); [|reflexivity]. apply bsum_ext. intros q Hq. rewrite decide_False by lia. reflexivity. }
        unfold offl, offu. ring.
      + intros c q Hc Hq Hci. replace (take i (seq 0 n)) with (seq 0 i).
        2: { replace n with (i + (n - i)) by lia. rewrite seq_app. symmetry. apply take_app_alt. rewrite seq_length. reflexivity. }
        destruct (decide (c ∈ seq 0 i)) as [H|H], (decide (c < i)) as [H'|H']; try reflexivity; rewrite elem_of_seq in H; lia.
  Qed.
  Lemma sweep_backward b x : length b = N -> length x = N ->
    exists x', exec_seq (T w (relaxC b)) (rev (seq 0 n)) x = Ok x' /\ gs_backward w N A b x x'.
  Proof.
    intros Hb Hx. destruct (relax_rows b x (rev (seq 0 n)) Hb Hx) as (x' & E & Hl & _ & Hrow).
    - rewrite <- Permutation_rev. apply NoDup_seq.
    - intros r Hr. rewrite <- reverse_rev, elem_of_reverse in Hr. apply elem_of_seq in Hr. lia.
    - exists x'. split; [exact E|]. split; [exact Hl|]. intros I HI.
      destruct (unflat w n I HI) as (i & p & -> & Hi & Hp).
      rewrite bupper_row', below_row by done. unfold ond.
      assert (rev (seq 0 n) = rev (seq (S i) (n - S i)) ++ i :: rev (seq 0 i)) as Esp.
      { replace n with (i + S (n - S i)) at 1 by lia. rewrite seq_app, rev_app_distr. cbn [seq rev plus]. rewrite <- app_assoc. reflexivity. }
      assert (length (rev (seq (S i) (n - S i))) = n - S i) as Hlen by (rewrite rev_length, seq_length; reflexivity).
      rewrite (Hrow (n - S i) i); [|rewrite Esp, lookup_app_r, Hlen, Nat.sub_diag by lia; reflexivity|done].
      rewrite (rest_ext _ (fun c q => if decide (i < c) then vat x' (c * w + q) else vat x (c * w + q))).
      + unfold rest. rewrite (bsum_ext n _ (fun c => if decide (c < i)%nat then bsum w (fun q => A (i * w + p)%nat (c * w + q)%nat * vat x (c * w + q))%s else s0)).
        2: { intros c Hc. destruct (decide (c < i)); [|reflexivity]. apply bsum_ext. intros q Hq. rewrite decide_False by lia. reflexivity. }
        rewrite (bsum_ext n (fun c => if decide (i < c) then _ else s0) (fun c => if decide (i < c)%nat then bsum w (fun q => A (i * w + p)%nat (c * w + q)%nat * vat x' (c * w + q))%s else s0)).
        2: { intros c Hc. destruct (decide (i < c)); reflexivity. }
        unfold offl, offu. ring.
      + intros c q Hc Hq Hci. rewrite Esp, take_app_alt by (rewrite Hlen; reflexivity).
        assert (c ∈ rev (seq (S i) (n - S i)) <-> i < c) as Hin.
        { rewrite <- reverse_rev, elem_of_reverse, elem_of_seq. lia. }
        destruct (decide (c ∈ rev _)) as [H|H], (decide (i < c)) as [H'|H']; try reflexivity; rewrite Hin in H; lia.
  Qed.
  (** several sweeps *)
  Lemma sweeps_forward k b x : length b = N -> length x = N ->
    exists x', exec_seq (T w (relaxC b)) (concat (replicate k (seq 0 n))) x = Ok x' /\ iterated (gs_forward w N A b) k x x'.
  Proof.
    intros Hb. revert x. induction k as [|k IH]; intros x Hx; [exists x; split; reflexivity|].
    cbn [replicate concat]. destruct (sweep_forward b x Hb Hx) as (y & E & Hy). destruct (IH y (proj1 Hy)) as (x' & E' & Hx').
    exists x'. split; [rewrite exec_seq_app, E; exact E'|]. exists y. auto.
  Qed.
  Lemma sweeps_symmetric k b x : length b = N -> length x = N ->
    exists x', exec_seq (T w (relaxC b)) (concat (replicate k (seq 0 n ++ rev (seq 0 n)))) x = Ok x' /\ iterated (gs_symmetric w N A b) k x x'.
  Proof.
    intros Hb. revert x. induction k as [|k IH]; intros x Hx; [exists x; split; reflexivity|].
    cbn [replicate concat]. destruct (sweep_forward b x Hb Hx) as (y & E & Hy). destruct (sweep_backward b y Hb (proj1 Hy)) as (z & E2 & Hz).
    destruct (IH z (proj1 Hz)) as (x' & E' & Hx').
    exists x'. split; [rewrite !exec_seq_app, E; cbn [bind]; rewrite E2; exact E'|]. exists z. split; [exists y; auto|auto].
  Qed.

  (** ** The drivers *)
  Lemma chaotic_iterates k c b x : length b = N -> length x = N -> 1 <= c ->
    nok (chaotic_relax w n relaxC k c 1 b x) (iterated (gs_forward w N A b) k x).
  Proof.
    intros Hb Hx Hc. unfold chaotic_relax. rewrite omp_region_seq by auto. rewrite concat_nowait by done.
    destruct (sweeps_forward k b x Hb Hx) as (x' & E & H). apply nok_lift. rewrite E. exact H.
  Qed.
  Lemma sgs_iterates k c b x : length b = N -> length x = N -> 1 <= c ->
    nok (sgs_relax w n relaxC k c 1 b x) (iterated (gs_symmetric w N A b) k x).
  Proof.
    intros Hb Hx Hc. unfold sgs_relax. rewrite omp_region_seq by auto. rewrite sgs_queue by done.
    destruct (sweeps_symmetric k b x Hb Hx) as (x' & E & H). apply nok_lift. rewrite E. exact H.
  Qed.
  Lemma level_iterates k nthr levels b x : length b = N -> length x = N -> 1 <= nthr -> levels_for n dep levels ->
    nok (level_relax w relaxC levels k nthr b x) (iterated (gs_symmetric w N A b) k x).
  Proof.
    intros Hb Hx Hn Hlev. eapply nok_mono; [eapply (level_relax_spec w n relaxC dep); eauto|]. intros x' [_ E].
    destruct (sweeps_symmetric k b x Hb Hx) as (x'' & E' & H). rewrite E in E'. injection E' as <-. exact H.
  Qed.
End Sweep.
