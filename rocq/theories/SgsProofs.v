(** * SgsProofs: what the consistent vectors of Gauss-Seidel and relaxation solve *)
From Verif Require Import Base Alg SRMatrix Async AsyncTheory AsyncSystem AsyncSweeps Nd Kernels KernelFacts
  IluApply IluApplyFacts TriSpec TriFacts IluApplyProofs IluApplyMain Sgs SgsFacts.

(** ** Dense algebra, rows of [w] entries *)
Section Dense.
  Context {F : Type} {O : SOps F} {R : CRing F}.
  Add Ring Fr : cring.
  Open Scope s_scope.
  Variables (w n : nat) (A : nat -> nat -> F).

  Definition offl (x : list F) (i p : nat) : F :=
    bsum n (fun c => if decide (c < i)%nat then
       bsum w (fun q => A (i * w + p)%nat (c * w + q)%nat * vat x (c * w + q)) else s0).
  Definition offu (x : list F) (i p : nat) : F :=
    bsum n (fun c => if decide (i < c)%nat then
       bsum w (fun q => A (i * w + p)%nat (c * w + q)%nat * vat x (c * w + q)) else s0).
  Definition ond (x : list F) (i p : nat) : F :=
    bsum w (fun q => A (i * w + p)%nat (i * w + q)%nat * vat x (i * w + q)).

  Lemma full_row i p (x : list F) : (i < n)%nat ->
    bsum (n * w) (fun J => A (i * w + p)%nat J * vat x J) = offl x i p + ond x i p + offu x i p.
  Proof. intros Hi. rewrite bsum_flat, (bsum_split3 n i) by done. reflexivity. Qed.
  Lemma bdiag_row i p (f : nat -> F) : (i < n)%nat -> (p < w)%nat ->
    bsum (n * w) (fun J => bdiag w A (i * w + p) J * f J) =
    bsum w (fun q => A (i * w + p)%nat (i * w + q)%nat * f (i * w + q)%nat).
  Proof.
    intros Hi Hp. rewrite bsum_flat, (bsum_single n i); auto.
    - apply bsum_ext. intros q Hq. unfold bdiag. rewrite !flat_div by done. rewrite decide_True by done. reflexivity.
    - intros c Hc Hne. apply bsum_zero. intros q Hq. unfold bdiag. rewrite !flat_div by done.
      rewrite decide_False by auto. ring.
  Qed.
  Lemma bdiag_col i p (f : nat -> F) : (i < n)%nat -> (p < w)%nat ->
    bsum (n * w) (fun J => f J * bdiag w A J (i * w + p)) =
    bsum w (fun q => f (i * w + q)%nat * A (i * w + q)%nat (i * w + p)%nat).
  Proof.
    intros Hi Hp. rewrite bsum_flat, (bsum_single n i); auto.
    - apply bsum_ext. intros q Hq. unfold bdiag. rewrite !flat_div by done. rewrite decide_True by done. reflexivity.
    - intros c Hc Hne. apply bsum_zero. intros q Hq. unfold bdiag. rewrite !flat_div by done.
      rewrite decide_False by auto. ring.
  Qed.
  Lemma blower_row i p (x : list F) : (i < n)%nat -> (p < w)%nat ->
    bsum (n * w) (fun J => blower w A A (i * w + p) J * vat x J) = offl x i p + ond x i p.
  Proof.
    intros Hi Hp. rewrite bsum_flat, (bsum_split3 n i) by done.
    rewrite (bsum_zero n (fun c => if decide (i < c)%nat then _ else s0)).
    - unfold offl, ond.
      rewrite (bsum_ext n _ (fun c => if decide (c < i)%nat then
       bsum w (fun q => A (i * w + p)%nat (c * w + q)%nat * vat x (c * w + q)) else s0)).
      + rewrite (bsum_ext w _ (fun q => A (i * w + p)%nat (i * w + q)%nat * vat x (i * w + q))); [ring|].
        intros q Hq. unfold blower. rewrite !flat_div by done. rewrite decide_False, decide_True by lia. reflexivity.
      + intros c Hc. destruct (decide (c < i)%nat); [|reflexivity]. apply bsum_ext. intros q Hq.
        unfold blower. rewrite !flat_div by done. rewrite decide_True by lia. reflexivity.
    - intros c Hc. destruct (decide (i < c)%nat) as [Hic|]; [|reflexivity]. apply bsum_zero. intros q Hq.
      unfold blower. rewrite !flat_div by done. rewrite decide_False, decide_False by lia. ring.
  Qed.
  Lemma bupper_row' i p (x : list F) : (i < n)%nat -> (p < w)%nat ->
    bsum (n * w) (fun J => bupper w A A (i * w + p) J * vat x J) = ond x i p + offu x i p.
  Proof.
    intros Hi Hp. rewrite bsum_flat, (bsum_split3 n i) by done.
    rewrite (bsum_zero n (fun c => if decide (c < i)%nat then _ else s0)).
    - unfold offu, ond.
      rewrite (bsum_ext n _ (fun c => if decide (i < c)%nat then
       bsum w (fun q => A (i * w + p)%nat (c * w + q)%nat * vat x (c * w + q)) else s0)).
      + rewrite (bsum_ext w _ (fun q => A (i * w + p)%nat (i * w + q)%nat * vat x (i * w + q))); [ring|].
        intros q Hq. unfold bupper. rewrite !flat_div by done. rewrite decide_False, decide_True by lia. reflexivity.
      + intros c Hc. destruct (decide (i < c)%nat); [|reflexivity]. apply bsum_ext. intros q Hq.
        unfold bupper. rewrite !flat_div by done. rewrite decide_True by lia. reflexivity.
    - intros c Hc. destruct (decide (c < i)%nat) as [Hic|]; [|reflexivity]. apply bsum_zero. intros q Hq.
      unfold bupper. rewrite !flat_div by done. rewrite decide_False, decide_False by lia. ring.
  Qed.
  Lemma is_prod_flat B (x b : list F) :
    is_prod (n * w) B x b <->
    forall i p, (i < n)%nat -> (p < w)%nat -> bsum (n * w) (fun J => B (i * w + p)%nat J * vat x J) = vat b (i * w + p).
  Proof.
    split.
    - intros H i p Hi Hp. apply H. nia.
    - intros H I HI. destruct (unflat w n I HI) as (i & p & -> & Hi & Hp). auto.
  Qed.

  (** the blocks of an inverse of the diagonal part *)
  Lemma inverse_blocks E i : is_inverse (n * w) (bdiag w A) E -> (i < n)%nat ->
    is_inverse w (dblock w A i) (dblock w E i).
  Proof.
    intros H Hi p q Hp Hq. destruct (H (i * w + p)%nat (i * w + q)%nat) as [H1 H2]; [nia|nia|].
    unfold mprod in *. rewrite bdiag_row in H1 by done. rewrite bdiag_col in H2 by done.
    assert (ident (F:=F) (i * w + p) (i * w + q) = ident p q) as Ei.
    { unfold ident. destruct (decide (p = q)) as [->|Hne]; [rewrite decide_True; auto|rewrite decide_False; auto; lia]. }
    unfold dblock. rewrite Ei in *. split; auto.
  Qed.

  (** an equation solved by an inverse *)
  Lemma solve_iff X Y (f g : nat -> F) : is_inverse w X Y ->
    (forall p, (p < w)%nat -> f p = bsum w (fun k => X p k * g k)) <->
    (forall p, (p < w)%nat -> bsum w (fun k => Y p k * f k) = g p).
  Proof.
    intros HI. split; intros H.
    - intros p Hp. symmetry. apply (inverse_apply w X Y f g HI); auto.
    - apply (inverse_apply w Y X g f (is_inverse_sym _ _ _ HI)). intros p Hp. symmetry. auto.
  Qed.
End Dense.

(** ** Kernels in value form *)
Section Gen.
  Context {F : Type} {O : SOps F} {R : CRing F}.
  Add Ring Fr3 : cring.
  Open Scope s_scope.
  Variables (w n : nat) (A : nat -> nat -> F) (dinv : nat -> nat -> nat -> F).
  Variables (fgsC bgsC relaxC : list F -> nat -> @P F (list F)).
  Notation N := (n * w)%nat.
  Hypothesis Hinv : forall i, (i < n)%nat -> is_inverse w (dinv i) (dblock w A i).
  Definition fgs_form : Prop := forall r y i, length r = N -> length y = N -> (i < n)%nat ->
    exists u, exec y (fgsC r i) = Ok (u, y) /\ length u = w /\
      forall p, (p < w)%nat -> vat u p = bsum w (fun k => dinv i p k * (vat r (i * w + k) - offl w n A y i k)).
  Definition bgs_form : Prop := forall y z i, length y = N -> length z = N -> (i < n)%nat ->
    exists u, exec z (bgsC y i) = Ok (u, z) /\ length u = w /\
      forall p, (p < w)%nat -> vat u p = vat y (i * w + p) - bsum w (fun k => dinv i p k * offu w n A z i k).
  Definition relax_form : Prop := forall b x i, length b = N -> length x = N -> (i < n)%nat ->
    exists u, exec x (relaxC b i) = Ok (u, x) /\ length u = w /\
      forall p, (p < w)%nat -> vat u p =
        bsum w (fun k => dinv i p k * (vat b (i * w + k) - (offl w n A x i k + offu w n A x i k))).

  Lemma fgs_solution r y : fgs_form -> length r = N ->
    lower_solution w n fgsC r y <-> length y = N /\ is_prod N (blower w A A) y r.
  Proof.
    intros HF Hr. unfold lower_solution. rewrite is_prod_flat.
    assert (length y = N -> forall i, (i < n)%nat -> fix_at w (fgsC r) y i <->
      forall p, (p < w)%nat -> bsum N (fun J => blower w A A (i * w + p) J * vat y J) = vat r (i * w + p)) as Hf.
    { intros Hy i Hi. destruct (HF r y i Hr Hy Hi) as (u & He & Hu & Hv).
      rewrite (fix_at_bs w _ y i u He Hu) by nia.
      transitivity (forall p, (p < w)%nat -> vat y (i * w + p) =
         bsum w (fun k => dinv i p k * (vat r (i * w + k) - offl w n A y i k))).
      { split; intros H p Hp; rewrite (H p Hp); [apply Hv|symmetry; apply Hv]; done. }
      rewrite (solve_iff w (dinv i) (dblock w A i) (fun p => vat y (i * w + p)) _ (Hinv i Hi)).
      split; intros H p Hp; specialize (H p Hp).
      - rewrite blower_row by done. change (ond w A y i p) with (bsum w (fun k => dblock w A i p k * vat y (i * w + k))).
        rewrite H. ring.
      - rewrite blower_row in H by done. change (bsum w (fun k => dblock w A i p k * vat y (i * w + k))) with (ond w A y i p).
        rewrite <- H. ring. }
    split; intros [Hy H]; (split; [exact Hy|]).
    - intros i p Hi Hp. apply (Hf Hy i Hi); auto.
    - intros i Hi. apply (Hf Hy i Hi). auto.
  Qed.
  Lemma bgs_solution y z : bgs_form -> length y = N ->
    upper_solution w n bgsC y z <-> length z = N /\ is_prod N (bupper w A A) z (mvec N (bdiag w A) y).
  Proof.
    intros HF Hy. unfold upper_solution. rewrite is_prod_flat.
    assert (length z = N -> forall i, (i < n)%nat -> fix_at w (bgsC y) z i <->
      forall p, (p < w)%nat -> bsum N (fun J => bupper w A A (i * w + p) J * vat z J) = vat (mvec N (bdiag w A) y) (i * w + p)) as Hf.
    { intros Hz i Hi. destruct (HF y z i Hy Hz Hi) as (u & He & Hu & Hv).
      rewrite (fix_at_bs w _ z i u He Hu) by nia.
      transitivity (forall p, (p < w)%nat -> vat y (i * w + p) - vat z (i * w + p) =
         bsum w (fun k => dinv i p k * offu w n A z i k)).
      { split; intros H p Hp.
        - rewrite (H p Hp), (Hv p Hp). ring.
        - rewrite (Hv p Hp), <- (H p Hp). ring. }
      rewrite (solve_iff w (dinv i) (dblock w A i) (fun p => vat y (i * w + p) - vat z (i * w + p)) _ (Hinv i Hi)).
      split; intros H p Hp; specialize (H p Hp).
      - rewrite bupper_row' by done. unfold mvec. rewrite vat_fmap_seq by nia. rewrite bdiag_row by done. rewrite <- H. rewrite (bsum_ext w (fun k => dblock w A i p k * _)
          (fun k => A (i * w + p)%nat (i * w + k)%nat * vat y (i * w + k) - A (i * w + p)%nat (i * w + k)%nat * vat z (i * w + k))).
        2: { intros k Hk. unfold dblock. ring. }
        rewrite bsum_sub. unfold ond. ring.
      - rewrite bupper_row' in H by done. unfold mvec in H. rewrite vat_fmap_seq in H by nia. rewrite bdiag_row in H by done. rewrite (bsum_ext w (fun k => dblock w A i p k * _)
          (fun k => A (i * w + p)%nat (i * w + k)%nat * vat y (i * w + k) - A (i * w + p)%nat (i * w + k)%nat * vat z (i * w + k))).
        2: { intros k Hk. unfold dblock. ring. }
        rewrite bsum_sub. rewrite <- H. unfold ond. ring. }
    split; intros [Hz H]; (split; [exact Hz|]).
    - intros i p Hi Hp. apply (Hf Hz i Hi); auto.
    - intros i Hi. apply (Hf Hz i Hi). auto.
  Qed.
  Lemma relax_steady b x : relax_form -> length b = N -> length x = N ->
    steady w n relaxC b x <-> is_prod N A x b.
  Proof.
    intros HF Hb Hx. unfold steady. rewrite is_prod_flat.
    assert (forall i, (i < n)%nat -> fix_at w (relaxC b) x i <->
      forall p, (p < w)%nat -> bsum N (fun J => A (i * w + p)%nat J * vat x J) = vat b (i * w + p)) as Hf.
    { intros i Hi. destruct (HF b x i Hb Hx Hi) as (u & He & Hu & Hv).
      rewrite (fix_at_bs w _ x i u He Hu) by nia.
      transitivity (forall p, (p < w)%nat -> vat x (i * w + p) =
         bsum w (fun k => dinv i p k * (vat b (i * w + k) - (offl w n A x i k + offu w n A x i k)))).
      { split; intros H p Hp; rewrite (H p Hp); [apply Hv|symmetry; apply Hv]; done. }
      rewrite (solve_iff w (dinv i) (dblock w A i) (fun p => vat x (i * w + p)) _ (Hinv i Hi)).
      split; intros H p Hp; specialize (H p Hp).
      - rewrite full_row by done. change (ond w A x i p) with (bsum w (fun k => dblock w A i p k * vat x (i * w + k))).
        rewrite H. ring.
      - rewrite full_row in H by done. change (bsum w (fun k => dblock w A i p k * vat x (i * w + k))) with (ond w A x i p).
        rewrite <- H. ring. }
    split; intros H.
    - intros i p Hi Hp. apply (Hf i Hi); auto.
    - intros i Hi. apply (Hf i Hi). auto.
  Qed.

  (** ** The preconditioner (D+L) D^-1 (D+U) *)
  Variables (E : nat -> nat -> F) (ldep udep : nat -> nat -> Prop).
  Hypothesis HE : is_inverse N (bdiag w A) E.
  Hypothesis Hlow : forall z i, length z = N -> (i < n)%nat -> kernel_ok w (fgsC z) n ldep i.
  Hypothesis Hup : forall y i, length y = N -> (i < n)%nat -> kernel_ok w (bgsC y) n udep i.
  Hypothesis Hlt : forall i c, (i < n)%nat -> ldep i c -> (c < i)%nat.
  Hypothesis Hut : forall i c, (i < n)%nat -> udep i c -> (i < c)%nat.
  Definition sgs_matrix : nat -> nat -> F := mprod N (blower w A A) (mprod N E (bupper w A A)).

  Lemma inverse_prod (B C : nat -> nat -> F) (x b : list F) m : is_inverse m B C -> is_prod m B x b -> is_prod m C b x.
  Proof.
    intros HI H i Hi. symmetry.
    apply (inverse_apply m B C (fun i => vat b i) (fun i => vat x i) HI); [|done].
    intros k Hk. symmetry. apply H. done.
  Qed.
  Lemma sgs_solution r ys zs : fgs_form -> bgs_form -> length r = N ->
    lower_solution w n fgsC r ys -> (forall y, lower_solution w n fgsC r y -> y = ys) ->
    upper_solution w n bgsC ys zs -> (forall z, upper_solution w n bgsC ys z -> z = zs) ->
    length zs = N /\ is_prod N sgs_matrix zs r /\
    (forall z, length z = N -> is_prod N sgs_matrix z r -> z = zs).
  Proof.
    intros HF HB Hr Hy Huy Hz Huz.
    apply (fgs_solution r ys HF Hr) in Hy as [Hyl Hyp].
    apply (bgs_solution ys zs HB Hyl) in Hz as [Hzl Hzp].
    split; [exact Hzl|]. split.
    - unfold sgs_matrix. apply (is_prod_mprod N _ _ zs ys); [|exact Hyp].
      apply (is_prod_mprod N _ _ zs (mvec N (bdiag w A) ys)); [exact Hzp|].
      apply (inverse_prod (bdiag w A)); [exact HE|]. apply mvec_prod.
    - intros z Hzl' Hzp'. unfold sgs_matrix in Hzp'. apply is_prod_mprod_inv in Hzp'.
      assert (mvec N (mprod N E (bupper w A A)) z = ys) as Ey.
      { apply Huy, (fgs_solution r _ HF Hr). split; [apply mvec_length|exact Hzp']. }
      apply Huz, (bgs_solution ys z HB Hyl). split; [exact Hzl'|].
      pose proof (mvec_prod N (mprod N E (bupper w A A)) z) as H. rewrite Ey in H.
      apply is_prod_mprod_inv in H. apply (inverse_prod E (bdiag w A)) in H; [|apply is_inverse_sym, HE].
      assert (mvec N (bupper w A A) z = mvec N (bdiag w A) ys) as <-; [|apply mvec_prod].
      apply vec_eq; [rewrite !mvec_length; reflexivity|]. rewrite mvec_length. intros i Hi.
      unfold mvec at 2. rewrite vat_fmap_seq by done. symmetry. apply H. done.
  Qed.
End Gen.
