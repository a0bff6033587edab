(** * SgsMain: Jacobi iterations, scalar specialisation, and absence of memory *)
From Verif Require Import Base Alg SRMatrix Async AsyncTheory AsyncSystem AsyncSweeps Nd Reduction Kernels KernelFacts
  IluApply IluApplyFacts TriSpec TriFacts IluApplyProofs IluApplyMain Sgs SgsFacts SgsProofs SgsForms.

(** ** Specification of the Jacobi iteration: x + E (b - A x) *)
Section JacSpec.
  Context {F : Type} {O : SOps F}.
  Open Scope s_scope.
  Definition residual (N : nat) (A : nat -> nat -> F) (b x : list F) (i : nat) : F :=
    vat b i - bsum N (fun j => A i j * vat x j).
  Definition jacobi_iter (N : nat) (A E : nat -> nat -> F) (b x : list F) : list F :=
    (fun i => vat x i + bsum N (fun k => E i k * residual N A b x k)) <$> seq 0 N.
  (** the [k]-th iterate *)
  Definition iterate (N : nat) (A E : nat -> nat -> F) (b x : list F) (k : nat) : list F :=
    Nat.iter k (jacobi_iter N A E b) x.
  (** square of the distance of two vectors *)
  Definition sqdist (N : nat) (x y : list F) : F := bsum N (fun i => (vat x i - vat y i) * (vat x i - vat y i)).
End JacSpec.

Lemma is_prod_ext {F} {O : SOps F} n (A B : nat -> nat -> F) (x b : list F) :
  (forall i j, i < n -> j < n -> A i j = B i j) -> is_prod n A x b <-> is_prod n B x b.
Proof.
  intros H. split; intros HP i Hi; rewrite <- (HP i Hi); apply bsum_ext; intros j Hj; rewrite H; auto.
Qed.
Lemma mprod_ext {F} {O : SOps F} n (A A' B B' : nat -> nat -> F) i j :
  (forall k, k < n -> A i k = A' i k) -> (forall k, k < n -> B k j = B' k j) -> mprod n A B i j = mprod n A' B' i j.
Proof. intros HA HB. apply bsum_ext. intros k Hk. rewrite HA, HB; auto. Qed.

Section Jac.
  Context {F : Type} {O : SOps F} {R : CRing F}.
  Add Ring Fr : cring.
  Open Scope s_scope.
  Variables (w n : nat) (A E : nat -> nat -> F) (dinv : nat -> nat -> nat -> F).
  Variable relaxC : list F -> nat -> @P F (list F).
  Notation N := (n * w)%nat.
  Hypothesis Hinv : forall i, (i < n)%nat -> is_inverse w (dinv i) (dblock w A i).
  Hypothesis HE : is_inverse N (bdiag w A) E.
  Hypothesis HF : relax_form w n A dinv relaxC.

  Lemma jacobi_iter_length b x : length (jacobi_iter N A E b x) = N.
  Proof. unfold jacobi_iter. rewrite fmap_length, seq_length. reflexivity. Qed.
  Lemma iterate_length b x k : length x = N -> length (iterate N A E b x k) = N.
  Proof. intros H. destruct k; [exact H|apply jacobi_iter_length]. Qed.
  Lemma jacobi_iter_val b x i : (i < n)%nat -> forall p, (p < w)%nat ->
    vat (jacobi_iter N A E b x) (i * w + p) =
    bsum w (fun k => dinv i p k * (vat b (i * w + k) - (offl w n A x i k + offu w n A x i k))).
  Proof.
    intros Hi.
    apply (solve_iff w (dinv i) (dblock w A i) (fun p => vat (jacobi_iter N A E b x) (i * w + p))
       (fun k => vat b (i * w + k) - (offl w n A x i k + offu w n A x i k)) (Hinv i Hi)).
    intros p Hp. unfold dblock.
    rewrite <- (bdiag_row w n A i p (fun J => vat (jacobi_iter N A E b x) J)) by done.
    rewrite (bsum_ext N _ (fun J => bdiag w A (i * w + p) J * vat x J +
       bsum N (fun K => bdiag w A (i * w + p) J * (E J K * residual N A b x K)))).
    2: { intros J HJ. unfold jacobi_iter. rewrite vat_fmap_seq by done. rewrite bsum_mul_l. ring. }
    rewrite bsum_add, bsum_swap.
    rewrite (bsum_ext N (fun K => bsum N _) (fun K => ident (i * w + p) K * residual N A b x K)).
    2: { intros K HK. rewrite <- (proj1 (HE (i * w + p)%nat K ltac:(nia) HK)). unfold mprod. rewrite <- bsum_mul_r.
         apply bsum_ext. intros J HJ. ring. }
    rewrite (bsum_single N (i * w + p) (fun K => ident (i * w + p) K * residual N A b x K)).
    - cbv beta. unfold ident at 1. rewrite decide_True by done. unfold residual. rewrite (bdiag_row w n A i p (fun J => vat x J)) by done. rewrite full_row by done. unfold ond. ring. 
    - nia.
    - intros K HK Hne. unfold ident. rewrite decide_False by auto. ring.
  Qed.
  Lemma jacobi_sweep b x xtemp : length b = N -> length x = N -> length xtemp = N ->
    nok (par_for 0 n (jacobi_row w relaxC b x) xtemp) (fun xt => xt = jacobi_iter N A E b x).
  Proof.
    intros Hb Hx Hxt.
    apply (nok_par_for_seg n w _ xtemp (fun i => (fun p => vat (jacobi_iter N A E b x) (i * w + p)) <$> seq 0 w)); [exact Hxt| | |].
    - intros i Hi. rewrite fmap_length, seq_length. reflexivity.
    - intros i v' Hi Hv'. unfold jacobi_row. destruct (HF b x i Hb Hx Hi) as (u & -> & Hu & Hv). simpl. f_equal.
      apply vec_eq; [rewrite fmap_length, seq_length; exact Hu|]. intros p Hp.
      rewrite vat_fmap_seq by lia. rewrite Hv by lia. symmetry. apply jacobi_iter_val; [done|lia].
    - intros v' Hv' Hk. apply vec_eq; [rewrite jacobi_iter_length; exact Hv'|]. intros I HI. rewrite Hv' in HI.
      destruct (unflat w n I HI) as (i & p & -> & Hi & Hp). apply vat_eq. rewrite Hk by done.
      rewrite list_lookup_fmap, lookup_seq_lt by done. reflexivity.
  Qed.
  Lemma jacobi_diff_spec len xtemp x : length xtemp = len -> length x = len ->
    nok (jacobi_diff len xtemp x) (fun '(dn, x') => dn = sqdist len xtemp x /\ x' = xtemp).
  Proof.
    intros Ht Hx. unfold jacobi_diff.
    set (h := fun o : option nat => match o with None => s0 | Some i => (vat xtemp i - vat x i) * (vat xtemp i - vat x i) end).
    apply (nok_reduce_shared (fun l s => s = lsum h l) sadd) with (J := fun dn x' => length x' = len /\
       (forall i, (i < len)%nat -> x' !! i = if decide (i ∈ dn) then Some (vat xtemp i) else Some (vat x i))).
    - intros l l' s Hp ->. apply lsum_perm, Hp.
    - intros l1 l2 a b -> ->. rewrite lsum_app. reflexivity.
    - reflexivity.
    - simpl. ring.
    - split; [exact Hx|]. intros i Hi. rewrite decide_False by apply not_elem_of_nil.
      apply vat_Some. lia.
    - intros dn l i s x' Hdn Hi Hni Hs (Hl & Hk). rewrite vat_get by lia. simpl.
      pose proof (Hk i ltac:(lia)) as E1. rewrite decide_False in E1 by done.
      rewrite (proj2 (get_Some _ _ _) E1). simpl. rewrite set_Ok by lia. simpl.
      split; [rewrite lsum_app, Hs; simpl; ring|]. split; [rewrite insert_length; exact Hl|].
      intros j Hj. destruct (decide (i = j)) as [<-|Hne].
      + rewrite list_lookup_insert by lia. rewrite decide_True by (apply elem_of_app; right; left). reflexivity.
      + rewrite list_lookup_insert_ne by done. rewrite Hk by done.
        destruct (decide (j ∈ dn)) as [Hj'|Hj'].
        * rewrite decide_True by (apply elem_of_app; auto). reflexivity.
        * rewrite decide_False; [reflexivity|]. rewrite elem_of_app, elem_of_list_singleton. intros [?|?]; [auto|congruence].
    - intros l s x' Hl -> (H1 & H3). split.
      + assert (forall l, lsum h (Some <$> l) = lsum (fun i => (vat xtemp i - vat x i) * (vat xtemp i - vat x i)) l) as Esum.
        { clear. induction l as [|i l IH]; [reflexivity|]. cbn [fmap list_fmap]. simpl. f_equal. exact IH. }
        simpl. rewrite Esum. transitivity (lsum (fun i => (vat xtemp i - vat x i) * (vat xtemp i - vat x i)) (range 0 len)); [ring|]. unfold sqdist. clear -R.
        assert (forall k (f : nat -> F), lsum f (range 0 k) = bsum k f) as H.
        { induction k as [|k IH]; intros f; [reflexivity|]. replace (S k) with (k + 1)%nat by lia.
          rewrite range_snoc by lia. rewrite lsum_app, IH. replace (k + 1)%nat with (S k) by lia. simpl. ring. }
        apply H.
      + apply vec_eq; [lia|]. intros i Hi. apply vat_eq. rewrite H3 by lia. rewrite decide_True; [reflexivity|].
        rewrite Hl. apply elem_of_range. lia.
  Qed.

  Variables (ssqrt : F -> F) (slt : F -> F -> bool) (p : SolveParams F).
  Section Run.
    Variables (b x0 : list F).
    Hypothesis (Hb : length b = N) (Hx0 : length x0 = N).
    Notation its := (iterate N A E b x0).
    Definition jdiff (j : nat) : F := ssqrt (sqdist N (its (j + 1)) (its j)).
    Definition jstop (j : nat) : bool := jacobi_stop slt p (jdiff j) (jdiff 0).
    Lemma jacobi_loop_spec k : forall step ref xtemp,
      length xtemp = N -> (ctol p = true -> step = 0%nat \/ ref = jdiff 0) ->
      (ctol p = true -> forall j, (j < step)%nat -> jstop j = false) ->
      nok (jacobi_loop ssqrt slt w n relaxC p b k step ref xtemp (its step))
        (fun x' => exists m, (step <= m <= step + k)%nat /\ x' = its m /\
           (ctol p = false -> m = (step + k)%nat) /\
           (ctol p = true -> (forall j, (j + 1 < m)%nat -> jstop j = false) /\
              ((m < step + k)%nat -> (1 <= m)%nat /\ jstop (m - 1) = true))).
    Proof.
      induction k as [|k IH]; intros step ref xtemp Hxt Href Hst; cbn [jacobi_loop].
      - apply nok_ret. exists step. split; [lia|]. split; [reflexivity|]. split; [lia|]. intros Hc. split; [|lia].
        intros j Hj. apply Hst; [exact Hc|lia].
      - eapply nok_bind; [apply jacobi_sweep; [exact Hb|apply iterate_length; auto|exact Hxt]|].
        intros xt ->. change (jacobi_iter N A E b (its step)) with (its (S step)).
        assert (length (its (S step)) = N) as Hl1 by (apply iterate_length; auto).
        assert (length (its step) = N) as Hl0 by (apply iterate_length; auto).
        replace (S step) with (step + 1)%nat in * by lia.
        destruct (ctol p) eqn:Ec.
        + eapply nok_bind; [apply jacobi_diff_spec; auto|]. intros [dn x'] [-> ->].
          change (ssqrt (sqdist N (its (step + 1)) (its step))) with (jdiff step).
          assert ((if (step =? 0)%nat then jdiff step else ref) = jdiff 0) as ->.
          { destruct (Nat.eqb_spec step 0) as [->|Hne]; [reflexivity|]. destruct (Href eq_refl) as [?|Hr]; [lia|exact Hr]. }
          destruct (jacobi_stop slt p (jdiff step) (jdiff 0)) eqn:Es.
          * apply nok_ret. exists (step + 1)%nat. split; [lia|]. split; [reflexivity|]. split; [discriminate|].
            intros _. split; [intros j Hj; apply Hst; [reflexivity|lia]|]. intros _. split; [lia|].
            replace (step + 1 - 1)%nat with step by lia. exact Es.
          * eapply nok_mono; [apply IH; [exact Hl1|auto|]|].
            { intros _ j Hj. destruct (decide (j = step)) as [->|Hne]; [exact Es|]. apply Hst; [reflexivity|lia]. }
            intros x' (m & Hm & -> & _ & Hm2). exists m. split; [lia|]. split; [reflexivity|]. split; [discriminate|].
            intros _. destruct (Hm2 eq_refl) as [H1 H2]. split; [exact H1|]. intros Hlt. apply H2. lia.
        + eapply nok_bind; [apply vcopy_spec; auto|]. intros x' ->.
          eapply nok_mono; [apply IH; [exact Hl1|discriminate|discriminate]|].
          intros x' (m & Hm & -> & Hm1 & _). exists m. split; [lia|]. split; [reflexivity|]. split; [|discriminate].
            intros _. rewrite Hm1 by done. lia.
    Qed.
  End Run.
End Jac.

Lemma nok_bind_inv {A B} (m : nd A) (k : A -> nd B) P Q :
  nok (nbind m k) Q -> nok m P -> exists a, P a /\ nok (k a) Q.
Proof.
  intros [[o (x & Hx & Ho)] Hall] [_ HP]. specialize (HP x Hx). destruct x as [a| | |]; simpl in HP; try tauto.
  exists a. split; [exact HP|]. split; [eauto|]. intros o' Ho'. apply Hall. exists (Ok a). auto.
Qed.

(** ** Everything together, for any row width; [d] is the inverted diagonal *)
Section Main.
  Context {F : Type} {O : SOps F} {R : CRing F}.
  Add Ring Fr' : cring.
  Open Scope s_scope.
  Variables (w n dlen : nat) (A E : nat -> nat -> F) (dinv : list F -> nat -> nat -> nat -> F).
  Variables (fgsC bgsC relaxC : list F -> list F -> nat -> @P F (list F)).
  Variables (ldep udep dep : nat -> nat -> Prop).
  Variable setup : list F -> nd (list F).
  Notation N := (n * w)%nat.
  Record good (d : list F) : Prop := {
    g_inv : forall i, (i < n)%nat -> is_inverse w (dinv d i) (dblock w A i);
    g_fgs : fgs_form w n A (dinv d) (fgsC d);
    g_bgs : bgs_form w n A (dinv d) (bgsC d);
    g_relax : relax_form w n A (dinv d) (relaxC d);
    g_kl : forall z i, length z = N -> (i < n)%nat -> kernel_ok w (fgsC d z) n ldep i;
    g_ku : forall z i, length z = N -> (i < n)%nat -> kernel_ok w (bgsC d z) n udep i;
    g_kr : forall z i, length z = N -> (i < n)%nat -> kernel_ok w (relaxC d z) n dep i }.
  Hypothesis HE : is_inverse N (bdiag w A) E.
  Hypothesis Hset : forall d0, length d0 = dlen -> nok (setup d0) good.
  Hypothesis Hlt : forall i c, (i < n)%nat -> ldep i c -> (c < i)%nat.
  Hypothesis Hut : forall i c, (i < n)%nat -> udep i c -> (i < c)%nat.
  Hypothesis Hself : forall i, (i < n)%nat -> ~ dep i i.

  Lemma sgs_main r : length r = N ->
    exists y x, length y = N /\ is_prod N (blower w A A) y r /\
      length x = N /\ is_prod N (sgs_matrix w n A E) x r /\
      (forall x', length x' = N -> is_prod N (sgs_matrix w n A E) x' r -> x' = x) /\
      forall d0 ytemp z, length d0 = dlen -> length ytemp = N -> length z = N ->
        (forall nsweeps chunk nthr init, (1 <= nsweeps)%nat -> (1 <= chunk)%nat -> (1 <= nthr)%nat ->
          nok (ndo d := setup d0 in sgs_apply w n (fgsC d) (bgsC d) ytemp nsweeps chunk nthr init r z)
              (fun out => fst out = y /\ (nthr = 1%nat -> snd out = x))) /\
        (forall levels nthr, levels_for n ldep levels -> levels_for n udep levels -> (1 <= nthr)%nat ->
          nok (ndo d := setup d0 in level_sgs_apply w (fgsC d) (bgsC d) levels ytemp nthr r z)
              (fun out => out = (y, x))).
  Proof.
    intros Hr.
    assert (forall d, good d -> exists ys zs,
      lower_solution w n (fgsC d) r ys /\ (forall y, lower_solution w n (fgsC d) r y -> y = ys) /\
      upper_solution w n (bgsC d) ys zs /\ (forall z, upper_solution w n (bgsC d) ys z -> z = zs) /\
      (forall y, length y = N -> is_prod N (blower w A A) y r -> y = ys) /\
      length zs = N /\ is_prod N (sgs_matrix w n A E) zs r /\
      (forall x', length x' = N -> is_prod N (sgs_matrix w n A E) x' r -> x' = zs) /\
      forall ytemp z nsweeps chunk nthr init,
        length ytemp = N -> length z = N -> (1 <= nsweeps)%nat -> (1 <= chunk)%nat -> (1 <= nthr)%nat ->
        nok (sgs_apply w n (fgsC d) (bgsC d) ytemp nsweeps chunk nthr init r z)
            (fun out => fst out = ys /\ (nthr = 1%nat -> snd out = zs))) as H.
    { intros d Hg.
      destruct (sgs_apply_spec w n (fgsC d) (bgsC d) ldep udep (g_kl d Hg) (g_ku d Hg) Hlt Hut r Hr)
        as (ys & zs & H1 & H2 & H3 & H4 & H5).
      exists ys, zs. do 4 (split; [assumption|]). split.
      { intros y Hy Hp. apply H2. apply (fgs_solution w n A (dinv d) (fgsC d) (g_inv d Hg) r y (g_fgs d Hg) Hr). auto. }
      destruct (sgs_solution w n A (dinv d) (fgsC d) (bgsC d) (g_inv d Hg) E HE r ys zs (g_fgs d Hg) (g_bgs d Hg) Hr H1 H2 H3 H4)
        as (H6 & H7 & H8). auto. }
    destruct (Hset (replicate dlen s0)) as [[o Ho] Hok]; [apply replicate_length|].
    specialize (Hok o Ho). destruct o as [d| | |]; simpl in Hok; try tauto.
    destruct (H d Hok) as (y & x & H1 & H2 & H3 & H4 & H5 & H6 & H7 & H8 & H9).
    assert (is_prod N (blower w A A) y r) as Hyp.
    { apply (fgs_solution w n A (dinv d) (fgsC d) (g_inv d Hok) r y (g_fgs d Hok) Hr). exact H1. }
    exists y, x. split; [apply H1|]. split; [exact Hyp|]. do 3 (split; [assumption|]).
    intros d0 ytemp z Hd0 Hyt Hz.
    assert (forall d', good d' -> exists ys zs, ys = y /\ zs = x /\
       lower_solution w n (fgsC d') r ys /\ (forall y, lower_solution w n (fgsC d') r y -> y = ys) /\
       upper_solution w n (bgsC d') ys zs /\ (forall z, upper_solution w n (bgsC d') ys z -> z = zs) /\
       forall ytemp z nsweeps chunk nthr init,
        length ytemp = N -> length z = N -> (1 <= nsweeps)%nat -> (1 <= chunk)%nat -> (1 <= nthr)%nat ->
        nok (sgs_apply w n (fgsC d') (bgsC d') ytemp nsweeps chunk nthr init r z)
            (fun out => fst out = ys /\ (nthr = 1%nat -> snd out = zs))) as Hd'.
    { intros d' Hg. destruct (H d' Hg) as (ys & zs & G1 & G2 & G3 & G4 & G5 & G6 & G7 & G8 & G9).
      exists ys, zs. split; [symmetry; apply G5; [apply H1|exact Hyp]|]. split; [apply H8; auto|]. auto. }
    split.
    - intros k c nthr init Hk Hc Hn. eapply nok_bind; [apply Hset; exact Hd0|]. intros d' Hg.
      destruct (Hd' d' Hg) as (ys & zs & -> & -> & _ & _ & _ & _ & G). apply G; auto.
    - intros levels nthr Hl1 Hl2 Hn. eapply nok_bind; [apply Hset; exact Hd0|]. intros d' Hg.
      destruct (Hd' d' Hg) as (ys & zs & -> & -> & _ & G2 & _ & G4 & _).
      destruct (level_sgs_spec w n (fgsC d') (bgsC d') ldep udep (g_kl d' Hg) (g_ku d' Hg) Hlt Hut levels r Hr Hl1 Hl2)
        as (y1 & x1 & L1 & L2 & L3).
      assert (y1 = y) as -> by auto. assert (x1 = x) as -> by auto. apply L3; auto.
  Qed.

  (** relaxations: fixed exactly at the solutions *)
  Lemma jacobi_iter_fixed b x : length b = N -> length x = N ->
    jacobi_iter N A E b x = x <-> is_prod N A x b.
  Proof.
    intros Hb Hx. split; intros H.
    - assert (forall i, (i < N)%nat -> bsum N (fun k => E i k * residual N A b x k) = s0) as Hz.
      { intros i Hi. pose proof (f_equal (fun v => vat v i) H) as Hv. simpl in Hv.
        unfold jacobi_iter in Hv. rewrite vat_fmap_seq in Hv by done.
        transitivity (vat x i + bsum N (fun k => E i k * residual N A b x k) - vat x i); [ring|]. rewrite Hv. ring. }
      intros i Hi.
      pose proof (proj2 (solve_iff N (bdiag w A) E (residual N A b x) (fun _ => s0) HE) Hz i Hi) as Hr.
      rewrite bsum_zero in Hr by (intros; ring). unfold residual in Hr.
      transitivity (vat b i - (vat b i - bsum N (fun j => A i j * vat x j))); [ring|]. rewrite Hr. ring.
    - apply vec_eq; [rewrite jacobi_iter_length; auto|]. intros i Hi. rewrite jacobi_iter_length in Hi.
      unfold jacobi_iter. rewrite vat_fmap_seq by done. rewrite bsum_zero; [ring|].
      intros k Hk. unfold residual. rewrite H by done. ring.
  Qed.
  Lemma iterate_fixed b x k : jacobi_iter N A E b x = x -> iterate N A E b x k = x.
  Proof. intros H. induction k as [|k IH]; [reflexivity|]. unfold iterate in *. simpl. rewrite IH. exact H. Qed.

  Variables (ssqrt : F -> F) (slt : F -> F -> bool).
  Lemma jacobi_main p d0 xtemp b x : length d0 = dlen -> length xtemp = N -> length b = N -> length x = N ->
    nok (ndo d := setup d0 in jacobi_relax ssqrt slt w n (relaxC d) p xtemp b x)
      (fun x' => exists m, (m <= maxits p)%nat /\ x' = iterate N A E b x m /\
         (ctol p = false -> m = maxits p) /\
         (ctol p = true -> (forall j, (j + 1 < m)%nat -> jstop w n A E ssqrt slt p b x j = false) /\
            ((m < maxits p)%nat -> (1 <= m)%nat /\ jstop w n A E ssqrt slt p b x (m - 1) = true))).
  Proof.
    intros Hd0 Hxt Hb Hx. eapply nok_bind; [apply Hset; exact Hd0|]. intros d Hg. unfold jacobi_relax.
    eapply nok_mono.
    - apply (jacobi_loop_spec w n A E (dinv d) (relaxC d) (g_inv d Hg) HE (g_relax d Hg) ssqrt slt p b x Hb Hx (maxits p) 0 s1 xtemp Hxt).
      + auto.
      + intros _ j Hj. lia.
    - intros x' (m & Hm & H). exists m. split; [lia|]. exact H.
  Qed.

  Lemma relax_fixed_main d0 b x : length d0 = dlen -> length b = N -> length x = N -> is_prod N A x b ->
    forall its chunk nthr, (1 <= chunk)%nat -> (1 <= nthr)%nat ->
      nok (ndo d := setup d0 in sgs_relax w n (relaxC d) its chunk nthr b x) (fun x' => x' = x) /\
      nok (ndo d := setup d0 in chaotic_relax w n (relaxC d) its chunk nthr b x) (fun x' => x' = x) /\
      (forall levels, levels_for n dep levels ->
        nok (ndo d := setup d0 in level_relax w (relaxC d) levels its nthr b x) (fun x' => x' = x)) /\
      (forall p xtemp, length xtemp = N ->
        nok (ndo d := setup d0 in jacobi_relax ssqrt slt w n (relaxC d) p xtemp b x) (fun x' => x' = x)).
  Proof.
    intros Hd0 Hb Hx HP its chunk nthr Hc Hn.
    assert (forall d, good d -> steady w n (relaxC d) b x) as Hst.
    { intros d Hg. apply (relax_steady w n A (dinv d) (relaxC d) (g_inv d Hg) b x (g_relax d Hg) Hb Hx). exact HP. }
    split; [|split; [|split]].
    - eapply nok_bind; [apply Hset; exact Hd0|]. intros d Hg.
      apply (sgs_relax_steady w n (relaxC d) dep (g_kr d Hg)); auto.
    - eapply nok_bind; [apply Hset; exact Hd0|]. intros d Hg.
      apply (chaotic_relax_steady w n (relaxC d) dep (g_kr d Hg)); auto.
    - intros levels Hl. eapply nok_bind; [apply Hset; exact Hd0|]. intros d Hg.
      apply (level_relax_steady w n (relaxC d) dep (g_kr d Hg)); auto.
    - intros p xtemp Hxt. eapply nok_mono; [apply jacobi_main; auto|].
      intros x' (m & _ & -> & _). apply iterate_fixed, jacobi_iter_fixed; auto.
  Qed.

  Lemma relax_unchanged_main d0 b x chunk nthr : length d0 = dlen -> length b = N -> length x = N ->
    (1 <= chunk)%nat -> (1 <= nthr)%nat ->
    nok (ndo d := setup d0 in sgs_relax w n (relaxC d) 1 chunk nthr b x) (fun x' => x' = x) \/
    nok (ndo d := setup d0 in chaotic_relax w n (relaxC d) 1 chunk nthr b x) (fun x' => x' = x) \/
    (exists levels, levels_for n dep levels /\
        nok (ndo d := setup d0 in level_relax w (relaxC d) levels 1 nthr b x) (fun x' => x' = x)) \/
    (exists p xtemp, length xtemp = N /\ maxits p = 1%nat /\
        nok (ndo d := setup d0 in jacobi_relax ssqrt slt w n (relaxC d) p xtemp b x) (fun x' => x' = x)) ->
    is_prod N A x b.
  Proof.
    intros Hd0 Hb Hx Hc Hn.
    assert (forall d, good d -> steady w n (relaxC d) b x -> is_prod N A x b) as Hst.
    { intros d Hg. apply (relax_steady w n A (dinv d) (relaxC d) (g_inv d Hg) b x (g_relax d Hg) Hb Hx). }
    intros [H|[H|[(levels & Hl & H)|(p & xtemp & Hxt & Hp & H)]]].
    - destruct (nok_bind_inv _ _ _ _ H (Hset d0 Hd0)) as (d & Hg & Hk). apply (Hst d Hg).
      apply (sgs_relax_unchanged w n (relaxC d) dep (g_kr d Hg) Hself) with (chunk := chunk) (nthr := nthr); auto.
    - destruct (nok_bind_inv _ _ _ _ H (Hset d0 Hd0)) as (d & Hg & Hk). apply (Hst d Hg).
      apply (chaotic_relax_unchanged w n (relaxC d) dep (g_kr d Hg) Hself) with (chunk := chunk) (nthr := nthr); auto.
    - destruct (nok_bind_inv _ _ _ _ H (Hset d0 Hd0)) as (d & Hg & Hk). apply (Hst d Hg).
      apply (level_relax_unchanged w n (relaxC d) dep (g_kr d Hg) Hself) with (levels := levels) (nthr := nthr); auto.
    - destruct H as [[o Ho] H]. specialize (H o Ho).
      destruct (jacobi_main p d0 xtemp b x Hd0 Hxt Hb Hx) as [_ Hj]. specialize (Hj o Ho).
      destruct o as [x'| | |]; simpl in H, Hj; try tauto. subst x'. destruct Hj as (m & Hm & Hxm & Hc1 & Hc2).
      assert (m = 1%nat) as ->.
      { destruct (ctol p); [|rewrite Hc1; auto]. destruct (Hc2 eq_refl) as [_ Hc3].
        destruct (decide (m = 1%nat)); [auto|]. assert (m < maxits p)%nat as Hlt' by lia. apply Hc3 in Hlt'. lia. }
      apply jacobi_iter_fixed; auto.
  Qed.
End Main.

Section RingLaws.
  Context {F : Type} {O : SOps F} {R : CRing F}.
  Add Ring Fr2 : cring.
  Open Scope s_scope.
  Lemma smul_0_l (x : F) : s0 * x = s0. Proof. ring. Qed.
  Lemma smul_0_r (x : F) : x * s0 = s0. Proof. ring. Qed.
  Lemma smul_1_l (x : F) : s1 * x = x. Proof. ring. Qed.
  Lemma smul_1_r (x : F) : x * s1 = x. Proof. ring. Qed.
  Lemma smul_comm (x y : F) : x * y = y * x. Proof. ring. Qed.
  Lemma smul_assoc (x y z : F) : x * (y * z) = x * y * z. Proof. ring. Qed.
  Lemma sadd_0_l (x : F) : s0 + x = x. Proof. ring. Qed.
  Lemma sadd_0_r (x : F) : x + s0 = x. Proof. ring. Qed.
End RingLaws.

(** ** The scalar and block preconditioners *)
Section Instances.
  Context {F : Type} {O : SOps F}.
  Implicit Type M : srmat F.

  Lemma scalar_good {R : Field F} M : wf_mat M -> length (vals M) = nnz M ->
    (forall i, i < nbrows M -> dense M i i <> s0) ->
    forall d0, length d0 = nbrows M ->
    nok (jacobi_setup M d0) (good 1 (nbrows M) (dense M) sdinv (scalar_fgsC M) (scalar_bgsC M) (scalar_relaxC M)
      (lowdep M) (updep M) (offdep M)).
  Proof.
    intros (Hw & Hd & Hs) Hl Hnz d0 Hd0. eapply nok_mono; [apply jacobi_setup_spec; auto|].
    intros d ->. set (d := _ <$> _).
    assert (length d = nbrows M) as Hdl by (unfold d; rewrite fmap_length, seq_length; reflexivity).
    constructor.
    - intros i Hi. assert (sdinv d i 0 0 * dense M i i = s1)%s as E.
      { unfold sdinv, d. rewrite vat_fmap_seq by done.
        rewrite <- (entry_diag M (vals M) Hd Hs i Hi). apply field_div. apply Hnz. exact Hi. }
      intros p q Hp Hq. assert (p = 0) as -> by lia. assert (q = 0) as -> by lia.
      unfold mprod, ident, dblock. rewrite decide_True by done. cbn [bsum]. rewrite Nat.mul_1_r, Nat.add_0_r.
     
      split.
      + rewrite E. apply sadd_0_l.
      + rewrite (smul_comm (dense M i i)), E. apply sadd_0_l.
    - apply scalar_fgs_form; auto.
    - apply scalar_bgs_form; auto.
    - apply scalar_relax_form; auto.
    - intros z i Hz Hi. apply scalar_fgsC_ok; auto.
    - intros z i Hz Hi. apply scalar_bgsC_ok; auto.
    - intros z i Hz Hi. apply scalar_relaxC_ok; auto.
  Qed.
  Lemma scalar_bdiag_inverse {R : Field F} (A : nat -> nat -> F) n : (forall i, i < n -> A i i <> s0) ->
    is_inverse (n * 1) (bdiag 1 A) (diag_inv A).
  Proof.
    intros Hnz i j Hi Hj. rewrite Nat.mul_1_r in *.
    pose proof (field_div s1 (A i i) (Hnz i Hi)) as E.
    assert (forall k, k < n -> k <> i -> bdiag 1 A i k = s0 /\ diag_inv A i k = s0) as Hoff.
    { intros k Hk Hne. unfold bdiag, diag_inv. rewrite !Nat.div_1_r. rewrite !decide_False by auto. auto. }
    assert (bdiag 1 A i i = A i i /\ diag_inv A i i = (s1 / A i i)%s) as [E1 E2].
    { unfold bdiag, diag_inv. rewrite !decide_True by done. auto. }
    unfold mprod. rewrite !(bsum_single n i); [|exact Hi| |exact Hi|].
    2: { intros k Hk Hne. rewrite (proj2 (Hoff k Hk Hne)). apply smul_0_l. }
    2: { intros k Hk Hne. rewrite (proj1 (Hoff k Hk Hne)). apply smul_0_l. }
    rewrite E1, E2. unfold ident. destruct (decide (i = j)) as [<-|Hne].
    - rewrite E1, E2. split; [rewrite smul_comm|]; exact E.
    - destruct (Hoff j Hj) as [-> ->]; [auto|]. split; rewrite smul_comm; apply smul_0_l.
  Qed.

  Lemma block_good {R : CRing F} so bs inv M E : wf_mat M -> 1 <= bs -> length (vals M) = nnz M * (bs * bs) ->
    inverse_oracle so bs inv -> is_inverse (nbrows M * bs) (bdiag bs (bdense so bs M)) E ->
    forall d0, length d0 = nbrows M * (bs * bs) ->
    nok (bjacobi_setup inv bs M d0) (good bs (nbrows M) (bdense so bs M) (bdinv so bs)
      (block_fgsC so bs M) (block_bgsC so bs M) (block_relaxC so bs M) (lowdep M) (updep M) (offdep M)).
  Proof.
    intros (Hw & Hd & Hs) Hbs Hl Hor HE d0 Hd0. eapply nok_mono; [apply bjacobi_setup_spec; eauto|].
    intros d [Hdl Hinv]. constructor.
    - intros i Hi.
      assert (forall p q, p < bs -> q < bs -> dblock bs (bdense so bs M) i p q = bent so bs (vals M) (dg M i) p q) as Eq.
      { intros p0 q0 Hp0 Hq0. unfold dblock. change (bdense so bs M) with (bentry so bs M (vals M)). rewrite bentry_flat by done.
        rewrite (pos_diag M i (sorted_nodup M Hs) Hd Hi). reflexivity. }
      assert (forall X X' Y, (forall p q, p < bs -> q < bs -> X p q = X' p q) -> is_inverse bs X Y -> is_inverse bs X' Y) as Hext.
      { intros X X' Y HX HI p q Hp Hq. destruct (HI p q Hp Hq) as [I1 I2]. unfold mprod in *. split.
        - rewrite <- I1. apply bsum_ext. intros k Hk. rewrite HX; auto.
        - rewrite <- I2. apply bsum_ext. intros k Hk. rewrite HX; auto. }
      apply is_inverse_sym. apply (Hext (bent so bs (vals M) (dg M i))); [intros; symmetry; auto|].
      apply (Hinv i Hi (dblock bs E i)). apply (Hext (dblock bs (bdense so bs M) i)); [auto|].
      apply (inverse_blocks bs (nbrows M) (bdense so bs M) E i); auto.
    - apply block_fgs_form; auto.
    - apply block_bgs_form; auto.
    - apply block_relax_form; auto.
    - intros z i Hz Hi. apply block_fgsC_ok; auto.
    - intros z i Hz Hi. apply block_bgsC_ok; auto.
    - intros z i Hz Hi. apply block_relaxC_ok; auto.
  Qed.
  Lemma mat_deps M : wf_mat M -> (forall i c, i < nbrows M -> lowdep M i c -> c < i) /\
    (forall i c, i < nbrows M -> updep M i c -> i < c) /\ (forall i, i < nbrows M -> ~ offdep M i i).
  Proof.
    intros (Hw & Hd & Hs). split; [intros i c; apply lowdep_lt; auto|].
    assert (forall i c, i < nbrows M -> updep M i c -> i < c) as Hu.
    { intros i c Hi H. apply (updep_lt M i c Hw Hd Hs Hi H). }
    split; [exact Hu|]. intros i Hi [H|H].
    - apply lowdep_lt in H; auto. lia.
    - apply Hu in H; auto. lia.
  Qed.
  Lemma mat_levels M levels : wf_mat M -> valid_levels M levels ->
    levels_for (nbrows M) (lowdep M) levels /\ levels_for (nbrows M) (updep M) levels /\
    levels_for (nbrows M) (offdep M) levels.
  Proof.
    intros HM Hl. split; [|split]; (apply valid_levels_for; [exact Hl|]); intros i c Hi H.
    - apply lowdep_pos; auto.
    - apply updep_pos; auto.
    - destruct HM as (Hw & Hd & Hs). apply offdep_pos; auto.
  Qed.

  (** *** Jacobi application *)
  Lemma jacobi_apply_spec M d r z : length d = nbrows M -> length r = nbrows M -> length z = nbrows M ->
    nok (jacobi_apply M d r z) (fun z' => z' = (fun i => vat d i * vat r i)%s <$> seq 0 (nbrows M)).
  Proof.
    intros Hd Hr Hz. unfold jacobi_apply.
    apply (nok_par_for_map 0 (nbrows M) _ z (fun i => (vat d i * vat r i)%s)); [lia| |].
    - intros i s' Hi Hs' _. rewrite !vat_get by lia. simpl. apply set_Ok. lia.
    - intros z' H1 H2 _. apply list_eq_lt; [rewrite fmap_length, seq_length; lia|].
      intros i Hi. rewrite H2 by lia. rewrite list_lookup_fmap, lookup_seq_lt by lia. reflexivity.
  Qed.
  Lemma scalar_jacobi_main {R : Field F} M d0 r z : wf_mat M -> length (vals M) = nnz M ->
    (forall i, i < nbrows M -> dense M i i <> s0) -> length d0 = nbrows M -> length r = nbrows M -> length z = nbrows M ->
    nok (ndo d := jacobi_setup M d0 in jacobi_apply M d r z)
        (fun z' => length z' = nbrows M /\ forall i, i < nbrows M -> (dense M i i * vat z' i = vat r i)%s).
  Proof.
    intros (Hw & Hd & Hs) Hl Hnz Hd0 Hr Hz. eapply nok_bind; [apply jacobi_setup_spec; auto|]. intros d ->.
    eapply nok_mono; [apply jacobi_apply_spec; auto; rewrite fmap_length, seq_length; reflexivity|].
    intros z' ->. split; [rewrite fmap_length, seq_length; reflexivity|]. intros i Hi.
    rewrite !vat_fmap_seq by done.
    rewrite <- (entry_diag M (vals M) Hd Hs i Hi). change (entry M (vals M) i i) with (dense M i i).
    rewrite smul_assoc, (smul_comm (dense M i i)), field_div by auto. apply smul_1_l.
  Qed.
  Lemma block_jacobi_main {R : CRing F} so bs inv M E d0 r z : wf_mat M -> 1 <= bs ->
    length (vals M) = nnz M * (bs * bs) -> inverse_oracle so bs inv ->
    is_inverse (nbrows M * bs) (bdiag bs (bdense so bs M)) E ->
    length d0 = nbrows M * (bs * bs) -> length r = nbrows M * bs -> length z = nbrows M * bs ->
    nok (ndo d := bjacobi_setup inv bs M d0 in bjacobi_apply so bs M d r z)
        (fun z' => length z' = nbrows M * bs /\ is_prod (nbrows M * bs) (bdiag bs (bdense so bs M)) z' r).
  Proof.
    intros HM Hbs Hl Hor HE Hd0 Hr Hz.
    apply nok_bind with (P := fun d => length d = nbrows M * (bs * bs) /\
      forall i, i < nbrows M -> is_inverse bs (bdinv so bs d i) (dblock bs (bdense so bs M) i)).
    { destruct (block_good so bs inv M E HM Hbs Hl Hor HE d0 Hd0) as [Hne Hg].
      destruct HM as (Hw & Hd & Hs). destruct (bjacobi_setup_spec so bs inv M d0 Hw Hd Hl Hd0 Hor) as [_ Hlen].
      split; [exact Hne|]. intros o Ho. specialize (Hg o Ho). specialize (Hlen o Ho).
      destruct o; simpl in *; auto. split; [apply Hlen|]. intros i Hi. apply (g_inv _ _ _ _ _ _ _ _ _ _ _ Hg i Hi). }
    intros d [Hdl Hinv]. unfold bjacobi_apply.
    apply (nok_par_for_seg (nbrows M) bs _ z (fun i => (fun p => bsum bs (fun k => bent so bs d i p k * vat r (i * bs + k))%s) <$> seq 0 bs)).
    - exact Hz.
    - intros i Hi. rewrite fmap_length, seq_length. reflexivity.
    - intros i v' Hi Hv'. destruct (getseg_val bs r i) as (seg & -> & Hsl & Hsv); [nia|]. simpl.
      destruct (ok_bmatvec_val so bs d (i * (bs * bs)) seg) as (u & -> & Hul & Huv); [nia|auto|]. simpl. f_equal.
      apply vec_eq; [rewrite fmap_length, seq_length; exact Hul|]. intros p Hp. rewrite vat_fmap_seq by lia.
      rewrite Huv by lia. apply bsum_ext. intros k Hk. rewrite Hsv by done. reflexivity.
    - intros v' Hv' Hk. split; [exact Hv'|]. apply is_prod_flat. intros i p Hi Hp.
      rewrite (bdiag_row bs (nbrows M) (bdense so bs M) i p (fun J => vat v' J)) by done.
      apply (proj1 (solve_iff bs _ _ (fun p => vat v' (i * bs + p)) (fun k => vat r (i * bs + k)) (Hinv i Hi))); [|exact Hp].
      intros p' Hp'. apply vat_eq. rewrite Hk by done. rewrite list_lookup_fmap, lookup_seq_lt by done. reflexivity.
  Qed.
End Instances.
