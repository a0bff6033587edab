(** * GcrFacts: orthogonality of the directions of GCR, smallest residuals, number of directions *)
From Verif Require Import Base Alg Nd TriSpec TriFacts SymSpec SymFacts SolveSpec Solvers SolversFacts.
Open Scope nat_scope.

Section Gcr.
  Context {F : Type} {O : SOps F} {FF : Field F}.
  Add Ring Fr : (@cring F O field_ring).
  Variables (pos : F -> Prop) (N : nat) (A : nat -> nat -> F).
  Hypothesis Hpos : ordered pos.
  Open Scope s_scope.
  Notation mk f := (fmap (M:=list) (f : nat -> F) (seq 0 N)).
  Notation "⟨ u , v ⟩" := (dot N u v) (at level 0, u at level 99, v at level 99).
  Notation nonneg := (nonneg pos).

  (** ** inner products *)
  Lemma dot_sym (u v : list F) : ⟨u, v⟩ = ⟨v, u⟩.
  Proof. unfold dot. apply bsum_ext. intros i _. ring. Qed.
  Lemma dot_lin (u v w : list F) p c : ⟨mk (fun i => p * vat u i + c * vat v i), w⟩ = p * ⟨u, w⟩ + c * ⟨v, w⟩.
  Proof.
    unfold dot. rewrite <- !bsum_mul_l, <- bsum_add. apply bsum_ext. intros i Hi. rewrite (mk_at N _ i Hi). ring.
  Qed.
  Lemma dot_sum (w v : list F) (u : nat -> list F) (c : nat -> F) k :
    ⟨w, mk (fun i => vat v i + bsum k (fun l => c l * vat (u l) i))⟩ = ⟨w, v⟩ + bsum k (fun l => c l * ⟨w, u l⟩).
  Proof.
    unfold dot. transitivity (bsum N (fun i => vat w i * vat v i) + bsum N (fun i => bsum k (fun l => c l * (vat w i * vat (u l) i)))).
    - rewrite <- bsum_add. apply bsum_ext. intros i Hi. rewrite (mk_at N _ i Hi).
      transitivity (vat w i * vat v i + vat w i * bsum k (fun l => c l * vat (u l) i)); [ring|]. f_equal.
      rewrite <- bsum_mul_l. apply bsum_ext. intros l _. ring.
    - f_equal. rewrite bsum_swap. apply bsum_ext. intros l _. rewrite bsum_mul_l. reflexivity.
  Qed.
  Lemma dot_ext (u u' v v' : list F) : (forall i, (i < N)%nat -> vat u i = vat u' i) -> (forall i, (i < N)%nat -> vat v i = vat v' i) -> ⟨u, v⟩ = ⟨u', v'⟩.
  Proof. intros H1 H2. unfold dot. apply bsum_ext. intros i Hi. rewrite H1, H2 by exact Hi. reflexivity. Qed.
  Lemma sqnorm_nonneg (v : list F) : nonneg ⟨v, v⟩.
  Proof. unfold dot. apply nonneg_bsum; [exact Hpos|]. intros i _. apply square_nonneg, Hpos. Qed.
  Lemma sqnorm_pos (v : list F) : nonzero N v -> pos ⟨v, v⟩.
  Proof.
    intros (i & Hi & Hne). unfold dot. apply (pos_bsum _ Hpos N (fun i => vat v i * vat v i) i); [|exact Hi|apply pos_square; assumption].
    intros j _. apply square_nonneg, Hpos.
  Qed.
  Lemma pos_ne a : pos a -> a <> s0.
  Proof. intros H ->. exact (pos_zero _ Hpos H). Qed.
  Lemma zero_or_not (v : list F) : (forall i, (i < N)%nat -> vat v i = s0) \/ nonzero N v.
  Proof. apply (all_or_some _ Hpos N (fun i => vat v i)). Qed.
  Lemma dot_nonzero (u v : list F) : ⟨u, v⟩ <> s0 -> nonzero N v.
  Proof.
    intros H. destruct (zero_or_not v) as [H0|H1]; [|exact H1]. destruct H. unfold dot. apply bsum_zero. intros i Hi. rewrite H0 by exact Hi. ring.
  Qed.
  Lemma sqnorm_ne (v : list F) : nonzero N v -> ⟨v, v⟩ <> s0.
  Proof. intros H. apply pos_ne, sqnorm_pos, H. Qed.

  (** ** at most N nonzero vectors are orthogonal to each other *)
  Lemma field_cancel (a c : F) : c <> s0 -> a / c * c = a.
  Proof. apply field_div. Qed.
  Lemma ones_nonneg a b : nonneg (bsum a (fun _ => s1) - bsum b (fun _ => s1)) -> (b <= a)%nat.
  Proof.
    intros H. destruct (decide (b <= a)%nat) as [Hl|Hl]; [exact Hl|exfalso].
    assert (exists d, b = (a + S d)%nat) as [d ->] by (exists (b - a - 1)%nat; lia).
    assert (pos (bsum (S d) (fun _ => s1 : F))) as Hp.
    { assert (pos s1) as H1. { replace (s1 : F) with (s1 * s1 : F) by ring. apply pos_square; [exact Hpos|apply field_10]. }
      apply (pos_bsum _ Hpos (S d) _ 0); [intros; right; exact H1|lia|exact H1]. }
    rewrite (bsum_plus a (S d)) in H. cbv beta in H.
    replace (bsum a (fun _ => s1) - (bsum a (fun _ => s1) + bsum (S d) (fun _ => s1))) with (sopp (bsum (S d) (fun _ => s1 : F))) in H by ring.
    destruct H as [H|H].
    - apply (pos_ne _ Hp). transitivity (sopp (sopp (bsum (S d) (fun _ => s1 : F)))); [ring|]. rewrite H. ring.
    - apply (pos_zero _ Hpos). replace (s0 : F) with (bsum (S d) (fun _ => s1 : F) + sopp (bsum (S d) (fun _ => s1))) by ring. apply (pos_add _ Hpos); assumption.
  Qed.
  Lemma orth_count m (u : nat -> list F) :
    (forall l l', (l < m)%nat -> (l' < m)%nat -> l <> l' -> ⟨u l, u l'⟩ = s0) -> (forall l, (l < m)%nat -> ⟨u l, u l⟩ <> s0) -> (m <= N)%nat.
  Proof.
    intros Ho Hn. apply ones_nonneg.
    (* Bessel's inequality for the unit vectors *)
    set (cc := fun i l => vat (u l) i / ⟨u l, u l⟩).
    assert (forall i, (i < N)%nat -> nonneg (s1 - bsum m (fun l => cc i l * vat (u l) i))) as Hb.
    { intros i Hi. set (e := mk (fun j => ident i j)). set (w := mk (fun j => vat e j + bsum m (fun l => sopp (cc i l) * vat (u l) j))).
      assert (forall v : list F, ⟨e, v⟩ = vat v i) as He.
      { intros v. unfold dot. rewrite (bsum_single N i (fun j => vat e j * vat v j)); [|exact Hi|].
        - unfold e. rewrite (mk_at N _ i Hi). unfold ident. rewrite decide_True by reflexivity. ring.
        - intros j Hj Hne. unfold e. rewrite (mk_at N _ j Hj). unfold ident. rewrite decide_False by auto. ring. }
      assert (forall l, (l < m)%nat -> ⟨w, u l⟩ = s0) as Hw.
      { intros l Hl. rewrite dot_sym. unfold w. rewrite dot_sum.
        rewrite (bsum_single m l (fun l0 => sopp (cc i l0) * ⟨u l, u l0⟩)); [|exact Hl|].
        - rewrite dot_sym, He. unfold cc. transitivity (vat (u l) i - vat (u l) i / ⟨u l, u l⟩ * ⟨u l, u l⟩); [ring|].
          rewrite field_cancel by (apply Hn, Hl). ring.
        - intros l' Hl' Hne. rewrite Ho by auto. ring. }
      replace (s1 - bsum m (fun l => cc i l * vat (u l) i)) with ⟨w, w⟩; [apply sqnorm_nonneg|].
      unfold w at 2. rewrite dot_sum. rewrite (bsum_zero m (fun l => sopp (cc i l) * ⟨w, u l⟩)) by (intros l Hl; rewrite Hw by exact Hl; ring).
      rewrite dot_sym, He. unfold w. rewrite (mk_at N _ i Hi). unfold e. rewrite (mk_at N _ i Hi). unfold ident. rewrite decide_True by reflexivity.
      transitivity (s1 + bsum m (fun l => sopp (cc i l) * vat (u l) i)); [ring|].
      transitivity (s1 + sopp s1 * bsum m (fun l => cc i l * vat (u l) i)); [|ring].
      rewrite <- bsum_mul_l. f_equal. apply bsum_ext. intros l _. ring. }
    apply (nonneg_bsum _ Hpos) in Hb. rewrite bsum_sub in Hb. rewrite bsum_swap in Hb.
    rewrite (bsum_ext m _ (fun _ => s1)) in Hb; [exact Hb|].
    intros l Hl. unfold cc.
    assert (bsum N (fun i => vat (u l) i / ⟨u l, u l⟩ * vat (u l) i) * ⟨u l, u l⟩ = s1 * ⟨u l, u l⟩) as E.
    { rewrite <- bsum_mul_r. replace (s1 * ⟨u l, u l⟩) with ⟨u l, u l⟩ by ring. unfold dot at 3. apply bsum_ext. intros i _.
      transitivity (vat (u l) i / ⟨u l, u l⟩ * ⟨u l, u l⟩ * vat (u l) i); [ring|]. rewrite field_cancel by (apply Hn, Hl). reflexivity. }
    assert (forall a : F, a = a * ⟨u l, u l⟩ * (s1 / ⟨u l, u l⟩)) as Hc.
    { intros a. transitivity (a * (s1 / ⟨u l, u l⟩ * ⟨u l, u l⟩)); [|ring]. rewrite field_cancel by (apply Hn, Hl). ring. }
    rewrite (Hc (bsum N _)), E, <- Hc. reflexivity.
  Qed.

  (** ** spans *)
  Definition inspan (zs : list (list F)) (v : list F) : Prop :=
    exists c : nat -> F, forall i, (i < N)%nat -> vat v i = bsum (length zs) (fun j => c j * vat (default [] (zs !! j)) i).
  Lemma inspan_app zs z v : inspan zs v -> inspan (zs ++ [z]) v.
  Proof.
    intros [c H]. exists (fun j => if decide (j < length zs)%nat then c j else s0). intros i Hi. rewrite H by exact Hi.
    rewrite app_length. simpl length. replace (length zs + 1)%nat with (S (length zs)) by lia. cbn [bsum].
    rewrite decide_False by lia. transitivity (bsum (length zs) (fun j => c j * vat (default [] (zs !! j)) i) + s0); [ring|]. f_equal; [|ring].
    apply bsum_ext. intros j Hj. rewrite decide_True by exact Hj. rewrite lookup_app_l by exact Hj. reflexivity.
  Qed.
  Lemma inspan_last zs z : inspan (zs ++ [z]) z.
  Proof.
    exists (fun j => if decide (j = length zs) then s1 else s0). intros i Hi. rewrite app_length. simpl length.
    replace (length zs + 1)%nat with (S (length zs)) by lia. cbn [bsum]. rewrite decide_True by reflexivity.
    rewrite bsum_zero by (intros j Hj; rewrite decide_False by lia; ring).
    rewrite lookup_app_r by lia. rewrite Nat.sub_diag. simpl. ring.
  Qed.
  Lemma inspan_lin zs p v c w u : inspan zs v -> inspan zs w -> (forall i, (i < N)%nat -> vat u i = p * vat v i + c * vat w i) -> inspan zs u.
  Proof.
    intros [cv Hv] [cw Hw] Hu. exists (fun j => p * cv j + c * cw j). intros i Hi. rewrite Hu by exact Hi. rewrite Hv, Hw by exact Hi.
    rewrite <- !bsum_mul_l, <- bsum_add. apply bsum_ext. intros j _. ring.
  Qed.
  Lemma inspan_sum zs v (ps : nat -> list F) (c : nat -> F) k u : inspan zs v -> (forall l, (l < k)%nat -> inspan zs (ps l)) ->
    (forall i, (i < N)%nat -> vat u i = vat v i + bsum k (fun l => c l * vat (ps l) i)) -> inspan zs u.
  Proof.
    revert u. induction k as [|k IH]; intros u Hv Hp Hu.
    - destruct Hv as [cv Hv]. exists cv. intros i Hi. rewrite Hu by exact Hi. rewrite <- Hv by exact Hi. simpl. ring.
    - apply (inspan_lin zs s1 (mk (fun i => vat v i + bsum k (fun l => c l * vat (ps l) i))) (c k) (ps k)).
      + apply IH; [exact Hv|intros; apply Hp; lia|]. intros i Hi. rewrite (mk_at N _ i Hi). reflexivity.
      + apply Hp. lia.
      + intros i Hi. rewrite (mk_at N _ i Hi), Hu by exact Hi. cbn [bsum]. ring.
  Qed.
  Lemma span_orth zs v r : inspan zs v -> (forall z, z ∈ zs -> ⟨r, times N A z⟩ = s0) -> ⟨r, times N A v⟩ = s0.
  Proof.
    intros [c Hc] Hz.
    transitivity (bsum (length zs) (fun j => c j * ⟨r, times N A (default [] (zs !! j))⟩)).
    - unfold dot. transitivity (bsum N (fun i => bsum (length zs) (fun j => c j * (vat r i * vat (times N A (default [] (zs !! j))) i)))).
      + apply bsum_ext. intros i Hi.
        transitivity (vat r i * bsum (length zs) (fun j => c j * vat (times N A (default [] (zs !! j))) i)).
        * f_equal. rewrite times_at by exact Hi.
          transitivity (bsum N (fun k => bsum (length zs) (fun j => c j * (A i k * vat (default [] (zs !! j)) k)))).
          -- apply bsum_ext. intros k Hk. rewrite Hc by exact Hk. rewrite <- bsum_mul_l. apply bsum_ext. intros j _. ring.
          -- rewrite bsum_swap. apply bsum_ext. intros j _. rewrite bsum_mul_l. rewrite times_at by exact Hi. reflexivity.
        * rewrite <- bsum_mul_l. apply bsum_ext. intros j _. ring.
      + rewrite bsum_swap. apply bsum_ext. intros j _. rewrite bsum_mul_l. reflexivity.
    - apply bsum_zero. intros j Hj. destruct (lookup_lt_is_Some_2 zs j Hj) as [z Ez]. rewrite Ez. simpl. rewrite Hz by (eapply elem_of_list_lookup_2; exact Ez). ring.
  Qed.
  Lemma along_span xc c zs : inspan zs (mk (fun i => vat (along N xc c zs) i - vat xc i)).
  Proof.
    exists (fun j => vat c j). intros i Hi. rewrite (mk_at N _ i Hi). unfold along. rewrite (mk_at N _ i Hi). ring.
  Qed.
  Lemma span_along xc zs x : length x = N -> inspan zs (mk (fun i => vat x i - vat xc i)) -> exists c, x = along N xc c zs.
  Proof.
    intros L [c H]. exists ((fun j => c j) <$> seq 0 (length zs)). unfold along. apply mk_eq; [exact L|]. intros i Hi.
    specialize (H i Hi). rewrite (mk_at N _ i Hi) in H. transitivity (vat xc i + (vat x i - vat xc i)); [ring|]. f_equal. rewrite H.
    apply bsum_ext. intros j Hj. rewrite vat_fmap_seq by exact Hj. reflexivity.
  Qed.
  (** a vector whose residual is orthogonal to all A z is the best one *)
  Lemma best_intro b xc zs x : length x = N -> inspan zs (mk (fun i => vat x i - vat xc i)) ->
    (forall z, z ∈ zs -> ⟨resid N A b x, times N A z⟩ = s0) -> best pos N A b xc zs x.
  Proof.
    intros L Hs Hz. split; [apply span_along; assumption|]. intros c. set (y := along N xc c zs). unfold sqnorm.
    set (d := mk (fun i => s1 * vat y i + sopp s1 * vat x i)).
    assert (inspan zs d) as Hd.
    { apply (inspan_lin zs s1 (mk (fun i => vat y i - vat xc i)) (sopp s1) (mk (fun i => vat x i - vat xc i))); [apply along_span|exact Hs|].
      intros i Hi. unfold d. rewrite !(mk_at N _ i Hi). ring. }
    assert (resid N A b y = mk (fun i => s1 * vat (resid N A b x) i + sopp s1 * vat (times N A d) i)) as Ey.
    { apply mk_eq; [apply resid_length|]. intros i Hi. rewrite !resid_at by exact Hi. unfold d. rewrite times_lin by exact Hi. ring. }
    pose proof (span_orth zs d (resid N A b x) Hd Hz) as Ho.
    assert (⟨resid N A b y, resid N A b y⟩ = ⟨resid N A b x, resid N A b x⟩ + ⟨times N A d, times N A d⟩) as E.
    { rewrite Ey. rewrite dot_lin. rewrite (dot_sym (resid N A b x)), (dot_sym (times N A d)), !dot_lin. rewrite (dot_sym (times N A d)), Ho. ring. }
    rewrite E. destruct (sqnorm_nonneg (times N A d)) as [Hd0|Hdp].
    - left. rewrite Hd0. ring.
    - right. replace (⟨resid N A b x, resid N A b x⟩ + ⟨times N A d, times N A d⟩ - ⟨resid N A b x, resid N A b x⟩) with ⟨times N A d, times N A d⟩ by ring. exact Hdp.
  Qed.

  (** ** the invariant *)
  Variables (answers : list F -> list F -> Prop) (b : list F) (nrestart : nat).
  Hypothesis Hansw : forall s z, length s = N -> nonzero N s -> answers s z -> ⟨s, times N A z⟩ <> s0.
  Notation P s l := (default [] (gp s !! l)).
  Notation Q s l := (default [] (gq s !! l)).
  Notation "x ≺ y" := (pos (sqnorm N (resid N A b y) - sqnorm N (resid N A b x))) (at level 70).
  Record dirs (k : nat) (s : @gstate F) (zs : list (list F)) : Prop := {
    d_len : length zs = k;
    d_span : forall l, (l < k)%nat -> inspan zs (P s l);
    d_back : forall v, (forall l, (l < k)%nat -> ⟨v, Q s l⟩ = s0) -> forall z, z ∈ zs -> ⟨v, times N A z⟩ = s0;
    d_orth : forall l m, (l < k)%nat -> (m < k)%nat -> l <> m -> ⟨Q s l, Q s m⟩ = s0;
    d_ne : forall l, (l < k)%nat -> ⟨Q s l, Q s l⟩ <> s0 }.
  Definition Pre (xc : list F) (k : nat) (s : @gstate F) : Prop :=
    gs_inv N A nrestart b (k + 1) s /\ length xc = N /\ exists zs z, dirs (k + 1) s (zs ++ [z]) /\ fgmres pos N A answers b xc zs (gx s) /\
      answers (resid N A b (gx s)) z /\ (forall l, (l < k)%nat -> ⟨gres s, Q s l⟩ = s0) /\ ⟨gres s, Q s k⟩ <> s0 /\
      (k = 0%nat /\ gx s = xc \/ gx s ≺ xc).
  Definition Post (xc : list F) (k : nat) (s : @gstate F) : Prop :=
    gs_inv N A nrestart b (k + 1) s /\ length xc = N /\ exists zs, dirs (k + 1) s zs /\ fgmres pos N A answers b xc zs (gx s) /\
      (forall l, (l < k + 1)%nat -> ⟨gres s, Q s l⟩ = s0) /\ gx s ≺ xc.
  Lemma fgmres_span xc zs x : length xc = N -> fgmres pos N A answers b xc zs x -> length x = N /\ inspan zs (mk (fun i => vat x i - vat xc i)).
  Proof.
    intros L H. inversion H as [|zs0 x1 z x2 H1 H2 [[c ->] _]]; subst.
    - split; [exact L|]. exists (fun _ => s0). intros i Hi. rewrite (mk_at N _ i Hi). simpl. ring.
    - split; [unfold along; apply mk_length|]. apply along_span.
  Qed.
  Lemma Pre_Post xc k s : (k < nrestart)%nat -> Pre xc k s -> Post xc k (update_state N k s).
  Proof.
    intros Hk (Hi & Lxc & zs & z & Hd & Hf & Hz & Hr & Hrk & Hx). pose proof (update_inv N A nrestart b k s Hi Hk) as Hi'.
    split; [exact Hi'|]. split; [exact Lxc|]. exists (zs ++ [z]).
    assert (gres (update_state N k s) = mk (fun i => s1 * vat (gres s) i + sopp (acoef N k s) * vat (Q s k) i)) as Er by reflexivity.
    assert (acoef N k s * ⟨Q s k, Q s k⟩ = ⟨gres s, Q s k⟩) as Ea by (apply field_div, (d_ne _ _ _ Hd); lia).
    assert (forall l, (l < k + 1)%nat -> ⟨gres (update_state N k s), Q s l⟩ = s0) as Hr'.
    { intros l Hl. rewrite Er, dot_lin. destruct (decide (l = k)) as [->|Hne].
      - transitivity (⟨gres s, Q s k⟩ - acoef N k s * ⟨Q s k, Q s k⟩); [ring|]. rewrite Ea. ring.
      - rewrite Hr by lia. rewrite (d_orth _ _ _ Hd k l) by lia. ring. }
    assert (gres (update_state N k s) = resid N A b (gx (update_state N k s))) as Eres by apply Hi'.
    assert (gx (update_state N k s) ≺ gx s) as Hdec.
    { rewrite <- Eres. destruct Hi as (_ & Eg & _). rewrite <- Eg. unfold sqnorm.
      assert (⟨gres (update_state N k s), gres (update_state N k s)⟩ = ⟨gres s, gres s⟩ - acoef N k s * ⟨gres s, Q s k⟩) as E.
      { rewrite Er at 2. rewrite dot_sym, dot_lin. rewrite (dot_sym (Q s k)), (Hr' k) by lia. rewrite (dot_sym (gres s)). rewrite Er, dot_lin. rewrite (dot_sym (Q s k)). ring. }
      rewrite E. replace (⟨gres s, gres s⟩ - (⟨gres s, gres s⟩ - acoef N k s * ⟨gres s, Q s k⟩)) with (acoef N k s * ⟨gres s, Q s k⟩) by ring.
      rewrite <- Ea. replace (acoef N k s * (acoef N k s * ⟨Q s k, Q s k⟩)) with (acoef N k s * acoef N k s * ⟨Q s k, Q s k⟩) by ring.
      apply (pos_mul _ Hpos).
      - apply pos_square; [exact Hpos|]. intros E0. rewrite E0 in Ea. apply Hrk. rewrite <- Ea. ring.
      - apply sqnorm_pos. apply (dot_nonzero (Q s k)), (d_ne _ _ _ Hd). lia. }
    split; [|split; [|split]].
    - destruct Hd. constructor; assumption.
    - econstructor; [exact Hf|exact Hz|].
      destruct (fgmres_span _ _ _ Lxc Hf) as [Lx Hs]. apply best_intro.
      + apply Hi'.
      + apply (inspan_lin _ s1 (mk (fun i => vat (gx s) i - vat xc i)) (acoef N k s) (P s k)); [apply inspan_app, Hs|apply (d_span _ _ _ Hd); lia|].
        intros i Hi0. rewrite !(mk_at N _ i Hi0). unfold update_state. cbn [gx]. rewrite (mk_at N _ i Hi0). ring.
      + rewrite <- Eres. apply (d_back _ _ _ Hd). exact Hr'.
    - exact Hr'.
    - destruct Hx as [[-> <-]|Hx]; [exact Hdec|].
      replace (sqnorm N (resid N A b xc) - sqnorm N (resid N A b (gx (update_state N k s)))) with
        ((sqnorm N (resid N A b xc) - sqnorm N (resid N A b (gx s))) + (sqnorm N (resid N A b (gx s)) - sqnorm N (resid N A b (gx (update_state N k s))))) by ring.
      apply (pos_add _ Hpos); assumption.
  Qed.
  Lemma Post_Pre xc k s z beta : (k + 1 < nrestart)%nat -> Post xc k s -> nonzero N (gres s) -> length z = N -> answers (resid N A b (gx s)) z ->
    length beta = (nrestart + 1)%nat -> Pre xc (k + 1) (next_state N A k s z beta).
  Proof.
    intros Hk (Hi & Lxc & zs & Hd & Hf & Hr & Hx) Hnz Lz Hz Lbe. pose proof (next_inv N A nrestart b k s z beta Hi Hk Lz Lbe) as Hi'.
    split; [exact Hi'|]. split; [exact Lxc|]. exists zs, z.
    assert (length (gp s) = nrestart /\ length (gq s) = nrestart) as [Lp Lq] by (destruct Hi as ((_ & _ & _ & H1 & H2 & _) & _); auto).
    set (s' := next_state N A k s z beta) in *.
    assert (forall l, (l < k + 1)%nat -> P s' l = P s l /\ Q s' l = Q s l) as Hold.
    { intros l Hl. unfold s', next_state. cbn [gp gq]. rewrite !list_lookup_insert_ne by lia. auto. }
    assert (P s' (k + 1)%nat = mk (fun i => vat z i + bsum (k + 1) (fun l => bcoef N s (times N A z) l * vat (P s l) i))) as Ep
      by (unfold s', next_state; cbn [gp]; rewrite list_lookup_insert by lia; reflexivity).
    assert (Q s' (k + 1)%nat = mk (fun i => vat (times N A z) i + bsum (k + 1) (fun l => bcoef N s (times N A z) l * vat (Q s l) i))) as Eq
      by (unfold s', next_state; cbn [gq]; rewrite list_lookup_insert by lia; reflexivity).
    assert (forall v, (forall l, (l < k + 1)%nat -> ⟨v, Q s l⟩ = s0) -> ⟨v, Q s' (k + 1)%nat⟩ = ⟨v, times N A z⟩) as Hperp.
    { intros v Hv. rewrite Eq, (dot_sum v _ (fun l => Q s l)). rewrite bsum_zero by (intros l Hl; rewrite Hv by exact Hl; ring). ring. }
    assert (⟨gres s', Q s' (k + 1)%nat⟩ <> s0) as Hrk.
    { change (gres s') with (gres s). rewrite Hperp by exact Hr. destruct Hi as ((_ & _ & _ & _ & _ & _ & _ & Lr) & Er & _).
      rewrite <- Er in Hz. apply Hansw; assumption. }
    assert (forall m, (m < k + 1)%nat -> ⟨Q s' (k + 1)%nat, Q s m⟩ = s0) as Hnew.
    { intros m Hm. rewrite dot_sym, Eq, (dot_sum (Q s m) _ (fun l => Q s l)).
      rewrite (bsum_single (k + 1) m (fun l => bcoef N s (times N A z) l * ⟨Q s m, Q s l⟩)).
      - unfold bcoef. rewrite field_div by (apply (d_ne _ _ _ Hd); exact Hm). rewrite (dot_sym (Q s m)). ring.
      - exact Hm.
      - intros l Hl Hne. rewrite (d_orth _ _ _ Hd m l) by auto. ring. }
    split; [|split; [exact Hf|split; [exact Hz|split; [|split; [exact Hrk|right; exact Hx]]]]].
    - constructor.
      + rewrite app_length, (d_len _ _ _ Hd). reflexivity.
      + intros l Hl. destruct (decide (l = (k + 1)%nat)) as [->|Hne].
        * rewrite Ep. eapply (inspan_sum (zs ++ [z]) z (fun l => P s l) _ (k + 1)); [apply inspan_last| |intros i Hi0; rewrite (mk_at N _ i Hi0); reflexivity].
          intros m Hm. apply inspan_app, (d_span _ _ _ Hd). exact Hm.
        * destruct (Hold l ltac:(lia)) as [-> _]. apply inspan_app, (d_span _ _ _ Hd). lia.
      + intros v Hv. assert (forall l, (l < k + 1)%nat -> ⟨v, Q s l⟩ = s0) as Hv' by (intros l Hl; destruct (Hold l Hl) as [_ <-]; apply Hv; lia).
        intros z' Hin. apply elem_of_app in Hin as [Hin|Hin]; [apply (d_back _ _ _ Hd v Hv'); exact Hin|].
        apply elem_of_list_singleton in Hin as ->. rewrite <- Hperp by exact Hv'. apply Hv. lia.
      + intros l m Hl Hm Hne. destruct (decide (l = (k + 1)%nat)) as [->|Hl1].
        * destruct (Hold m ltac:(lia)) as [_ ->]. apply Hnew. lia.
        * destruct (decide (m = (k + 1)%nat)) as [->|Hm1].
          -- destruct (Hold l ltac:(lia)) as [_ ->]. rewrite dot_sym. apply Hnew. lia.
          -- destruct (Hold m ltac:(lia)) as [_ ->]. destruct (Hold l ltac:(lia)) as [_ ->]. apply (d_orth _ _ _ Hd); lia.
      + intros l Hl. destruct (decide (l = (k + 1)%nat)) as [->|Hl1].
        * apply sqnorm_ne. apply (dot_nonzero (gres s')). exact Hrk.
        * destruct (Hold l ltac:(lia)) as [_ ->]. apply (d_ne _ _ _ Hd). lia.
    - intros l Hl. destruct (Hold l Hl) as [_ ->]. apply Hr, Hl.
  Qed.
  Lemma Start_Pre s p0 : gs_good N nrestart b s -> (0 < nrestart)%nat -> nonzero N (resid N A b (gx s)) -> length p0 = N ->
    answers (resid N A b (gx s)) p0 -> Pre (gx s) 0 (start_state N A b p0 s).
  Proof.
    intros Hg Hn Hnz L0 H0. pose proof (start_inv N A nrestart b s p0 Hg Hn L0) as Hi. split; [exact Hi|]. split; [apply Hg|].
    assert (P (start_state N A b p0 s) 0 = p0 /\ Q (start_state N A b p0 s) 0 = times N A p0) as [Ep Eq].
    { destruct Hg as (_ & _ & _ & Lp & Lq & _). unfold start_state. cbn [gp gq]. rewrite !list_lookup_insert by lia. auto. }
    assert (⟨resid N A b (gx s), times N A p0⟩ <> s0) as Hne by (apply Hansw; auto using resid_length).
    exists [], p0. split; [|split; [constructor|split; [exact H0|split; [intros; lia|split; [rewrite Eq; exact Hne|left; auto]]]]].
    constructor.
    - reflexivity.
    - intros l Hl. assert (l = 0%nat) as -> by lia. rewrite Ep. apply (inspan_last [] p0).
    - intros v Hv z Hz. apply elem_of_list_singleton in Hz as ->. rewrite <- Eq. apply Hv. lia.
    - intros l m Hl Hm Hlm. lia.
    - intros l Hl. assert (l = 0%nat) as -> by lia. rewrite Eq. apply sqnorm_ne. apply (dot_nonzero (resid N A b (gx s))), Hne.
  Qed.
  (** the directions, and the residual if it is not zero *)
  Lemma Post_count xc k s : Post xc k s -> (k + 1 <= N)%nat /\ (nonzero N (gres s) -> (k + 2 <= N)%nat).
  Proof.
    intros (_ & _ & zs & Hd & _ & Hr & _). split.
    - apply (orth_count (k + 1) (fun l => Q s l)); [apply (d_orth _ _ _ Hd)|apply (d_ne _ _ _ Hd)].
    - intros Hnz. apply (orth_count (k + 2) (fun l => if decide (l = (k + 1)%nat) then gres s else Q s l)).
      + intros l m Hl Hm Hne. destruct (decide (l = (k + 1)%nat)), (decide (m = (k + 1)%nat)); try lia.
        * apply Hr. lia.
        * rewrite dot_sym. apply Hr. lia.
        * apply (d_orth _ _ _ Hd); lia.
      + intros l Hl. destruct (decide (l = (k + 1)%nat)); [apply sqnorm_ne, Hnz|apply (d_ne _ _ _ Hd); lia].
  Qed.
End Gcr.
