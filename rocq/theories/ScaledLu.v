(** * ScaledLu: the incomplete factors of a scaled matrix are the scaled incomplete factors *)
From Verif Require Import Base Alg SRMatrix Kernels KernelFacts IluApply IluApplyFacts TriSpec TriFacts IluApplyProofs IluApplyMain SgsMain IluFactorProofs PropIluFactor.
Open Scope nat_scope.

Section ScaledLu.
  Context {F : Type} {O : SOps F} {R : Field F}.
  Add Ring Fr : cring.
  Open Scope s_scope.

  (** ** Systems *)
  Lemma scaled_solution N (P P' : nat -> nat -> F) (s z0 r : list F) :
    length s = N -> length z0 = N -> length r = N -> (forall i, (i < N)%nat -> vat s i <> s0) ->
    (forall i j, (i < N)%nat -> (j < N)%nat -> P' i j = vat s i * P i j * vat s j) -> is_prod N P z0 r ->
    exists x, length x = N /\ is_prod N P' x (scaled_rhs (Some s) r) /\ scaled_sol (Some s) x = z0.
  Proof.
    intros Hs Hz Hr Hnz HP H. exists (zip_with sdiv z0 s). split; [rewrite zip_with_length; lia|].
    assert (forall (f : F -> F -> F) (a b : list F) i, length a = N -> length b = N -> (i < N)%nat -> vat (zip_with f a b) i = f (vat a i) (vat b i)) as Hzip.
    { intros f a b i Ha Hb Hi. apply vat_eq. rewrite lookup_zip_with.
      rewrite (vat_Some a i), (vat_Some b i) by lia. reflexivity. }
    split.
    - intros i Hi. cbn [scaled_rhs]. rewrite Hzip by done. rewrite <- (H i Hi), <- bsum_mul_l. apply bsum_ext. intros j Hj.
      rewrite HP, Hzip by done. pose proof (field_div (vat z0 j) (vat s j) (Hnz j Hj)) as E.
      transitivity (vat s i * P i j * (vat z0 j / vat s j * vat s j)); [ring|]. rewrite E. ring.
    - cbn [scaled_sol]. apply list_eq. intros i. destruct (decide (i < N)%nat) as [Hi|Hi].
      + rewrite lookup_zip_with. assert (zip_with sdiv z0 s !! i = Some (vat z0 i / vat s i)) as ->.
        { rewrite lookup_zip_with, (vat_Some z0 i), (vat_Some s i) by lia. reflexivity. }
        rewrite (vat_Some s i), (vat_Some z0 i) by lia. cbn. f_equal. apply field_div, Hnz, Hi.
      + rewrite !lookup_ge_None_2; [reflexivity|lia|rewrite !zip_with_length; lia].
  Qed.
  Lemma scaled_product N (L U L' U' : nat -> nat -> F) (s : list F) i j : (forall k, (k < N)%nat -> vat s k <> s0) -> (i < N)%nat -> (j < N)%nat ->
    (forall k, (k < N)%nat -> L' i k * vat s k = vat s i * L i k) -> (forall k, (k < N)%nat -> U' k j = vat s k * U k j * vat s j) ->
    mprod N L' U' i j = vat s i * mprod N L U i j * vat s j.
  Proof.
    intros Hnz Hi Hj HL HU. unfold mprod. transitivity (bsum N (fun k => vat s i * (L i k * U k j)) * vat s j); [|rewrite bsum_mul_l; reflexivity].
    rewrite <- bsum_mul_r. apply bsum_ext. intros k Hk. rewrite HU by done.
    transitivity (L' i k * vat s k * U k j * vat s j); [ring|]. rewrite HL by done. ring.
  Qed.
  Lemma sdiv_nz a b : a <> s0 -> b <> s0 -> a * b <> s0.
  Proof.
    intros Ha Hb E. apply Ha. pose proof (field_div s1 b Hb) as H. transitivity (a * (s1 / b * b)); [rewrite H; ring|].
    transitivity (a * b * (s1 / b)); [ring|]. rewrite E. ring.
  Qed.

  (** ** Scalar factors *)
  Section Scalar.
    Variables (M : srmat F) (s lu : list F).
    Hypothesis (Hwf : wf_mat M) (Hl : length lu = nnz M) (Hnz : forall i, (i < nbrows M)%nat -> vat s i <> s0).
    Notation n := (nbrows M).
    Definition scaled_lu : list F :=
      imap (fun j v => if (col M j <? rowof M j)%nat then vat s (rowof M j) * v / vat s (col M j) else vat s (rowof M j) * v * vat s (col M j)) lu.
    Lemma scaled_lu_length : length scaled_lu = nnz M.
    Proof. unfold scaled_lu. rewrite imap_length. exact Hl. Qed.
    Lemma scaled_lu_entry i c : (i < n)%nat -> (c < n)%nat ->
      entry M scaled_lu i c = if (c <? i)%nat then vat s i * entry M lu i c / vat s c else vat s i * entry M lu i c * vat s c.
    Proof.
      intros Hi Hc. destruct Hwf as (Hw & Hd & Hs). unfold entry. destruct (pos M i c) as [j|] eqn:E.
      - apply pos_Some in E as [E1 E2]; [|done]. pose proof (inrow_lt M i j Hw E1) as Hj. pose proof (rowof_inrow M i j Hw E1) as Er.
        change (default s0 (scaled_lu !! j)) with (vat scaled_lu j). change (default s0 (lu !! j)) with (vat lu j).
        apply vat_eq. unfold scaled_lu. rewrite list_lookup_imap, (vat_Some lu j) by lia. cbn. rewrite Er, E2. destruct (c <? i)%nat; reflexivity.
      - destruct (c <? i)%nat; [|ring]. apply div_eq; [apply Hnz, Hc|]. ring.
    Qed.
    Lemma scaled_lu_pivot i : (i < n)%nat -> entry M lu i i <> s0 -> entry M scaled_lu i i <> s0.
    Proof. intros Hi H. rewrite scaled_lu_entry, Nat.ltb_irrefl by done. repeat apply sdiv_nz; auto. Qed.
    Lemma scaled_lu_product i j : (i < n)%nat -> (j < n)%nat ->
      mprod n (unitlower (entry M scaled_lu)) (upper (entry M scaled_lu)) i j = vat s i * mprod n (unitlower (entry M lu)) (upper (entry M lu)) i j * vat s j.
    Proof.
      intros Hi Hj. apply scaled_product; auto.
      - intros k Hk. unfold unitlower. destruct (decide (k < i)%nat) as [Hlt|].
        + rewrite scaled_lu_entry by done. destruct (Nat.ltb_spec k i); [|lia]. apply field_div, Hnz, Hk.
        + destruct (decide (i = k)); [subst; ring|ring].
      - intros k Hk. unfold upper. destruct (decide (k <= j)%nat); [|ring].
        rewrite scaled_lu_entry by done. destruct (Nat.ltb_spec j k); [lia|]. reflexivity.
    Qed.
    Lemma scaled_lu_exact : exact_on_pattern M (unitlower (entry M lu)) (upper (entry M lu)) (dense M) ->
      exact_on_pattern M (unitlower (entry M scaled_lu)) (upper (entry M scaled_lu)) (scaled_mat (Some s) (dense M)).
    Proof. intros H i c Hi Hc Hst. rewrite scaled_lu_product by done. cbn [scaled_mat]. rewrite (H i c Hi Hc Hst). reflexivity. Qed.
  End Scalar.

  (** ** Block factors *)
  Section Block.
    Variables (so : storage) (bs : nat) (M : srmat F) (s x : list F).
    Hypothesis (Hwf : wf_mat M) (Hl : length x = (nnz M * (bs * bs))%nat) (Hnz : forall i, (i < nbrows M * bs)%nat -> vat s i <> s0).
    Notation n := (nbrows M).
    Notation N := (nbrows M * bs)%nat.
    Notation bb := (bs * bs)%nat.
    Definition unlay (k : nat) : nat * nat := match so with RowMajor => (k / bs, k mod bs)%nat | ColMajor => (k mod bs, k / bs)%nat end.
    Lemma unlay_lay p q : (p < bs)%nat -> (q < bs)%nat -> unlay (lay so bs p q) = (p, q).
    Proof. intros Hp Hq. unfold unlay, lay. destruct so; rewrite flat_div, flat_mod by done; reflexivity. Qed.
    Definition scaled_blocks : list F :=
      imap (fun k v => let j := (k / bb)%nat in let '(p, q) := unlay (k mod bb) in
        let I := (rowof M j * bs + p)%nat in let J := (col M j * bs + q)%nat in
        if (col M j <? rowof M j)%nat then vat s I * v / vat s J else vat s I * v * vat s J) x.
    Lemma scaled_blocks_length : length scaled_blocks = (nnz M * bb)%nat.
    Proof. unfold scaled_blocks. rewrite imap_length. exact Hl. Qed.
    Lemma scaled_blocks_entry I J : (I < N)%nat -> (J < N)%nat ->
      bentry so bs M scaled_blocks I J = if (J / bs <? I / bs)%nat then vat s I * bentry so bs M x I J / vat s J else vat s I * bentry so bs M x I J * vat s J.
    Proof.
      intros HI HJ. destruct Hwf as (Hw & Hd & Hs). destruct (unflat bs n I HI) as (i & p & -> & Hi & Hp). destruct (unflat bs n J HJ) as (c & q & -> & Hc & Hq).
      rewrite !bentry_flat, !flat_div by done. destruct (pos M i c) as [j|] eqn:E.
      - apply pos_Some in E as [E1 E2]; [|done]. pose proof (inrow_lt M i j Hw E1) as Hj. pose proof (rowof_inrow M i j Hw E1) as Er.
        pose proof (lay_lt so bs p q Hp Hq) as Hlay. rewrite !bent_vat.
        apply vat_eq. unfold scaled_blocks. rewrite list_lookup_imap, (vat_Some x (j * bb + lay so bs p q)) by nia. cbn [fmap option_fmap option_map].
        rewrite flat_div, flat_mod, unlay_lay, Er, E2 by done. cbv beta iota zeta. destruct (c <? i)%nat; reflexivity.
      - destruct (c <? i)%nat; [|ring]. apply div_eq; [apply Hnz; nia|]. ring.
    Qed.
    Lemma scaled_blocks_product I J : (I < N)%nat -> (J < N)%nat ->
      mprod N (bunitlower bs (bentry so bs M scaled_blocks)) (bupper bs (bentry so bs M scaled_blocks) (bentry so bs M scaled_blocks)) I J =
      vat s I * mprod N (bunitlower bs (bentry so bs M x)) (bupper bs (bentry so bs M x) (bentry so bs M x)) I J * vat s J.
    Proof.
      intros HI HJ. apply scaled_product; auto.
      - intros k Hk. unfold bunitlower. destruct (decide (k / bs < I / bs)%nat) as [Hlt|].
        + rewrite scaled_blocks_entry by done. destruct (Nat.ltb_spec (k / bs) (I / bs)); [|lia]. apply field_div, Hnz, Hk.
        + destruct (decide (I = k)); [subst; ring|ring].
      - intros k Hk. unfold bupper. destruct (decide (k / bs < J / bs)%nat); [|destruct (decide (k / bs = J / bs)%nat); [|ring]];
          (rewrite scaled_blocks_entry by done; destruct (Nat.ltb_spec (J / bs) (k / bs)); [lia|reflexivity]).
    Qed.
    Lemma scaled_blocks_exact :
      bexact_on_pattern bs M (bunitlower bs (bentry so bs M x)) (bupper bs (bentry so bs M x) (bentry so bs M x)) (bdense so bs M) ->
      bexact_on_pattern bs M (bunitlower bs (bentry so bs M scaled_blocks)) (bupper bs (bentry so bs M scaled_blocks) (bentry so bs M scaled_blocks))
        (scaled_mat (Some s) (bdense so bs M)).
    Proof. intros H I J HI HJ Hst. rewrite scaled_blocks_product by done. cbn [scaled_mat]. rewrite (H I J HI HJ Hst). reflexivity. Qed.
    Lemma scaled_blocks_invertible i Y : (i < n)%nat -> is_inverse bs (dblock bs (bentry so bs M x) i) Y ->
      exists Y', is_inverse bs (dblock bs (bentry so bs M scaled_blocks) i) Y'.
    Proof.
      intros Hi HY. exists (fun p q => Y p q / vat s (i * bs + p) / vat s (i * bs + q)).
      assert (forall p q, (p < bs)%nat -> (q < bs)%nat -> dblock bs (bentry so bs M scaled_blocks) i p q =
        vat s (i * bs + p) * dblock bs (bentry so bs M x) i p q * vat s (i * bs + q)) as E.
      { intros p q Hp Hq. unfold dblock. rewrite scaled_blocks_entry by nia. rewrite !flat_div, Nat.ltb_irrefl by done. reflexivity. }
      assert (forall p, (p < bs)%nat -> vat s (i * bs + p) <> s0) as Hn by (intros p Hp; apply Hnz; nia).
      assert (forall a b c, b <> s0 -> c <> s0 -> c * (a / b / c) * b = a) as H2.
      { intros a b c Hb Hc. transitivity (a / b / c * c * b); [ring|]. rewrite (field_div (a / b) c Hc), (field_div a b Hb). reflexivity. }
      assert (forall a b c, b <> s0 -> c <> s0 -> a / b / c = a / c / b) as Hcomm.
      { intros a b c Hb Hc. symmetry. apply div_eq; [exact Hc|]. apply div_eq; [exact Hb|]. transitivity (a / c / b * b * c); [ring|].
        rewrite (field_div (a / c) b Hb), (field_div a c Hc). reflexivity. }
      intros p q Hp Hq. destruct (HY p q Hp Hq) as [H3 H4]. unfold mprod in *. split.
      - transitivity (vat s (i * bs + p) * bsum bs (fun k => dblock bs (bentry so bs M x) i p k * Y k q) / vat s (i * bs + q)).
        + symmetry. rewrite <- bsum_mul_l. symmetry. apply div_eq; [auto|]. rewrite <- bsum_mul_r. apply bsum_ext. intros k Hk. rewrite E by done.
          transitivity (vat s (i * bs + p) * dblock bs (bentry so bs M x) i p k * (vat s (i * bs + k) * (Y k q / vat s (i * bs + k) / vat s (i * bs + q)) * vat s (i * bs + q))); [ring|].
          rewrite (Hcomm (Y k q)) by auto. replace (vat s (i * bs + k) * (Y k q / vat s (i * bs + q) / vat s (i * bs + k)) * vat s (i * bs + q)) with (Y k q) by (symmetry; apply H2; auto). ring.
        + rewrite H3. unfold ident. destruct (decide (p = q)) as [-> |]; symmetry; apply div_eq; auto; ring.
      - transitivity (bsum bs (fun k => Y p k * dblock bs (bentry so bs M x) i k q) * vat s (i * bs + q) / vat s (i * bs + p)).
        + symmetry. rewrite <- bsum_mul_r. symmetry. apply div_eq; [auto|]. rewrite <- bsum_mul_r. apply bsum_ext. intros k Hk. rewrite E by done.
          transitivity (vat s (i * bs + k) * (Y p k / vat s (i * bs + p) / vat s (i * bs + k)) * vat s (i * bs + p) * dblock bs (bentry so bs M x) i k q * vat s (i * bs + q)); [ring|].
          rewrite H2 by auto. ring.
        + rewrite H4. unfold ident. destruct (decide (p = q)) as [-> |]; symmetry; apply div_eq; auto; ring.
    Qed.
  End Block.
End ScaledLu.
