(** * SymFacts: the matrices of the preconditioners of symmetric matrices are symmetric *)
From Verif Require Import Base Alg TriSpec TriFacts SymSpec.

Section SymFacts.
  Context {F : Type} {O : SOps F} {R : CRing F}.
  Add Ring Fr : cring.
  Open Scope s_scope.
  Implicit Types A P L U E : nat -> nat -> F.

  (** ** Solutions *)
  Lemma vat_combine a b u v n i : length u = n -> length v = n -> (i < n)%nat -> vat (combine a b u v) i = a * vat u i + b * vat v i.
  Proof. intros Hu Hv Hi. apply vat_eq. unfold combine. rewrite lookup_zip_with, (vat_Some u i), (vat_Some v i) by lia. reflexivity. Qed.
  Lemma combine_length a b u v n : length u = n -> length v = n -> length (combine a b u v) = n.
  Proof. intros Hu Hv. unfold combine. rewrite zip_with_length. lia. Qed.
  Lemma combine_solution n P a b u v zu zv : length u = n -> length v = n -> length zu = n -> length zv = n ->
    is_prod n P zu u -> is_prod n P zv v -> is_prod n P (combine a b zu zv) (combine a b u v).
  Proof.
    intros Hu Hv Hzu Hzv H1 H2 i Hi. rewrite (vat_combine a b u v n i) by done. rewrite <- (H1 i Hi), <- (H2 i Hi), <- !bsum_mul_l, <- bsum_add.
    apply bsum_ext. intros j Hj. rewrite (vat_combine a b zu zv n j) by done. ring.
  Qed.
  Lemma symmetric_solution n P u v zu zv : symm n P -> is_prod n P zu u -> is_prod n P zv v -> dot n u zv = dot n zu v.
  Proof.
    intros HS H1 H2. unfold dot.
    rewrite (bsum_ext n _ (fun i => bsum n (fun j => P i j * vat zu j * vat zv i))) by (intros i Hi; rewrite <- (H1 i Hi), <- bsum_mul_r; reflexivity).
    rewrite (bsum_ext n (fun i => vat zu i * vat v i) (fun i => bsum n (fun j => vat zu i * (P i j * vat zv j)))) by (intros i Hi; rewrite <- (H2 i Hi), <- bsum_mul_l; reflexivity).
    rewrite bsum_swap. apply bsum_ext. intros j Hj. apply bsum_ext. intros i Hi. rewrite (HS i j) by done. ring.
  Qed.
  Lemma form_solution n P z r : is_prod n P z r -> dot n r z = form n P (vat z).
  Proof. intros H. unfold dot, form. apply bsum_ext. intros i Hi. rewrite <- (H i Hi). ring. Qed.

  (** ** Symmetric Gauss-Seidel *)
  Lemma form_transposed n A B (x y : nat -> F) :
    bsum n (fun i => x i * bsum n (fun j => mprod n A B i j * y j)) = bsum n (fun k => bsum n (fun i => A i k * x i) * bsum n (fun j => B k j * y j)).
  Proof.
    unfold mprod.
    transitivity (bsum n (fun i => bsum n (fun j => bsum n (fun k => A i k * x i * (B k j * y j))))).
    { apply bsum_ext. intros i Hi. rewrite <- bsum_mul_l. apply bsum_ext. intros j Hj. rewrite <- bsum_mul_r, <- bsum_mul_l. apply bsum_ext. intros k Hk. ring. }
    transitivity (bsum n (fun k => bsum n (fun i => bsum n (fun j => A i k * x i * (B k j * y j))))).
    { rewrite (bsum_ext n _ (fun i => bsum n (fun k => bsum n (fun j => A i k * x i * (B k j * y j))))) by (intros i Hi; apply bsum_swap). apply bsum_swap. }
    apply bsum_ext. intros k Hk. rewrite <- bsum_mul_r. apply bsum_ext. intros i Hi. apply bsum_mul_l.
  Qed.
  Lemma mprod_transpose n A B i j : mprod n A B i j = mprod n (fun a b => B b a) (fun a b => A b a) j i.
  Proof. unfold mprod. apply bsum_ext. intros k Hk. ring. Qed.
  Lemma sym_inverse n D E : symm n D -> is_inverse n D E -> symm n E.
  Proof.
    intros HD HE i j Hi Hj.
    (* E = E (D E^T) = E^T, as D E^T = (E D)^T = 1 *)
    transitivity (bsum n (fun k => E i k * ident k j)).
    { rewrite (bsum_single n j); [unfold ident; rewrite decide_True by done; ring|done|]. intros k Hk Hne. unfold ident. rewrite decide_False by done. ring. }
    transitivity (bsum n (fun l => ident i l * E j l)).
    2: { rewrite (bsum_single n i); [unfold ident; rewrite decide_True by done; ring|done|]. intros k Hk Hne. unfold ident. rewrite decide_False by congruence. ring. }
    transitivity (bsum n (fun k => bsum n (fun l => E i k * (D k l * E j l)))).
    { apply bsum_ext. intros k Hk. rewrite bsum_mul_l. f_equal.
      assert (ident k j = ident (F := F) j k) as -> by (unfold ident; destruct (decide (k = j)), (decide (j = k)); congruence).
      rewrite <- (proj2 (HE j k Hj Hk)). unfold mprod. apply bsum_ext. intros l Hl. rewrite (HD k l) by done. ring. }
    rewrite bsum_swap. apply bsum_ext. intros l Hl. rewrite <- (proj2 (HE i l Hi Hl)). unfold mprod. rewrite <- bsum_mul_r. apply bsum_ext. intros k Hk. ring.
  Qed.
  Lemma bdiag_symm w n A : symm n A -> symm n (bdiag w A).
  Proof. intros HA i j Hi Hj. unfold bdiag. destruct (decide (i / w = j / w)%nat), (decide (j / w = i / w)%nat); try lia; auto. Qed.
  Lemma blower_bupper w n A i j : symm n A -> (i < n)%nat -> (j < n)%nat -> blower w A A i j = bupper w A A j i.
  Proof.
    intros HA Hi Hj. unfold blower, bupper. rewrite (HA i j) by done.
    destruct (decide (j / w < i / w)%nat); [reflexivity|]. destruct (decide (i / w = j / w)%nat), (decide (j / w = i / w)%nat); try lia; reflexivity.
  Qed.
  Lemma sgs_symm w n A E : symm n A -> is_inverse n (bdiag w A) E -> symm n (mprod n (blower w A A) (mprod n E (bupper w A A))).
  Proof.
    intros HA HE i j Hi Hj. pose proof (sym_inverse n _ E (bdiag_symm w n A HA) HE) as HEs. unfold mprod.
    transitivity (bsum n (fun k => bsum n (fun l => blower w A A i k * (E k l * bupper w A A l j)))); [apply bsum_ext; intros; rewrite bsum_mul_l; reflexivity|].
    transitivity (bsum n (fun k => bsum n (fun l => blower w A A j k * (E k l * bupper w A A l i)))); [|apply bsum_ext; intros; rewrite bsum_mul_l; reflexivity].
    rewrite bsum_swap. apply bsum_ext. intros k Hk. apply bsum_ext. intros l Hl.
    rewrite <- (blower_bupper w n A j k), (HEs l k), (blower_bupper w n A i l) by done. ring.
  Qed.

  (** ** Triangular systems *)
  Lemma upper_sum n A (z : nat -> F) i : (i < n)%nat ->
    bsum n (fun j => upper A i j * z j) = A i i * z i + bsum n (fun j => if decide (i < j)%nat then A i j * z j else s0).
  Proof.
    intros Hi. rewrite (bsum_split3 n i) by done. unfold upper at 2. rewrite decide_True by lia.
    rewrite (bsum_zero n (fun c => if decide (c < i)%nat then _ else _)).
    - rewrite (bsum_ext n (fun c => if decide (i < c)%nat then upper A i c * z c else s0) (fun j => if decide (i < j)%nat then A i j * z j else s0)); [ring|].
      intros j Hj. destruct (decide (i < j)%nat); [|reflexivity]. unfold upper. rewrite decide_True by lia. reflexivity.
    - intros j Hj. destruct (decide (j < i)%nat); [|reflexivity]. unfold upper. rewrite decide_False by lia. ring.
  Qed.
  Lemma upper_solvable n A (inv : nat -> F) r : (forall i, (i < n)%nat -> inv i * A i i = s1) -> length r = n ->
    exists z, length z = n /\ is_prod n (upper A) z r /\ forall z', length z' = n -> is_prod n (upper A) z' r -> z' = z.
  Proof.
    intros Hinv Hr.
    assert (forall k, (k <= n)%nat -> exists z : nat -> F, forall i, (n - k <= i < n)%nat -> bsum n (fun j => upper A i j * z j) = vat r i) as H.
    { induction k as [|k IH]; intros Hk; [exists (fun _ => s0); intros; lia|]. destruct (IH ltac:(lia)) as (z & Hz). set (c := (n - S k)%nat).
      pose (v := inv c * (vat r c - bsum n (fun j => if decide (c < j)%nat then A c j * z j else s0))).
      assert (forall i, (c <= i < n)%nat -> bsum n (fun j => if decide (i < j)%nat then A i j * (if decide (j = c) then v else z j) else s0) =
        bsum n (fun j => if decide (i < j)%nat then A i j * z j else s0)) as E.
      { intros i Hi. apply bsum_ext. intros j Hj. destruct (decide (i < j)%nat); [|reflexivity]. rewrite decide_False by lia. reflexivity. }
      exists (fun j => if decide (j = c) then v else z j). intros i Hi. rewrite upper_sum, E by (unfold c in *; lia). destruct (decide (i = c)) as [-> |Hne].
      - unfold v. transitivity (inv c * A c c * (vat r c - bsum n (fun j => if decide (c < j)%nat then A c j * z j else s0)) + bsum n (fun j => if decide (c < j)%nat then A c j * z j else s0)); [ring|].
        rewrite Hinv by (unfold c; lia). ring.
      - rewrite <- upper_sum by lia. apply Hz. unfold c in Hne. lia. }
    destruct (H n ltac:(lia)) as (z & Hz). exists (z <$> seq 0 n). split; [rewrite fmap_length, seq_length; reflexivity|].
    assert (is_prod n (upper A) (z <$> seq 0 n) r) as Hp.
    { intros i Hi. rewrite <- (Hz i) by lia. apply bsum_ext. intros j Hj. rewrite vat_fmap_seq by done. reflexivity. }
    split; [exact Hp|]. intros z' Hl Hz'.
    assert (forall k, (k <= n)%nat -> forall i, (n - k <= i < n)%nat -> vat z' i = vat (z <$> seq 0 n) i) as Hu.
    { induction k as [|k IH]; intros Hk i Hi; [lia|]. destruct (decide (n - k <= i)%nat) as [|Hlt]; [apply IH; lia|].
      pose proof (Hp i ltac:(lia)) as E1. pose proof (Hz' i ltac:(lia)) as E2. rewrite upper_sum in E1, E2 by lia.
      rewrite (bsum_ext n (fun j => if decide (i < j)%nat then A i j * vat z' j else s0) (fun j => if decide (i < j)%nat then A i j * vat (z <$> seq 0 n) j else s0)) in E2.
      2: { intros j Hj. destruct (decide (i < j)%nat); [|reflexivity]. rewrite IH by lia. reflexivity. }
      rewrite <- E2 in E1. set (T := bsum n _) in E1. assert (A i i * vat z' i = A i i * vat (z <$> seq 0 n) i) as E3.
      { transitivity (A i i * vat z' i + T - T); [ring|]. rewrite <- E1. ring. }
      transitivity (inv i * A i i * vat z' i); [rewrite Hinv by lia; ring|]. transitivity (inv i * (A i i * vat z' i)); [ring|]. rewrite E3.
      transitivity (inv i * A i i * vat (z <$> seq 0 n) i); [ring|]. rewrite Hinv by lia. ring. }
    apply list_eq. intros i. destruct (decide (i < n)%nat) as [Hi|Hi].
    - rewrite (vat_Some z' i), (vat_Some (z <$> seq 0 n) i) by (rewrite ?fmap_length, ?seq_length; lia). f_equal. apply (Hu n); lia.
    - rewrite !lookup_ge_None_2; [reflexivity|rewrite fmap_length, seq_length; lia|lia].
  Qed.

  (** ** Incomplete factors *)
  Section LU.
    Variables (n w : nat) (L U A : nat -> nat -> F) (st : nat -> nat -> bool).
    Notation N := (n * w)%nat.
    Hypothesis (HA : symm N A) (Hst : forall i j, (i < n)%nat -> (j < n)%nat -> st i j = st j i).
    Hypothesis (HL0 : forall I K, (I < N)%nat -> (K < N)%nat -> (I / w < K / w)%nat -> L I K = s0).
    Hypothesis (HL1 : forall I K, (I < N)%nat -> (K < N)%nat -> (I / w = K / w)%nat -> L I K = ident I K).
    Hypothesis (HU0 : forall K J, (K < N)%nat -> (J < N)%nat -> (J / w < K / w)%nat -> U K J = s0).
    Hypothesis (HLs : forall I K, (I < N)%nat -> (K < N)%nat -> (I / w)%nat <> (K / w)%nat -> st (I / w) (K / w) = false -> L I K = s0).
    Hypothesis (HUs : forall I K, (I < N)%nat -> (K < N)%nat -> (I / w)%nat <> (K / w)%nat -> st (I / w) (K / w) = false -> U I K = s0).
    Hypothesis (Hd : forall i, (i < n)%nat -> st i i = true).
    Hypothesis (Hex : forall I J, (I < N)%nat -> (J < N)%nat -> st (I / w) (J / w) = true -> mprod N L U I J = A I J).

    Definition part (k I J : nat) : F := bsum w (fun p => L I (k * w + p)%nat * U (k * w + p)%nat J).
    Lemma parts I J : mprod N L U I J = bsum n (fun k => part k I J).
    Proof. unfold mprod. rewrite bsum_flat. reflexivity. Qed.
    Lemma blk I : (I < N)%nat -> (I / w < n)%nat.
    Proof. intros H. destruct (unflat w n I H) as (i & p & -> & Hi & Hp). rewrite flat_div; done. Qed.
    Lemma in_blk k p : (k < n)%nat -> (p < w)%nat -> (k * w + p < N)%nat.
    Proof. nia. Qed.
    Lemma part_over_l k I J : (I < N)%nat -> (k < n)%nat -> (I / w < k)%nat -> part k I J = s0.
    Proof. intros HI Hk H. apply bsum_zero. intros p Hp. rewrite HL0; [ring|done|apply in_blk; done|rewrite flat_div; done]. Qed.
    Lemma part_over_r k I J : (J < N)%nat -> (k < n)%nat -> (J / w < k)%nat -> part k I J = s0.
    Proof. intros HI Hk H. apply bsum_zero. intros p Hp. rewrite HU0; [ring|apply in_blk; done|done|rewrite flat_div; done]. Qed.
    Lemma part_own I J : (I < N)%nat -> part (I / w) I J = U I J.
    Proof.
      intros HI. destruct (unflat w n I HI) as (i & p & -> & Hi & Hp). rewrite flat_div by done. unfold part.
      rewrite (bsum_single w p); [rewrite HL1; [unfold ident; rewrite decide_True by done; ring|apply in_blk; done..|reflexivity]|done|].
      intros q Hq Hne. rewrite HL1; [|apply in_blk; done..|rewrite !flat_div; done]. unfold ident. rewrite decide_False by lia. ring.
    Qed.
    Definition mirrored (i : nat) : Prop := forall I J, (I < N)%nat -> (J < N)%nat -> (I / w = i)%nat -> (i <= J / w)%nat -> part i J I = U I J.
    Lemma mirrored_diag k p q : mirrored k -> (k < n)%nat -> (p < w)%nat -> (q < w)%nat -> U (k * w + p)%nat (k * w + q)%nat = U (k * w + q)%nat (k * w + p)%nat.
    Proof.
      intros H Hk Hp Hq. rewrite <- (H (k * w + p)%nat (k * w + q)%nat); [|apply in_blk; done..|apply flat_div; done|rewrite flat_div; [lia|done]].
      assert (k = (k * w + q) / w)%nat as E by (symmetry; apply flat_div; done). rewrite E at 1. apply part_own, in_blk; done.
    Qed.
    Lemma part_form k I J : mirrored k -> (I < N)%nat -> (J < N)%nat -> (k < n)%nat ->
      part k I J = bsum w (fun p => bsum w (fun q => L I (k * w + p)%nat * (U (k * w + p)%nat (k * w + q)%nat * L J (k * w + q)%nat))).
    Proof.
      intros H HI HJ Hk. destruct (decide (k <= J / w)%nat) as [Hle|Hgt].
      - unfold part at 1. apply bsum_ext. intros p Hp. rewrite bsum_mul_l. f_equal.
        rewrite <- (H (k * w + p)%nat J); [|apply in_blk; done|done|apply flat_div; done|done]. unfold part. apply bsum_ext. intros q Hq.
        rewrite (mirrored_diag k p q) by done. ring.
      - rewrite part_over_r by (done || lia). symmetry. apply bsum_zero. intros p Hp. apply bsum_zero. intros q Hq.
        rewrite (HL0 J); [ring|done|apply in_blk; done|rewrite flat_div; [lia|done]].
    Qed.
    Lemma part_symm k I J : mirrored k -> (I < N)%nat -> (J < N)%nat -> (k < n)%nat -> part k I J = part k J I.
    Proof.
      intros H HI HJ Hk. rewrite !part_form by done. rewrite bsum_swap. apply bsum_ext. intros p Hp. apply bsum_ext. intros q Hq.
      rewrite (mirrored_diag k q p) by done. ring.
    Qed.
    Lemma cut i (f g : nat -> F) : (i < n)%nat -> (forall k, (k < i)%nat -> f k = g k) -> (forall k, (i < k)%nat -> (k < n)%nat -> f k = s0 /\ g k = s0) ->
      bsum n f = bsum n g -> f i = g i.
    Proof.
      intros Hi H1 H2 H. rewrite !(bsum_trunc n (S i)) in H by (lia || (intros k Hk; apply H2; lia)). simpl in H.
      rewrite (bsum_ext i f g) in H by auto.
      transitivity (bsum i g + f i - bsum i g); [ring|]. rewrite H. ring.
    Qed.
    Lemma all_mirrored i : (i < n)%nat -> mirrored i.
    Proof.
      induction i as [i IH] using lt_wf_ind. intros Hi I J HI HJ E Hle. subst i.
      rewrite <- (part_own I J HI). destruct (st (I / w) (J / w)) eqn:Es.
      - apply (cut (I / w) (fun k => part k J I) (fun k => part k I J) Hi).
        + intros k Hk. apply part_symm; [apply IH; lia|done|done|lia].
        + intros k Hk Hkn. split; [apply part_over_r|apply part_over_l]; done.
        + rewrite <- !parts. rewrite (Hex J I), (Hex I J); [apply HA; done|done|done|done|done|done|]. rewrite Hst; [exact Es|apply blk; done..].
      - assert ((I / w)%nat <> (J / w)%nat) as Hne by (intros E; rewrite E, Hd in Es; [discriminate|apply blk; done]).
        rewrite part_own by done. rewrite (HUs I J) by done. apply bsum_zero. intros p Hp.
        rewrite (HLs J); [ring|done|apply in_blk; done|rewrite flat_div; [lia|done]|].
        rewrite flat_div by done. rewrite Hst; [exact Es|apply blk; done..].
    Qed.
    Lemma lu_symm : symm N (mprod N L U).
    Proof.
      intros I J HI HJ. rewrite !parts. apply bsum_ext. intros k Hk. apply part_symm; [apply all_mirrored|..]; done.
    Qed.
    (** x^T L U x is the sum of the forms of the diagonal blocks of U at L^T x *)
    Definition lt (x : nat -> F) (K : nat) : F := bsum N (fun I => L I K * x I).
    Lemma lu_form x : form N (mprod N L U) x = bsum n (fun k => form w (dblock w U k) (fun p => lt x (k * w + p)%nat)).
    Proof.
      unfold form.
      transitivity (bsum N (fun I => bsum N (fun J => bsum n (fun k => bsum w (fun p => bsum w (fun q =>
        x I * L I (k * w + p)%nat * (U (k * w + p)%nat (k * w + q)%nat * (L J (k * w + q)%nat * x J)))))))).
      { apply bsum_ext. intros I HI. rewrite <- bsum_mul_l. apply bsum_ext. intros J HJ. rewrite parts, <- bsum_mul_r, <- bsum_mul_l. apply bsum_ext. intros k Hk.
        rewrite part_form by (auto using all_mirrored). rewrite <- bsum_mul_r, <- bsum_mul_l. apply bsum_ext. intros p Hp. rewrite <- bsum_mul_r, <- bsum_mul_l. apply bsum_ext. intros q Hq. ring. }
      rewrite (bsum_ext N _ (fun I => bsum n (fun k => bsum w (fun p => bsum N (fun J => bsum w (fun q =>
        x I * L I (k * w + p)%nat * (U (k * w + p)%nat (k * w + q)%nat * (L J (k * w + q)%nat * x J)))))))).
      2: { intros I HI. rewrite bsum_swap. apply bsum_ext. intros k Hk. rewrite bsum_swap. reflexivity. }
      rewrite bsum_swap. apply bsum_ext. intros k Hk. rewrite bsum_swap. apply bsum_ext. intros p Hp.
      transitivity (bsum N (fun I => x I * L I (k * w + p)%nat * bsum w (fun q => dblock w U k p q * lt x (k * w + q)%nat))).
      - apply bsum_ext. intros I HI. rewrite bsum_swap, <- bsum_mul_l. apply bsum_ext. intros q Hq. unfold dblock, lt.
        rewrite <- !bsum_mul_l. reflexivity.
      - rewrite bsum_mul_r. f_equal. unfold lt. apply bsum_ext. intros I HI. ring.
    Qed.
    Lemma lu_kernel x : (forall K, (K < N)%nat -> lt x K = s0) -> forall I, (I < N)%nat -> bsum N (fun J => mprod N L U I J * x J) = s0.
    Proof.
      intros H I HI.
      transitivity (bsum n (fun k => bsum w (fun p => bsum w (fun q => L I (k * w + p)%nat * U (k * w + p)%nat (k * w + q)%nat * lt x (k * w + q)%nat)))).
      - transitivity (bsum N (fun J => bsum n (fun k => bsum w (fun p => bsum w (fun q => L I (k * w + p)%nat * U (k * w + p)%nat (k * w + q)%nat * (L J (k * w + q)%nat * x J)))))).
        { apply bsum_ext. intros J HJ. rewrite parts, <- bsum_mul_r. apply bsum_ext. intros k Hk. rewrite part_form by (auto using all_mirrored).
          rewrite <- bsum_mul_r. apply bsum_ext. intros p Hp. rewrite <- bsum_mul_r. apply bsum_ext. intros q Hq. ring. }
        rewrite bsum_swap. apply bsum_ext. intros k Hk. rewrite bsum_swap. apply bsum_ext. intros p Hp. rewrite bsum_swap. apply bsum_ext. intros q Hq.
        unfold lt. rewrite <- bsum_mul_l. reflexivity.
      - apply bsum_zero. intros k Hk. apply bsum_zero. intros p Hp. apply bsum_zero. intros q Hq. rewrite H; [ring|apply in_blk; done].
    Qed.
  End LU.

  (** ** Positive definite forms *)
  Section Pos.
    Variable pos : F -> Prop.
    Hypothesis Hpos : ordered pos.
    Definition nonneg (a : F) : Prop := a = s0 \/ pos a.
    Lemma nonneg_add a b : nonneg a -> nonneg b -> nonneg (a + b).
    Proof.
      intros [-> |Ha] [-> |Hb].
      - left. ring.
      - right. replace (s0 + b) with b by ring. exact Hb.
      - right. replace (a + s0) with a by ring. exact Ha.
      - right. apply (pos_add _ Hpos); done.
    Qed.
    Lemma pos_nonneg_add a b : pos a -> nonneg b -> pos (a + b).
    Proof. intros Ha [-> |Hb]; [replace (a + s0) with a by ring; exact Ha|apply (pos_add _ Hpos); done]. Qed.
    Lemma nonneg_bsum n f : (forall i, (i < n)%nat -> nonneg (f i)) -> nonneg (bsum n f).
    Proof. induction n as [|n IH]; intros H; simpl; [left; reflexivity|]. apply nonneg_add; [apply IH; intros; apply H; lia|apply H; lia]. Qed.
    Lemma pos_bsum n f k : (forall i, (i < n)%nat -> nonneg (f i)) -> (k < n)%nat -> pos (f k) -> pos (bsum n f).
    Proof.
      induction n as [|n IH]; intros H Hk Hp; [lia|]. simpl. destruct (decide (k = n)) as [-> |Hne].
      - replace (bsum n f + f n) with (f n + bsum n f) by ring. apply pos_nonneg_add; [exact Hp|]. apply nonneg_bsum. intros; apply H; lia.
      - apply pos_nonneg_add; [apply IH; [intros; apply H; lia|lia|exact Hp]|apply H; lia].
    Qed.
    Lemma all_or_some n (f : nat -> F) : (forall i, (i < n)%nat -> f i = s0) \/ exists i, (i < n)%nat /\ f i <> s0.
    Proof.
      induction n as [|n IH]; [left; intros; lia|]. destruct IH as [IH|(i & Hi & Hne)]; [|right; exists i; split; [lia|exact Hne]].
      destruct (pos_total _ Hpos (f n)) as [E|E].
      - left. intros i Hi. destruct (decide (i = n)) as [-> |]; [exact E|apply IH; lia].
      - right. exists n. split; [lia|]. intros E0. rewrite E0 in E. destruct E as [E|E]; [apply (pos_zero _ Hpos E)|].
        apply (pos_zero _ Hpos). replace s0 with (sopp s0 : F) by ring. exact E.
    Qed.
    Lemma form_nonneg n A x : pos_def pos n A -> nonneg (form n A x).
    Proof.
      intros H. destruct (all_or_some n x) as [H0|H1]; [left|right; apply H, H1].
      apply bsum_zero. intros i Hi. rewrite (H0 i Hi). ring.
    Qed.
    Lemma pos_square a : a <> s0 -> pos (a * a).
    Proof.
      intros Ha. destruct (pos_total _ Hpos a) as [E|[E|E]]; [done|apply (pos_mul _ Hpos); done|].
      replace (a * a) with (sopp a * sopp a) by ring. apply (pos_mul _ Hpos); done.
    Qed.
    Lemma square_nonneg a : nonneg (a * a).
    Proof.
      destruct (pos_total _ Hpos a) as [->|[E|E]]; [left; ring|right; apply (pos_mul _ Hpos); done|right].
      replace (a * a) with (sopp a * sopp a) by ring. apply (pos_mul _ Hpos); done.
    Qed.
    Lemma ident_pos n : pos_def pos n ident.
    Proof.
      intros x (i & Hi & Hx). assert (form n ident x = bsum n (fun i => x i * x i)) as ->.
      { unfold form. apply bsum_ext. intros k Hk. f_equal. rewrite (bsum_single n k _ Hk); [unfold ident; rewrite decide_True by done; ring|].
        intros j Hj Hne. unfold ident. rewrite decide_False by congruence. ring. }
      apply (pos_bsum n _ i); [intros; apply square_nonneg|done|apply pos_square, Hx].
    Qed.
    (** the diagonal blocks of a positive definite matrix are positive definite *)
    Lemma form_ext n A B (x y : nat -> F) : (forall i j, (i < n)%nat -> (j < n)%nat -> x i * (A i j * x j) = y i * (B i j * y j)) -> form n A x = form n B y.
    Proof. intros H. unfold form. apply bsum_ext. intros i Hi. rewrite <- !bsum_mul_l. apply bsum_ext. intros j Hj. apply H; done. Qed.
    Lemma bdiag_form n w A x : form (n * w) (bdiag w A) x = bsum n (fun k => form (n * w) A (fun I => if decide (I / w = k)%nat then x I else s0)).
    Proof.
      unfold form. rewrite bsum_swap. apply bsum_ext. intros I HI.
      transitivity (bsum (n * w) (fun J => bsum n (fun k => (if decide (I / w = k)%nat then x I else s0) * (A I J * (if decide (J / w = k)%nat then x J else s0))))).
      - rewrite <- bsum_mul_l. apply bsum_ext. intros J HJ. unfold bdiag.
        assert (I / w < n)%nat as HIw by (destruct (unflat w n I HI) as (i & p & -> & Hi & Hp); rewrite flat_div; done).
        rewrite (bsum_single n (I / w) _ HIw).
        + rewrite (decide_True (P := I / w = I / w)%nat) by done. destruct (decide (I / w = J / w)%nat), (decide (J / w = I / w)%nat); try lia; ring.
        + intros k Hk Hne. rewrite (decide_False (P := I / w = k)%nat) by congruence. ring.
      - rewrite bsum_swap. apply bsum_ext. intros k Hk. apply bsum_mul_l.
    Qed.
    Lemma bdiag_pos n w A : pos_def pos (n * w) A -> pos_def pos (n * w) (bdiag w A).
    Proof.
      intros H x (I & HI & Hx). rewrite bdiag_form. destruct (unflat w n I HI) as (i & p & E & Hi & Hp).
      apply (pos_bsum n _ i); [intros k Hk; apply form_nonneg, H|done|]. apply H. exists I. split; [done|]. rewrite decide_True by (rewrite E; apply flat_div; done). exact Hx.
    Qed.
    Lemma sgs_pos n w A E x : let S := mprod n (blower w A A) (mprod n E (bupper w A A)) in
      symm n A -> is_inverse n (bdiag w A) E -> pos_def pos n (bdiag w A) ->
      ((forall I, (I < n)%nat -> bsum n (fun J => S I J * x J) = s0) -> forall I, (I < n)%nat -> x I = s0) ->
      (exists i, (i < n)%nat /\ x i <> s0) -> pos (form n S x).
    Proof.
      intros S HA HE HD Hker Hx. pose (y := fun k => bsum n (fun j => bupper w A A k j * x j)). pose (v := fun k => bsum n (fun j => E k j * y j)).
      assert (forall k, (k < n)%nat -> bsum n (fun j => mprod n E (bupper w A A) k j * x j) = v k) as Ev.
      { intros k Hk. unfold mprod, v, y. transitivity (bsum n (fun j => bsum n (fun l => E k l * (bupper w A A l j * x j)))).
        - apply bsum_ext. intros j Hj. rewrite <- bsum_mul_r. apply bsum_ext. intros l Hl. ring.
        - rewrite bsum_swap. apply bsum_ext. intros l Hl. apply bsum_mul_l. }
      assert (form n S x = bsum n (fun k => y k * v k)) as E1.
      { unfold form, S. rewrite form_transposed. apply bsum_ext. intros k Hk. f_equal; [|apply Ev; done]. unfold y. apply bsum_ext. intros i Hi. rewrite (blower_bupper w n A i k) by done. reflexivity. }
      assert (forall k, (k < n)%nat -> y k = bsum n (fun j => bdiag w A k j * v j)) as Hy.
      { apply (inverse_apply n E (bdiag w A) v y); [apply is_inverse_sym, HE|]. reflexivity. }
      assert (form n S x = form n (bdiag w A) v) as ->.
      { rewrite E1. unfold form. apply bsum_ext. intros k Hk. rewrite (Hy k Hk). ring. }
      apply HD. destruct (all_or_some n v) as [H0|H0]; [exfalso|exact H0]. destruct Hx as (i & Hi & Hx). apply Hx, Hker; [|exact Hi].
      intros I HI. unfold S. transitivity (bsum n (fun k => blower w A A I k * v k)).
      - transitivity (bsum n (fun k => blower w A A I k * bsum n (fun j => mprod n E (bupper w A A) k j * x j))); [|apply bsum_ext; intros k Hk; rewrite Ev by done; reflexivity].
        unfold mprod at 1. transitivity (bsum n (fun j => bsum n (fun k => blower w A A I k * (mprod n E (bupper w A A) k j * x j)))).
        + apply bsum_ext. intros j Hj. rewrite <- bsum_mul_r. apply bsum_ext. intros k Hk. ring.
        + rewrite bsum_swap. apply bsum_ext. intros k Hk. apply bsum_mul_l.
      - apply bsum_zero. intros k Hk. rewrite (H0 k Hk). ring.
    Qed.
  End Pos.
End SymFacts.
