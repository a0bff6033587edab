(** * IluApplyProofs: the consistent vectors are the solutions of the linear systems *)
From Verif Require Import Base Alg SRMatrix Async AsyncTheory AsyncSystem AsyncSweeps Nd Kernels KernelFacts
  IluApply IluApplyFacts TriSpec TriFacts.

Section Entries.
  Context {F : Type} {O : SOps F}.
  (** the matrix with pattern [M] and values [vs] *)
  Definition entry (M : srmat F) (vs : list F) (i c : nat) : F :=
    match pos M i c with Some j => vat vs j | None => s0 end.
  Definition bentry so bs (M : srmat F) (vs : list F) (I J : nat) : F :=
    match pos M (I / bs) (J / bs) with Some j => bent so bs vs j (I mod bs) (J mod bs) | None => s0 end.
End Entries.

Section Systems.
  Context {F : Type} {O : SOps F} {R : CRing F}.
  Add Ring Fr : cring.
  Open Scope s_scope.
  Variables (so : storage) (bs : nat) (M : srmat F) (ilu : list F).
  Hypothesis (Hw : wf_pat M) (Hd : wf_diag M) (Hs : wf_sorted M).
  Notation n := (nbrows M).

  Lemma low_row_sum i (g : nat -> F) : (i < n)%nat ->
    lsum g (range (rp M i) (dg M i)) =
    bsum n (fun c => if decide (c < i)%nat then match pos M i c with Some j => g j | None => s0 end else s0).
  Proof.
    intros Hi. pose proof (row_bounds M Hw Hd i Hi).
    apply (row_sum M i _ _ (fun c => c < i)%nat); auto; [apply sorted_nodup, Hs|lia|].
    intros j Hj. pose proof (before_diag M i j Hs Hd Hj). destruct Hj. lia.
  Qed.
  Lemma up_row_sum i (g : nat -> F) : (i < n)%nat ->
    lsum g (range (dg M i + 1) (rp M (i + 1))) =
    bsum n (fun c => if decide (i < c)%nat then match pos M i c with Some j => g j | None => s0 end else s0).
  Proof.
    intros Hi. pose proof (row_bounds M Hw Hd i Hi).
    apply (row_sum M i _ _ (fun c => i < c)%nat); auto; [apply sorted_nodup, Hs|lia|].
    intros j Hj. pose proof (after_diag M i j Hs Hd Hj). destruct Hj. lia.
  Qed.

  (** one-entry segments *)
  Lemma fix_at_1 (C : nat -> @P F (list F)) ms i x :
    exec ms (C i) = Ok ([x], ms) -> (i < length ms)%nat -> fix_at 1 C ms i <-> vat ms i = x.
  Proof.
    intros He Hi. unfold fix_at. split.
    - intros (seg & He' & Hk). rewrite He in He'. injection He' as <-.
      specialize (Hk 0%nat ltac:(lia)). simpl in Hk. apply vat_eq. rewrite <- Hk. f_equal. lia.
    - intros <-. exists [vat ms i]. split; [exact He|]. intros k Hk. replace k with 0%nat by lia. simpl.
      rewrite <- vat_Some by done. f_equal. lia.
  Qed.
  Lemma fix_at_bs (C : nat -> @P F (list F)) ms i u :
    exec ms (C i) = Ok (u, ms) -> length u = bs -> (i * bs + bs <= length ms)%nat ->
    fix_at bs C ms i <-> forall p, (p < bs)%nat -> vat ms (i * bs + p) = vat u p.
  Proof.
    intros He Hu Hi. unfold fix_at. split.
    - intros (seg & He' & Hk) p Hp. rewrite He in He'. injection He' as <-.
      specialize (Hk p Hp). apply vat_eq. rewrite Hk. apply vat_Some. lia.
    - intros H. exists u. split; [exact He|]. intros k Hk.
      rewrite !vat_Some by lia. f_equal. auto.
  Qed.

  (** ** Scalar *)
  Lemma exec_scalar_lowC z y i : length ilu = nnz M -> length z = n -> length y = n -> (i < n)%nat ->
    exec y (scalar_lowC M ilu z i) =
      Ok ([vat z i - bsum n (fun c => if decide (c < i)%nat then entry M ilu i c * vat y c else s0)], y).
  Proof.
    intros Hl Hz Hy Hi. pose proof (row_bounds M Hw Hd i Hi) as Hb. unfold scalar_lowC.
    rewrite (proj2 (get_Some _ _ _) (wf_browptr M i Hw ltac:(lia))).
    rewrite (proj2 (get_Some _ _ _) (wf_diagind M i Hd Hi)).
    rewrite vat_get by lia. unfold scalar_unit_lower_triangular.
    cbn [plift pbind]. rewrite exec_bind, exec_bind, exec_sdot.
    - simpl. repeat f_equal. rewrite low_row_sum by done.
      transitivity (bsum n (fun c => if decide (c < i)%nat then entry M ilu i c * vat y c else s0)); [|ring].
      match goal with |- s0 + ?a = ?b => transitivity a; [ring|] end.
      apply bsum_ext. intros c Hc. destruct (decide (c < i)%nat); [|reflexivity].
      unfold entry. destruct (pos M i c) as [j|] eqn:E; [|ring].
      apply pos_Some in E as [_ E]; [|done]. unfold col in E. rewrite E. reflexivity.
    - lia.
    - lia.
    - rewrite (wf_clen M Hw). lia.
    - intros j Hj. rewrite Hy. apply (wf_col M Hw). lia.
  Qed.
  Lemma exec_scalar_upC y x i : length ilu = nnz M -> length y = n -> length x = n -> (i < n)%nat ->
    exec x (scalar_upC M ilu y i) =
      Ok ([s1 / vat ilu (dg M i) *
           (vat y i - bsum n (fun c => if decide (i < c)%nat then entry M ilu i c * vat x c else s0))], x).
  Proof.
    intros Hl Hz Hy Hi. pose proof (row_bounds M Hw Hd i Hi) as Hb. unfold scalar_upC.
    rewrite (proj2 (get_Some _ _ _) (wf_diagind M i Hd Hi)).
    rewrite (proj2 (get_Some _ _ _) (wf_browptr M (i + 1) Hw ltac:(lia))).
    cbn [plift pbind]. rewrite (vat_get ilu) by lia. rewrite vat_get by lia. unfold scalar_upper_triangular.
    cbn [plift pbind]. rewrite exec_bind, exec_bind, exec_sdot.
    - simpl. repeat f_equal. rewrite up_row_sum by done.
      match goal with |- s0 + ?a = ?b => transitivity a; [ring|] end.
      apply bsum_ext. intros c Hc. destruct (decide (i < c)%nat); [|reflexivity].
      unfold entry. destruct (pos M i c) as [j|] eqn:E; [|ring].
      apply pos_Some in E as [_ E]; [|done]. unfold col in E. rewrite E. reflexivity.
    - lia.
    - lia.
    - rewrite (wf_clen M Hw). lia.
    - intros j Hj. rewrite Hy. apply (wf_col M Hw). lia.
  Qed.

  Lemma sub_eq (a b c : F) : a = b - c <-> c + a = b.
  Proof. split; [intros ->; ring|intros <-; ring]. Qed.

  Lemma unitlower_row A i (y : list F) : (i < n)%nat ->
    bsum n (fun j => unitlower A i j * vat y j) =
    bsum n (fun c => if decide (c < i)%nat then A i c * vat y c else s0) + vat y i.
  Proof.
    intros Hi. rewrite (bsum_split3 n i) by done.
    rewrite (bsum_zero n (fun c => if decide (i < c)%nat then _ else s0)).
    - rewrite (bsum_ext n _ (fun c => if decide (c < i)%nat then A i c * vat y c else s0)).
      + unfold unitlower. rewrite decide_False, decide_True by lia. ring.
      + intros c Hc. unfold unitlower. destruct (decide (c < i)%nat); reflexivity.
    - intros c Hc. unfold unitlower. destruct (decide (i < c)%nat); [|reflexivity].
      rewrite decide_False, decide_False by lia. ring.
  Qed.
  Lemma scalar_lower_solution rhs y : length ilu = nnz M -> length rhs = n ->
    lower_solution 1 n (scalar_lowC M ilu) rhs y <->
    length y = n /\ is_prod n (unitlower (entry M ilu)) y rhs.
  Proof.
    intros Hl Hr. unfold lower_solution, is_prod. rewrite Nat.mul_1_r.
    split; intros [Hy H]; (split; [exact Hy|]); intros i Hi; specialize (H i Hi).
    - rewrite (fix_at_1 _ y i _ (exec_scalar_lowC rhs y i Hl Hr Hy Hi)) in H by lia. apply sub_eq in H.
      rewrite unitlower_row by done. exact H.
    - rewrite (fix_at_1 _ y i _ (exec_scalar_lowC rhs y i Hl Hr Hy Hi)) by lia. apply sub_eq.
      rewrite <- unitlower_row by done. exact H.
  Qed.
  Lemma entry_diag i : (i < n)%nat -> entry M ilu i i = vat ilu (dg M i).
  Proof. intros Hi. unfold entry. rewrite (pos_diag M i (sorted_nodup M Hs) Hd Hi). reflexivity. Qed.
  Lemma upper_row A i (x : list F) : (i < n)%nat ->
    bsum n (fun j => upper A i j * vat x j) =
    A i i * vat x i + bsum n (fun c => if decide (i < c)%nat then A i c * vat x c else s0).
  Proof.
    intros Hi. rewrite (bsum_split3 n i) by done.
    rewrite (bsum_zero n (fun c => if decide (c < i)%nat then _ else s0)).
    - rewrite (bsum_ext n _ (fun c => if decide (i < c)%nat then A i c * vat x c else s0)).
      + unfold upper. rewrite decide_True by lia. ring.
      + intros c Hc. unfold upper. destruct (decide (i < c)%nat); [|reflexivity]. rewrite decide_True by lia. reflexivity.
    - intros c Hc. unfold upper. destruct (decide (c < i)%nat); [|reflexivity]. rewrite decide_False by lia. ring.
  Qed.

  (** ** Block *)
  Hypothesis Hbs : (1 <= bs)%nat.
  Lemma bentry_flat i p c q : (p < bs)%nat -> (q < bs)%nat ->
    bentry so bs M ilu (i * bs + p) (c * bs + q) =
    match pos M i c with Some j => bent so bs ilu j p q | None => s0 end.
  Proof. intros Hp Hq. unfold bentry. rewrite !flat_div, !flat_mod by done. reflexivity. Qed.

  Lemma exec_block_low_dot y i : length ilu = (nnz M * (bs * bs))%nat -> length y = (n * bs)%nat -> (i < n)%nat ->
    exists u, exec y (bdot so bs ilu (bcolind M) (rp M i) (dg M i) (bzero bs)) = Ok (u, y) /\ length u = bs /\
      forall p, (p < bs)%nat -> vat u p =
        bsum n (fun c => if decide (c < i)%nat then
          bsum bs (fun q => bentry so bs M ilu (i * bs + p) (c * bs + q) * vat y (c * bs + q)) else s0).
  Proof.
    intros Hl Hy Hi. pose proof (row_bounds M Hw Hd i Hi) as Hb.
    destruct (exec_bdot y so bs ilu (bcolind M) (rp M i) (dg M i) (bzero bs)) as (u & He & Hu & Hv).
    - lia.
    - nia.
    - rewrite (wf_clen M Hw). lia.
    - apply bzero_length.
    - intros j q Hj Hq. pose proof (wf_col M Hw j ltac:(lia)) as Hc. unfold col in Hc. nia.
    - exists u. split; [exact He|]. split; [exact Hu|]. intros p Hp. rewrite Hv by done. rewrite vat_bzero.
      rewrite low_row_sum by done. match goal with |- s0 + ?a = ?b => transitivity a; [ring|] end.
      apply bsum_ext. intros c Hc. destruct (decide (c < i)%nat); [|reflexivity].
      destruct (pos M i c) as [j|] eqn:E.
      + assert (col M j = c) as Ec by (apply pos_Some in E as [_ E]; done). unfold col in Ec.
        apply bsum_ext. intros q Hq. rewrite bentry_flat by done. rewrite E, Ec. reflexivity.
      + symmetry. apply bsum_zero. intros q Hq. rewrite bentry_flat by done. rewrite E. ring.
  Qed.
  Lemma exec_block_up_dot y i : length ilu = (nnz M * (bs * bs))%nat -> length y = (n * bs)%nat -> (i < n)%nat ->
    exists u, exec y (bdot so bs ilu (bcolind M) (dg M i + 1) (rp M (i + 1)) (bzero bs)) = Ok (u, y) /\ length u = bs /\
      forall p, (p < bs)%nat -> vat u p =
        bsum n (fun c => if decide (i < c)%nat then
          bsum bs (fun q => bentry so bs M ilu (i * bs + p) (c * bs + q) * vat y (c * bs + q)) else s0).
  Proof.
    intros Hl Hy Hi. pose proof (row_bounds M Hw Hd i Hi) as Hb.
    destruct (exec_bdot y so bs ilu (bcolind M) (dg M i + 1) (rp M (i + 1)) (bzero bs)) as (u & He & Hu & Hv).
    - lia.
    - nia.
    - rewrite (wf_clen M Hw). lia.
    - apply bzero_length.
    - intros j q Hj Hq. pose proof (wf_col M Hw j ltac:(lia)) as Hc. unfold col in Hc. nia.
    - exists u. split; [exact He|]. split; [exact Hu|]. intros p Hp. rewrite Hv by done. rewrite vat_bzero.
      rewrite up_row_sum by done. match goal with |- s0 + ?a = ?b => transitivity a; [ring|] end.
      apply bsum_ext. intros c Hc. destruct (decide (i < c)%nat); [|reflexivity].
      destruct (pos M i c) as [j|] eqn:E.
      + assert (col M j = c) as Ec by (apply pos_Some in E as [_ E]; done). unfold col in Ec.
        apply bsum_ext. intros q Hq. rewrite bentry_flat by done. rewrite E, Ec. reflexivity.
      + symmetry. apply bsum_zero. intros q Hq. rewrite bentry_flat by done. rewrite E. ring.
  Qed.
  Lemma exec_block_lowC z y i : length ilu = (nnz M * (bs * bs))%nat -> length z = (n * bs)%nat ->
    length y = (n * bs)%nat -> (i < n)%nat ->
    exists u, exec y (block_lowC so bs M ilu z i) = Ok (u, y) /\ length u = bs /\
      forall p, (p < bs)%nat -> vat u p = vat z (i * bs + p) -
        bsum n (fun c => if decide (c < i)%nat then
          bsum bs (fun q => bentry so bs M ilu (i * bs + p) (c * bs + q) * vat y (c * bs + q)) else s0).
  Proof.
    intros Hl Hz Hy Hi. unfold block_lowC.
    rewrite (proj2 (get_Some _ _ _) (wf_browptr M i Hw ltac:(lia))).
    rewrite (proj2 (get_Some _ _ _) (wf_diagind M i Hd Hi)).
    destruct (getseg_val bs z i) as (rhs & -> & Hrl & Hrv); [nia|].
    destruct (exec_block_low_dot y i Hl Hy Hi) as (t & He & Htl & Htv).
    cbn [plift pbind]. unfold block_unit_lower_triangular. rewrite exec_bind, He. simpl.
    exists (vsub rhs t). split; [reflexivity|]. split; [apply vsub_length; auto|].
    intros p Hp. rewrite vat_vsub by lia. rewrite Hrv, Htv by done. reflexivity.
  Qed.
  Lemma exec_block_upC y x i : length ilu = (nnz M * (bs * bs))%nat -> length y = (n * bs)%nat ->
    length x = (n * bs)%nat -> (i < n)%nat ->
    exists u, exec x (block_upC so bs M ilu y i) = Ok (u, x) /\ length u = bs /\
      forall p, (p < bs)%nat -> vat u p = bsum bs (fun k => bent so bs ilu (dg M i) p k *
        (vat y (i * bs + k) -
        bsum n (fun c => if decide (i < c)%nat then
          bsum bs (fun q => bentry so bs M ilu (i * bs + k) (c * bs + q) * vat x (c * bs + q)) else s0))).
  Proof.
    intros Hl Hy Hx Hi. unfold block_upC. pose proof (row_bounds M Hw Hd i Hi) as Hb.
    rewrite (proj2 (get_Some _ _ _) (wf_diagind M i Hd Hi)).
    rewrite (proj2 (get_Some _ _ _) (wf_browptr M (i + 1) Hw ltac:(lia))).
    destruct (getseg_val bs y i) as (rhs & -> & Hrl & Hrv); [nia|].
    destruct (exec_block_up_dot x i Hl Hx Hi) as (t & He & Htl & Htv).
    cbn [plift pbind]. unfold block_upper_triangular. rewrite exec_bind, He. simpl.
    destruct (ok_bmatvec_val so bs ilu (dg M i * (bs * bs)) (vsub rhs t)) as (u & -> & Hul & Huv);
      [nia|apply vsub_length; auto|].
    exists u. split; [reflexivity|]. split; [exact Hul|].
    intros p Hp. rewrite Huv by done. apply bsum_ext. intros k Hk. unfold bent, vat at 1. f_equal.
    rewrite vat_vsub by lia. rewrite Hrv, Htv by done. reflexivity.
  Qed.

  (** row sums of block triangular matrices *)
  Lemma bunitlower_row A i p (y : list F) : (i < n)%nat -> (p < bs)%nat ->
    bsum (n * bs) (fun J => bunitlower bs A (i * bs + p) J * vat y J) =
    bsum n (fun c => if decide (c < i)%nat then
       bsum bs (fun q => A (i * bs + p)%nat (c * bs + q)%nat * vat y (c * bs + q)) else s0) + vat y (i * bs + p).
  Proof.
    intros Hi Hp. rewrite bsum_flat, (bsum_split3 n i) by done.
    rewrite (bsum_zero n (fun c => if decide (i < c)%nat then _ else s0)).
    - rewrite (bsum_ext n _ (fun c => if decide (c < i)%nat then
       bsum bs (fun q => A (i * bs + p)%nat (c * bs + q)%nat * vat y (c * bs + q)) else s0)).
      + rewrite (bsum_single bs p); auto.
        * unfold bunitlower. rewrite !flat_div by done. rewrite decide_False, decide_True by lia. ring.
        * intros q Hq Hne. unfold bunitlower. rewrite !flat_div by done. rewrite decide_False, decide_False by lia. ring.
      + intros c Hc. destruct (decide (c < i)%nat); [|reflexivity]. apply bsum_ext. intros q Hq.
        unfold bunitlower. rewrite !flat_div by done. rewrite decide_True by lia. reflexivity.
    - intros c Hc. destruct (decide (i < c)%nat) as [Hic|]; [|reflexivity]. apply bsum_zero. intros q Hq.
      unfold bunitlower. rewrite !flat_div by done. rewrite decide_False, decide_False; [ring| |lia].
      rewrite flat_eq by done. lia.
  Qed.
  Lemma bupper_row A D i p (x : list F) : (i < n)%nat -> (p < bs)%nat ->
    bsum (n * bs) (fun J => bupper bs A D (i * bs + p) J * vat x J) =
    bsum bs (fun q => D (i * bs + p)%nat (i * bs + q)%nat * vat x (i * bs + q)) +
    bsum n (fun c => if decide (i < c)%nat then
       bsum bs (fun q => A (i * bs + p)%nat (c * bs + q)%nat * vat x (c * bs + q)) else s0).
  Proof.
    intros Hi Hp. rewrite bsum_flat, (bsum_split3 n i) by done.
    rewrite (bsum_zero n (fun c => if decide (c < i)%nat then _ else s0)).
    - rewrite (bsum_ext n _ (fun c => if decide (i < c)%nat then
       bsum bs (fun q => A (i * bs + p)%nat (c * bs + q)%nat * vat x (c * bs + q)) else s0)).
      + rewrite (bsum_ext bs _ (fun q => D (i * bs + p)%nat (i * bs + q)%nat * vat x (i * bs + q))); [ring|].
        intros q Hq. unfold bupper. rewrite !flat_div by done. rewrite decide_False, decide_True by lia. reflexivity.
      + intros c Hc. destruct (decide (i < c)%nat); [|reflexivity]. apply bsum_ext. intros q Hq.
        unfold bupper. rewrite !flat_div by done. rewrite decide_True by lia. reflexivity.
    - intros c Hc. destruct (decide (c < i)%nat) as [Hic|]; [|reflexivity]. apply bsum_zero. intros q Hq.
      unfold bupper. rewrite !flat_div by done. rewrite decide_False, decide_False by lia. ring.
  Qed.

  Lemma block_lower_solution rhs y : length ilu = (nnz M * (bs * bs))%nat -> length rhs = (n * bs)%nat ->
    lower_solution bs n (block_lowC so bs M ilu) rhs y <->
    length y = (n * bs)%nat /\ is_prod (n * bs) (bunitlower bs (bentry so bs M ilu)) y rhs.
  Proof.
    intros Hl Hr. unfold lower_solution. split; intros [Hy H]; (split; [exact Hy|]).
    - intros I HI. destruct (unflat bs n I HI) as (i & p & -> & Hi & Hp).
      destruct (exec_block_lowC rhs y i Hl Hr Hy Hi) as (u & He & Hu & Hv).
      specialize (H i Hi). rewrite (fix_at_bs _ y i u He Hu) in H by nia. specialize (H p Hp).
      rewrite (Hv p Hp) in H. rewrite bunitlower_row by done. apply sub_eq in H. exact H.
    - intros i Hi. destruct (exec_block_lowC rhs y i Hl Hr Hy Hi) as (u & He & Hu & Hv).
      rewrite (fix_at_bs _ y i u He Hu) by nia. intros p Hp. rewrite (Hv p Hp). apply sub_eq.
      rewrite <- bunitlower_row by done. apply H. nia.
  Qed.
  Lemma block_upper_solution D y x : length ilu = (nnz M * (bs * bs))%nat -> length y = (n * bs)%nat ->
    (forall i, (i < n)%nat -> is_inverse bs (bent so bs ilu (dg M i)) (dblock bs D i)) ->
    upper_solution bs n (block_upC so bs M ilu) y x <->
    length x = (n * bs)%nat /\ is_prod (n * bs) (bupper bs (bentry so bs M ilu) D) x y.
  Proof.
    intros Hl Hr HD. unfold upper_solution. split; intros [Hx H]; (split; [exact Hx|]).
    - intros I HI. destruct (unflat bs n I HI) as (i & p & -> & Hi & Hp).
      destruct (exec_block_upC y x i Hl Hr Hx Hi) as (u & He & Hu & Hv).
      specialize (H i Hi). rewrite (fix_at_bs _ x i u He Hu) in H by nia.
      rewrite bupper_row by done.
      assert (forall p, (p < bs)%nat -> vat y (i * bs + p) -
        bsum n (fun c => if decide (i < c)%nat then
          bsum bs (fun q => bentry so bs M ilu (i * bs + p) (c * bs + q) * vat x (c * bs + q)) else s0) =
        bsum bs (fun q => D (i * bs + p)%nat (i * bs + q)%nat * vat x (i * bs + q))) as Hinv.
      { apply (inverse_apply bs _ _ (fun p => vat x (i * bs + p)) _ (HD i Hi)).
        intros p' Hp'. rewrite H, Hv by done. reflexivity. }
      rewrite <- Hinv by done. ring.
    - intros i Hi. destruct (exec_block_upC y x i Hl Hr Hx Hi) as (u & He & Hu & Hv).
      rewrite (fix_at_bs _ x i u He Hu) by nia. intros p Hp. rewrite (Hv p Hp).
      apply (inverse_apply bs (dblock bs D i) _
        (fun k => vat y (i * bs + k) - bsum n (fun c => if decide (i < c)%nat then
          bsum bs (fun q => bentry so bs M ilu (i * bs + k) (c * bs + q) * vat x (c * bs + q)) else s0))
        (fun p => vat x (i * bs + p)) (is_inverse_sym _ _ _ (HD i Hi))); [|done].
      intros k Hk. specialize (H (i * bs + k)%nat ltac:(nia)). rewrite bupper_row in H by done. rewrite <- H.
      unfold dblock. ring.
  Qed.
End Systems.

Section ScalarUpper.
  Context {F : Type} {O : SOps F} {R : Field F}.
  Add Ring Fr2 : cring.
  Open Scope s_scope.
  Lemma inv_mul (d a b : F) : d <> s0 -> a = s1 / d * b <-> d * a = b.
  Proof.
    intros Hd. pose proof (field_div s1 d Hd) as H. split.
    - intros ->. transitivity ((s1 / d * d) * b); [ring|]. rewrite H. ring.
    - intros <-. transitivity ((s1 / d * d) * a); [rewrite H; ring|ring].
  Qed.
  Variables (M : srmat F) (ilu : list F).
  Hypothesis (Hw : wf_pat M) (Hd : wf_diag M) (Hs : wf_sorted M).
  Notation n := (nbrows M).
  Lemma scalar_upper_solution y x : length ilu = nnz M -> length y = n ->
    (forall i, (i < n)%nat -> vat ilu (dg M i) <> s0) ->
    upper_solution 1 n (scalar_upC M ilu) y x <->
    length x = n /\ is_prod n (upper (entry M ilu)) x y.
  Proof.
    intros Hl Hr Hp. unfold upper_solution, is_prod. rewrite Nat.mul_1_r.
    split; intros [Hx H]; (split; [exact Hx|]); intros i Hi; specialize (H i Hi).
    - rewrite (fix_at_1 _ x i _ (exec_scalar_upC M ilu Hw Hd Hs y x i Hl Hr Hx Hi)) in H by lia.
      rewrite upper_row, entry_diag by done. apply inv_mul in H; [|auto]. rewrite H. ring.
    - rewrite (fix_at_1 _ x i _ (exec_scalar_upC M ilu Hw Hd Hs y x i Hl Hr Hx Hi)) by lia.
      apply inv_mul; [auto|]. rewrite upper_row, entry_diag in H by done. rewrite <- H. ring.
  Qed.
End ScalarUpper.
