(** * PropPoissonSolve (C107): the library on the Poisson test problem

    The Poisson matrix is only weakly dominant in most rows, but with the weights (x_max - x)(x - x_min) it is strictly
    dominant. So ILU(0) cannot break down on it and relaxation converges under every schedule, for every mesh. *)
From Coq Require Import ZArith QArith.Qcanon QArith.Qcabs.
From Verif Require Import Base Alg Norms SymSpec SRMatrix Async AsyncTheory AsyncSystem AsyncSweeps Nd Kernels KernelFacts
  IluPattern IluPatternFacts IluApply TriSpec TriFacts IluApplyFacts IluApplyProofs Chains IluApplyMain Sgs SgsForms SgsMain
  IluFactor IluFactorFacts IluFactorProofs IluFactorInit IluFactorMain PropIluFactor PropIluApply PropConverge DominantLu PropDominantIlu
  Poisson PoissonSpec PoissonFacts PropPoisson Inst PropLinearEx.
Open Scope nat_scope.

(** ** Specification *)
Section Spec.
  Context {F : Type} {O : SOps F}.
  (** [number] numbers the interior points of the mesh: 0, ..., n-1 *)
  Definition numbering (m : mesh F) (n : nat) (number : nat -> pnt) : Prop :=
    (forall a, a < n -> grid m (number a)) /\ (forall a b, a < n -> b < n -> number a = number b -> a = b) /\
    (forall p, grid m p -> exists a, a < n /\ number a = p).
  (** the entry in row [a] and column [b] of the matrix with entries [E]: its value on the b-th unit vector *)
  Definition numbered (E : list (pnt * pnt * F)) (number : nat -> pnt) (a b : nat) : F :=
    row_apply E (fun p => if decide (p = number b) then s1 else s0) (number a).
  (** the sparse-row matrix [M] is the matrix with entries [E] *)
  Definition stores (M : srmat F) (E : list (pnt * pnt * F)) (number : nat -> pnt) : Prop :=
    forall a b, a < nbrows M -> b < nbrows M -> dense M a b = numbered E number a b.
  (** the absolute value of an ordered field *)
  Definition absolute (pos : F -> Prop) (mag : F -> F) : Prop :=
    mag s0 = s0 /\ forall a, pos a -> mag a = a /\ mag (sopp a) = a.
End Spec.

Section Prop107.
  Context {F : Type} {O : SOps F} {FL : Field F}.
  Add Ring Fr : (@cring F O field_ring).
  Open Scope s_scope.
  Variable pos : F -> Prop.
  Hypothesis Hpos : ordered pos.
  Variable mag : F -> F.
  Hypothesis Habs : absolute pos mag.
  Notation le := (PropPoisson.le pos).

  Lemma nn_prod a b : at_least_zero pos a -> at_least_zero pos b -> at_least_zero pos (a * b).
  Proof. intros [-> |Ha] Hb; [left; ring|apply (nn_mul pos Hpos); done]. Qed.
  Lemma le_0 a : le s0 a <-> at_least_zero pos a.
  Proof. unfold PropPoisson.le. replace (a - s0) with a by ring. reflexivity. Qed.
  Lemma mag_cases a : (at_least_zero pos a /\ mag a = a) \/ (pos (sopp a) /\ mag a = sopp a).
  Proof.
    destruct Habs as [H0 H]. destruct (pos_total _ Hpos a) as [-> |[Ha|Ha]]; [left; split; [left; done|exact H0]|left; split; [right; done|apply H, Ha]|].
    right. split; [exact Ha|]. destruct (H _ Ha) as [_ E]. replace (sopp (sopp a)) with a in E by ring. exact E.
  Qed.
  Lemma mag_nn a : at_least_zero pos a -> mag a = a.
  Proof. destruct Habs as [H0 H]. intros [-> |Ha]; [exact H0|apply H, Ha]. Qed.
  Lemma mag_neg a : mag (sopp a) = mag a.
  Proof.
    destruct Habs as [H0 H]. destruct (pos_total _ Hpos a) as [-> |[Ha|Ha]].
    - replace (sopp s0) with (s0 : F) by ring. reflexivity.
    - destruct (H _ Ha) as [E1 E2]. congruence.
    - destruct (H _ Ha) as [E1 E2]. replace (sopp (sopp a)) with a in E2 by ring. congruence.
  Qed.
  Lemma mag_nneg a : at_least_zero pos (mag a).
  Proof. destruct (mag_cases a) as [[H ->]|[H ->]]; [exact H|right; exact H]. Qed.
  Lemma le_mag a : le a (mag a) /\ le (sopp a) (mag a).
  Proof.
    unfold PropPoisson.le. destruct (mag_cases a) as [[H ->]|[H ->]]; split.
    - left; ring.
    - replace (a - sopp a) with (a + a) by ring. apply (nn_add pos Hpos); done.
    - replace (sopp a - a) with (sopp a + sopp a) by ring. right. apply (pos_add _ Hpos); done.
    - left; ring.
  Qed.
  Lemma ordered_magnitude : Magnitude F mag le.
  Proof.
    assert (forall a b c d, le a b -> le c d -> le (a + c) (b + d)) as Hadd.
    { intros a b c d H1 H2. unfold PropPoisson.le. replace (b + d - (a + c)) with ((b - a) + (d - c)) by ring. apply (nn_add pos Hpos); done. }
    constructor.
    - apply PropPoisson.le_refl.
    - apply (PropPoisson.le_trans pos Hpos).
    - exact Hadd.
    - intros a b c Hc H. apply (proj1 (le_0 c)) in Hc. unfold PropPoisson.le. replace (c * b - c * a) with (c * (b - a)) by ring. apply nn_prod; [exact Hc|exact H].
    - intros a. apply (proj2 (le_0 _)), mag_nneg.
    - exact (proj1 Habs).
    - apply mag_nn. right. apply (p_one pos Hpos).
    - apply mag_neg.
    - intros a b. destruct (mag_cases (a + b)) as [[_ ->]|[_ ->]].
      + apply Hadd; apply le_mag.
      + replace (sopp (a + b)) with (sopp a + sopp b) by ring. apply Hadd; apply le_mag.
    - intros a b. destruct (mag_cases a) as [[Ha ->]|[Ha ->]], (mag_cases b) as [[Hb ->]|[Hb ->]].
      + apply mag_nn, nn_prod; done.
      + rewrite <- mag_neg. replace (sopp (a * b)) with (a * sopp b) by ring. apply mag_nn, nn_prod; [done|right; done].
      + rewrite <- mag_neg. replace (sopp (a * b)) with (sopp a * b) by ring. apply mag_nn, nn_prod; [right; done|done].
      + replace (a * b) with (sopp a * sopp b) by ring. apply mag_nn, nn_prod; right; done.
  Qed.
  Local Instance the_magnitude : Magnitude F mag le := ordered_magnitude.

  (** ** The weights *)
  Lemma above x i j : increasing pos x -> (i < j)%nat -> (j < length x)%nat -> pos (vat x j - vat x i).
  Proof.
    intros Hx Hij. induction Hij as [|j Hij IH]; intros Hj.
    - replace (S i) with (i + 1)%nat by lia. apply Hx. lia.
    - replace (vat x (S j) - vat x i) with ((vat x (j + 1) - vat x j) + (vat x j - vat x i)) by (replace (j + 1)%nat with (S j) by lia; ring).
      apply (pos_add _ Hpos); [apply Hx; lia|apply IH; lia].
  Qed.
  Definition weight (x : list F) (i : Z) : F := (vat x (length x - 1) - place x i) * (place x i - vat x 0).
  Lemma weight_nn x i : increasing pos x -> (-1 <= i /\ i + 1 < Z.of_nat (length x))%Z -> at_least_zero pos (weight x i).
  Proof.
    intros Hx Hi. unfold weight, place. apply nn_prod.
    - destruct (decide (Z.to_nat (i + 1) = length x - 1)%nat) as [->|H]; [left; ring|right; apply above; [done|lia|lia]].
    - destruct (decide (Z.to_nat (i + 1) = 0)%nat) as [->|H]; [left; ring|right; apply above; [done|lia|lia]].
  Qed.
  Lemma weight_pos x i : increasing pos x -> on_axis x i -> pos (weight x i).
  Proof. intros Hx [H1 H2]. unfold weight, place. apply (pos_mul _ Hpos); apply above; try done; lia. Qed.
  Definition wgt (m : mesh F) (p : pnt) : F := match p with (k, j, i) => weight (cx m) i end.
  Lemma wgt_laplacian m p : good_mesh pos m -> grid m p -> minus_laplacian m (wgt m) p = two.
  Proof.
    intros (Gx & Gy & Gz) Hp. destruct p as [[k j] i]. destruct Hp as (Hk & Hj & Hi). unfold minus_laplacian, wgt.
    rewrite (diff_eq pos Hpos (cy m) j), (diff_eq pos Hpos (cz m) k) by (first [apply gap_lo|apply gap_hi]; assumption).
    pose proof (diff_quadratic pos Hpos (cx m) i (gap_lo _ _ _ Gx Hi) (gap_hi _ _ _ Gx Hi)
      (sopp (vat (cx m) (length (cx m) - 1) * vat (cx m) 0)) (vat (cx m) (length (cx m) - 1) + vat (cx m) 0) (sopp s1)) as D. cbv beta zeta in D.
    assert (forall t, weight (cx m) t = sopp (vat (cx m) (length (cx m) - 1) * vat (cx m) 0) + (vat (cx m) (length (cx m) - 1) + vat (cx m) 0) * place (cx m) t + sopp s1 * place (cx m) t * place (cx m) t) as W
      by (intros t; unfold weight; ring).
    rewrite <- !W in D. rewrite D. ring.
  Qed.

  Section Numbered.
    Variables (m : mesh F) (n : nat) (number : nat -> pnt).
    Hypothesis Hm : good_mesh pos m.
    Hypothesis Hnum : numbering m n number.
    Let unit b : pnt -> F := fun p => if decide (p = number b) then s1 else s0.
    Let A a b : F := minus_laplacian m (unit b) (number a).
    Let w a : F := wgt m (number a).
    (** the weights on the grid and zero outside *)
    Definition inside (p : pnt) : F := bsum n (fun b => unit b p * w b).
    Lemma inside_grid p : grid m p -> inside p = wgt m p.
    Proof.
      intros Hp. destruct Hnum as (H1 & H2 & H3). destruct (H3 p Hp) as (a & Ha & <-). unfold inside. rewrite (bsum_single n a); [|exact Ha|].
      - unfold unit, w. rewrite decide_True by reflexivity. ring.
      - intros b Hb Hne. unfold unit. rewrite decide_False; [ring|]. intros E. apply Hne. symmetry. apply H2; done.
    Qed.
    Lemma inside_out p : ~ grid m p -> inside p = s0.
    Proof.
      intros Hp. unfold inside. apply bsum_zero. intros b Hb. unfold unit. rewrite decide_False; [ring|]. intros ->. apply Hp, (proj1 Hnum), Hb.
    Qed.
    Lemma inside_le p : (match p with (k, j, i) => -1 <= i /\ i + 1 < Z.of_nat (length (cx m)) end)%Z -> at_least_zero pos (wgt m p - inside p).
    Proof.
      intros Hp. destruct (grid_dec m p) as [Hg|Hg].
      - rewrite inside_grid by done. left. ring.
      - rewrite inside_out by done. replace (wgt m p - s0) with (wgt m p) by ring. destruct p as [[k j] i]. apply weight_nn; [apply Hm|exact Hp].
    Qed.
    Let low x i := wlow x i.
    Lemma laplacian_weights u k j i : grid m (k, j, i) -> minus_laplacian m u (k, j, i) =
      (wlow (cx m) i + wup (cx m) i + (wlow (cy m) j + wup (cy m) j) + (wlow (cz m) k + wup (cz m) k)) * u (k, j, i)
      - (wlow (cx m) i * u (k, j, i - 1)%Z + wup (cx m) i * u (k, j, i + 1)%Z + (wlow (cy m) j * u (k, j - 1, i)%Z + wup (cy m) j * u (k, j + 1, i)%Z)
         + (wlow (cz m) k * u (k - 1, j, i)%Z + wup (cz m) k * u (k + 1, j, i)%Z)).
    Proof.
      intros (Hk & Hj & Hi). destruct Hm as (Gx & Gy & Gz). unfold minus_laplacian.
      rewrite !(diff_eq pos Hpos) by (first [apply gap_lo|apply gap_hi]; assumption). ring.
    Qed.
    Lemma weights_pos k j i : grid m (k, j, i) ->
      pos (wlow (cx m) i) /\ pos (wup (cx m) i) /\ pos (wlow (cy m) j) /\ pos (wup (cy m) j) /\ pos (wlow (cz m) k) /\ pos (wup (cz m) k).
    Proof.
      intros (Hk & Hj & Hi). destruct Hm as (Gx & Gy & Gz).
      repeat split; first [apply (p_wlow pos Hpos)|apply (p_wup pos Hpos)]; first [apply gap_lo|apply gap_hi]; assumption.
    Qed.
    (** applied to the weights the matrix gives at least two *)
    Lemma inside_laplacian p : grid m p -> at_least_zero pos (minus_laplacian m inside p - two).
    Proof.
      intros Hp. rewrite <- (wgt_laplacian m p Hm Hp). destruct p as [[k j] i]. rewrite !laplacian_weights by done. rewrite (inside_grid _ Hp).
      destruct (weights_pos k j i Hp) as (P1 & P2 & P3 & P4 & P5 & P6). destruct Hp as ([K1 K2] & [J1 J2] & [I1 I2]).
      match goal with |- at_least_zero pos ?e => replace e with
        (wlow (cx m) i * (wgt m (k, j, i - 1)%Z - inside (k, j, i - 1)%Z) + wup (cx m) i * (wgt m (k, j, i + 1)%Z - inside (k, j, i + 1)%Z)
        + (wlow (cy m) j * (wgt m (k, j - 1, i)%Z - inside (k, j - 1, i)%Z) + wup (cy m) j * (wgt m (k, j + 1, i)%Z - inside (k, j + 1, i)%Z))
        + (wlow (cz m) k * (wgt m (k - 1, j, i)%Z - inside (k - 1, j, i)%Z) + wup (cz m) k * (wgt m (k + 1, j, i)%Z - inside (k + 1, j, i)%Z))) by ring end.
      repeat apply (nn_add pos Hpos); apply (nn_mul pos Hpos); try assumption; apply inside_le; lia.
    Qed.
    (** linearity *)
    Lemma sum_rows a : (a < n)%nat -> bsum n (fun b => A a b * w b) = minus_laplacian m inside (number a).
    Proof.
      intros Ha. pose proof (proj1 Hnum a Ha) as Hp. unfold A. destruct (number a) as [[k j] i] eqn:Ep. rewrite laplacian_weights by done.
      erewrite bsum_ext by (intros b Hb; rewrite laplacian_weights by done; reflexivity).
      unfold inside.
      set (D := wlow (cx m) i + wup (cx m) i + (wlow (cy m) j + wup (cy m) j) + (wlow (cz m) k + wup (cz m) k)).
      rewrite (bsum_ext n _ (fun b => D * (unit b (k, j, i) * w b)
        - (wlow (cx m) i * (unit b (k, j, i - 1)%Z * w b) + wup (cx m) i * (unit b (k, j, i + 1)%Z * w b) + (wlow (cy m) j * (unit b (k, j - 1, i)%Z * w b) + wup (cy m) j * (unit b (k, j + 1, i)%Z * w b))
         + (wlow (cz m) k * (unit b (k - 1, j, i)%Z * w b) + wup (cz m) k * (unit b (k + 1, j, i)%Z * w b))))) by (intros; ring).
      rewrite bsum_sub, !bsum_add, !bsum_mul_l. reflexivity.
    Qed.
    Lemma diag_pos a : (a < n)%nat -> pos (A a a).
    Proof.
      intros Ha. pose proof (proj1 Hnum a Ha) as Hp. unfold A. destruct (number a) as [[k j] i] eqn:Ep. rewrite laplacian_weights by done.
      destruct (weights_pos k j i Hp) as (P1 & P2 & P3 & P4 & P5 & P6). unfold unit. rewrite Ep. rewrite decide_True by reflexivity.
      rewrite !decide_False by (intros EE; injection EE; lia).
      match goal with |- pos ?e => replace e with (wlow (cx m) i + wup (cx m) i + (wlow (cy m) j + wup (cy m) j) + (wlow (cz m) k + wup (cz m) k)) by ring end.
      repeat apply (pos_add _ Hpos); done.
    Qed.
    Lemma off_nonpos a b : (a < n)%nat -> (b < n)%nat -> b <> a -> mag (A a b) = sopp (A a b).
    Proof.
      intros Ha Hb Hne. rewrite <- mag_neg. apply mag_nn. pose proof (proj1 Hnum a Ha) as Hp. unfold A.
      assert (number a <> number b) as Hab by (intros E; apply Hne; symmetry; apply Hnum; done).
      destruct (number a) as [[k j] i] eqn:Ep. rewrite laplacian_weights by done. destruct (weights_pos k j i Hp) as (P1 & P2 & P3 & P4 & P5 & P6).
      assert (unit b (k, j, i) = s0) as -> by (unfold unit; rewrite decide_False by done; reflexivity).
      assert (forall p, at_least_zero pos (unit b p)) as N by (intros p; unfold unit; destruct (decide _); [right; apply (p_one pos Hpos)|left; reflexivity]).
      match goal with |- at_least_zero pos (sopp (?d * s0 - ?e)) => replace (sopp (d * s0 - e)) with e by ring end.
      repeat apply (nn_add pos Hpos); apply (nn_mul pos Hpos); try assumption; apply N.
    Qed.
    Lemma w_pos a : (a < n)%nat -> pos (w a).
    Proof. intros Ha. pose proof (proj1 Hnum a Ha) as Hp. unfold w. destruct (number a) as [[k j] i]. apply weight_pos; [apply Hm|apply Hp]. Qed.
    (** a bound for all rows *)
    Let B : F := two + bsum n (fun a => A a a * w a).
    Lemma sum_nn l (f : nat -> F) : (forall a, (a < l)%nat -> at_least_zero pos (f a)) -> at_least_zero pos (bsum l f).
    Proof. induction l as [|l IH]; intros H; simpl; [left; reflexivity|]. apply (nn_add pos Hpos); [apply IH; intros; apply H; lia|apply H; lia]. Qed.
    Lemma sum_above l (f : nat -> F) a : (a < l)%nat -> (forall a, (a < l)%nat -> at_least_zero pos (f a)) -> at_least_zero pos (bsum l f - f a).
    Proof.
      induction l as [|l IH]; intros Ha H; [lia|]. simpl. destruct (decide (a = l)) as [-> |Hne].
      - replace (bsum l f + f l - f l) with (bsum l f) by ring. apply sum_nn. intros; apply H; lia.
      - replace (bsum l f + f l - f a) with ((bsum l f - f a) + f l) by ring. apply (nn_add pos Hpos); [apply IH; [lia|intros; apply H; lia]|apply H; lia].
    Qed.
    Lemma row_nn a : (a < n)%nat -> at_least_zero pos (A a a * w a).
    Proof. intros Ha. right. apply (pos_mul _ Hpos); [apply diag_pos, Ha|apply w_pos, Ha]. Qed.
    Lemma B_two : at_least_zero pos (B - two).
    Proof. unfold B. match goal with |- at_least_zero pos (?t + ?s - ?t) => replace (t + s - t) with s by ring end. apply sum_nn, row_nn. Qed.
    Lemma B_pos : pos B.
    Proof. replace B with (two + (B - two)) by ring. destruct B_two as [-> |H]; [replace (two + s0) with (two : F) by ring; apply (p_two pos Hpos)|apply (pos_add _ Hpos); [apply (p_two pos Hpos)|done]]. Qed.
    Definition rate : F := s1 - two * (s1 / B).
    Lemma rate_laws : le s0 rate /\ le rate s1 /\ ~ le s1 rate.
    Proof.
      pose proof (p_inv pos Hpos B B_pos) as PB. pose proof (inv_r B (p_ne pos Hpos B B_pos)) as E. split; [|split].
      - apply (proj2 (le_0 _)). unfold rate. rewrite <- E at 1. replace (B * (s1 / B) - two * (s1 / B)) with ((s1 / B) * (B - two)) by ring. apply (nn_mul pos Hpos); [done|apply B_two].
      - unfold PropPoisson.le, rate. replace (s1 - (s1 - two * (s1 / B))) with (two * (s1 / B)) by ring. right. apply (pos_mul _ Hpos); [apply (p_two pos Hpos)|done].
      - intros H. apply (not_both pos Hpos _ H). unfold rate. replace (sopp (s1 - two * (s1 / B) - s1)) with (two * (s1 / B)) by ring. apply (pos_mul _ Hpos); [apply (p_two pos Hpos)|done].
    Qed.
    Lemma numbered_dominant : dominant mag le n A w rate.
    Proof.
      intros a Ha. rewrite (mag_nn (A a a)) by (right; apply diag_pos, Ha).
      assert (bsum n (fun j => if decide (j = a) then s0 else mag (A a j) * w j) = A a a * w a - minus_laplacian m inside (number a)) as ->.
      { rewrite <- sum_rows by done. rewrite (bsum_ext n _ (fun b => (if decide (b = a) then A a b * w b else s0) - A a b * w b)).
        - rewrite bsum_sub, (bsum_delta n a (fun b => A a b * w b)) by done. reflexivity.
        - intros b Hb. destruct (decide (b = a)) as [-> |Hne]; [ring|]. rewrite off_nonpos by done. ring. }
      unfold PropPoisson.le. pose proof (inside_laplacian _ (proj1 Hnum a Ha)) as HI.
      pose proof (p_inv pos Hpos B B_pos) as PB. pose proof (inv_r B (p_ne pos Hpos B B_pos)) as E.
      assert (at_least_zero pos (B - A a a * w a)) as HB.
      { unfold B. match goal with |- at_least_zero pos (two + ?s - ?f) => replace (two + s - f) with (two + (s - f)) by ring end. apply (nn_add pos Hpos); [right; apply (p_two pos Hpos)|].
        apply (sum_above n (fun a => A a a * w a)); [exact Ha|apply row_nn]. }
      set (L := minus_laplacian m inside (number a)) in *. set (f := A a a * w a) in *.
      replace (rate * A a a * w a - (f - L)) with ((L - two) + two * (s1 - (s1 / B) * f)) by (unfold rate, f; ring).
      apply (nn_add pos Hpos); [exact HI|]. apply (nn_mul pos Hpos); [apply (p_two pos Hpos)|]. rewrite <- E at 1.
      replace (B * (s1 / B) - s1 / B * f) with ((s1 / B) * (B - f)) by ring. apply (nn_mul pos Hpos); done.
    Qed.
  End Numbered.

  Lemma dominant_ext n A A' u rho : (forall i j, (i < n)%nat -> (j < n)%nat -> A i j = A' i j) -> dominant mag le n A u rho -> dominant mag le n A' u rho.
  Proof.
    intros E H i Hi. pose proof (H i Hi) as D. rewrite <- (E i i) by done.
    rewrite (bsum_ext n _ (fun j => if decide (j = i) then s0 else mag (A i j) * u j)); [exact D|].
    intros j Hj. destruct (decide (j = i)); [reflexivity|]. rewrite E by done. reflexivity.
  Qed.

  (** A sparse-row matrix that stores the assembled Poisson matrix under any numbering is strictly dominant with positive
      weights that depend only on the mesh and the numbering. *)
  Theorem C107_dominant m bs n number : good_mesh pos m -> partition m bs -> numbering m n number ->
    ok (mapr (computeLHS m) bs) (fun parts => exists u rho, positive_weights le n u /\ le s0 rho /\ le rho s1 /\ ~ le s1 rho /\
      forall M, nbrows M = n -> stores M (concat parts) number -> (forall i, (i < n)%nat -> pos (dense M i i)) /\ dominant mag le n (dense M) u rho).
  Proof.
    intros Hm Hb Hn. eapply ok_mono; [apply (C105_matrix pos Hpos m bs Hm Hb)|]. cbv zeta. intros parts (H & _).
    exists (fun a => wgt m (number a)), (rate m n number). split; [|split; [|split; [|split]]].
    - intros a Ha. pose proof (w_pos m n number Hm Hn a Ha) as P. split; [apply (p_ne pos Hpos), P|]. split; apply (proj2 (le_0 _)); right; [exact P|apply (p_inv pos Hpos), P].
    - apply rate_laws; done.
    - apply rate_laws; done.
    - apply rate_laws; done.
    - intros M HM Hs. assert (forall i j, (i < n)%nat -> (j < n)%nat -> minus_laplacian m (fun p => if decide (p = number j) then s1 else s0) (number i) = dense M i j) as E.
      { intros i j Hi Hj. rewrite Hs by lia. unfold numbered. symmetry. apply H. apply Hn, Hi. }
      split.
      + intros i Hi. rewrite <- E by done. apply (diag_pos m n number Hm Hn i Hi).
      + eapply dominant_ext; [exact E|]. apply numbered_dominant; done.
  Qed.

  (** ILU(0) of the Poisson matrix does not break down: the ordered computation gives factors with nonzero pivots that
      reproduce the matrix on its pattern, whatever the options, and LU x = r always has exactly one solution. *)
  Theorem C107_no_breakdown (ssqrt sabs : F -> F) m bs n number usescaling : good_mesh pos m -> partition m bs -> numbering m n number ->
    (usescaling = true -> forall a, pos a -> ssqrt a <> s0) ->
    ok (mapr (computeLHS m) bs) (fun parts => forall M, wf_mat M -> length (vals M) = nnz M -> nbrows M = n -> stores M (concat parts) number ->
      let scale := scale_used ssqrt usescaling n (dense M) in
      exists lu, length lu = nnz M /\ (forall i, (i < n)%nat -> entry M lu i i <> s0) /\
        exact_on_pattern M (unitlower (entry M lu)) (upper (entry M lu)) (scaled_mat scale (dense M)) /\
        (forall k chunk usethreads nthr finit info gi gs,
          length gi = nnz M -> length gs = n -> (1 <= k)%nat -> (1 <= chunk)%nat -> usethreads = false \/ nthr = 1%nat ->
          finit <> INIT_F_SGS \/ usescaling = false ->
          nok (scalar_ilu0_compute ssqrt sabs k chunk usethreads nthr finit usescaling info gi gs M ilu_new)
              (fun '(st, _) => st_ilu st = Some lu /\ st_scale st = scale)) /\
        forall r, length r = n -> exists x, length x = n /\ is_prod n (mprod n (unitlower (entry M lu)) (upper (entry M lu))) x (scaled_rhs scale r) /\
          forall x', length x' = n -> is_prod n (mprod n (unitlower (entry M lu)) (upper (entry M lu))) x' (scaled_rhs scale r) -> x' = x).
  Proof.
    intros Hm Hb Hn Hsq. eapply ok_mono; [apply (C107_dominant m bs n number Hm Hb Hn)|]. cbv beta. intros parts (u & rho & Hu & H0 & H1 & H2 & H) M Hwf Hv HM Hs. cbv zeta.
    destruct (H M HM Hs) as [Hd Hdom]. subst n.
    destruct (C76_no_breakdown (mag := mag) (le := le) ssqrt sabs M usescaling u rho Hwf Hv) as (lu & L1 & L2 & L3 & L4 & L5); try assumption.
    - intros i Hi. apply (p_ne pos Hpos), Hd, Hi.
    - intros E i Hi. apply (Hsq E), Hd, Hi.
    - exists lu. split; [exact L1|]. split; [exact L2|]. split; [exact L3|]. split; [exact L4|]. intros r Hr. destruct (L5 r Hr) as (x & X1 & X2 & X3 & _). exists x. auto.
  Qed.
  (** Asynchronous and symmetric Gauss-Seidel relaxation of the Poisson matrix approach the solution by a fixed factor below
      one with each call, under every schedule. *)
  Theorem C107_converges m bs n number : good_mesh pos m -> partition m bs -> numbering m n number ->
    ok (mapr (computeLHS m) bs) (fun parts => exists u rho, positive_weights le n u /\ le s0 rho /\ le rho s1 /\ ~ le s1 rho /\
      forall M b xs x e d0, wf_mat M -> length (vals M) = nnz M -> nbrows M = n -> stores M (concat parts) number ->
      length b = n -> length xs = n -> is_prod n (dense M) xs b -> length d0 = n -> le s0 e -> error_within mag le n u xs e x ->
      forall calls : list (nat * nat * nat), Forall (fun '(steps, chunk, nthr) => 1 <= steps /\ 1 <= chunk /\ 1 <= nthr)%nat calls ->
      nok (ndo d := jacobi_setup M d0 in
           in_turn ((fun '(steps, chunk, nthr) => chaotic_relax 1 n (scalar_relaxC M d) steps chunk nthr b) <$> calls) x)
          (error_within mag le n u xs (spow rho (length calls) * e)) /\
      nok (ndo d := jacobi_setup M d0 in
           in_turn ((fun '(its, chunk, nthr) => sgs_relax 1 n (scalar_relaxC M d) its chunk nthr b) <$> calls) x)
          (error_within mag le n u xs (spow rho (length calls) * e))).
  Proof.
    intros Hm Hb Hn. eapply ok_mono; [apply (C107_dominant m bs n number Hm Hb Hn)|]. cbv beta. intros parts (u & rho & Hu & H0 & H1 & H2 & H).
    exists u, rho. split; [exact Hu|]. split; [exact H0|]. split; [exact H1|]. split; [exact H2|].
    intros M b xs x e d0 Hwf Hv HM Hs Lb Lx Hp Ld He Hx calls Hc. destruct (H M HM Hs) as [Hd Hdom]. subst n.
    apply (C74_every_schedule (mag := mag) (le := le) M b xs u rho d0 x e); try assumption.
    - intros i Hi. apply (p_ne pos Hpos), Hd, Hi.
    - intros i Hi. apply Hu, Hi.
  Qed.
End Prop107.

(** ** A case: two interior points *)
Definition ex_mesh2 : mesh Qc := Mesh (q <$> [0; 1; 2; 3]%Z) (q <$> [0; 1; 2]%Z) (q <$> [0; 1; 2]%Z).
Definition ex_number (a : nat) : pnt := (0, 0, Z.of_nat a)%Z.
Definition ex_M2 : srmat Qc := SR [0; 2; 4] [0; 1; 0; 1] (q <$> [6; -1; -1; 6]%Z) [0; 3] [2; 4] 2 4 4.
Lemma ex_good2 : good_mesh qpos ex_mesh2.
Proof.
  assert (forall x : list Qc, forallb (fun i => match (vat x (i + 1) - vat x i)%Qc ?= q 0 with Gt => true | _ => false end)%Qc (seq 0 (length x - 1)) = true -> increasing qpos x) as H.
  { intros x Hx i Hi. pose proof (forallb_seq _ _ Hx i ltac:(lia)) as E. cbv beta in E. unfold qpos.
    change (vat x (i + 1) - vat x i)%s with (vat x (i + 1) - vat x i)%Qc. apply Qcgt_alt. destruct (_ ?= _)%Qc; [discriminate|discriminate|reflexivity]. }
  repeat split; apply H; vm_compute; reflexivity.
Qed.
Lemma ex_partition2 : partition ex_mesh2 [Box 0 0 0 2 1 1].
Proof.
  split; [|split].
  - intros b Hb. apply elem_of_list_singleton in Hb. subst b. intros [[k j] i]. unfold in_box, grid, on_axis. simpl. lia.
  - intros [[k j] i]. unfold grid, on_axis. simpl. intros H. exists 0, (Box 0 0 0 2 1 1). split; [reflexivity|]. unfold in_box. simpl. lia.
  - intros p [|n] [|n'] b b' Hb Hb'; simpl in Hb, Hb'; try discriminate. reflexivity.
Qed.
Lemma ex_numbering2 : numbering ex_mesh2 2 ex_number.
Proof.
  split; [|split].
  - intros a Ha. unfold grid, on_axis, ex_number. simpl. lia.
  - intros a b _ _ E. injection E. lia.
  - intros [[k j] i]. unfold grid, on_axis. simpl. intros H. exists (Z.to_nat i). unfold ex_number. split; [lia|]. f_equal; [f_equal; lia|lia].
Qed.
Lemma Qc_absolute : absolute qpos Qcabs.
Proof.
  split; [apply Qc_is_canon; reflexivity|]. intros a Ha. unfold qpos in Ha. change (q 0) with 0%Qc in Ha. split.
  - apply Qcabs_pos, Qclt_le_weak, Ha.
  - change (sopp a) with (- a)%Qc. rewrite Qcabs_opp. apply Qcabs_pos, Qclt_le_weak, Ha.
Qed.
Example C107_case :
  exists parts, mapr (computeLHS ex_mesh2) [Box 0 0 0 2 1 1] = Ok parts /\ wf_mat ex_M2 /\ nbrows ex_M2 = 2 /\ stores ex_M2 (concat parts) ex_number /\
  exists u rho, positive_weights (PropPoisson.le qpos) 2 u /\ ~ PropPoisson.le qpos s1 rho /\ dominant Qcabs (PropPoisson.le qpos) 2 (dense ex_M2) u rho.
Proof.
  eexists. split; [apply all_ok, ex_partition2|]. split; [split; [apply wfb_pat_ok; reflexivity|]; split; [apply wfb_diag_ok; reflexivity|apply wfb_sorted_ok; reflexivity]|].
  split; [reflexivity|].
  assert (stores ex_M2 (concat ((fun b => pts b ≫= row ex_mesh2) <$> [Box 0 0 0 2 1 1])) ex_number) as Hs.
  { intros a b Ha Hb. apply Qc_is_canon. destruct a as [|[|a]], b as [|[|b]]; try (simpl in Ha, Hb; lia); vm_compute; reflexivity. }
  split; [exact Hs|].
  pose proof (C107_dominant qpos Qc_ordered Qcabs Qc_absolute ex_mesh2 [Box 0 0 0 2 1 1] 2 ex_number ex_good2 ex_partition2 ex_numbering2) as H.
  rewrite all_ok in H by apply ex_partition2. destruct H as (u & rho & H1 & H2 & H3 & H4 & H5). exists u, rho. split; [exact H1|]. split; [exact H4|]. apply H5; [reflexivity|exact Hs].
Qed.

Print Assumptions C107_dominant.
Print Assumptions C107_no_breakdown.
Print Assumptions C107_converges.
