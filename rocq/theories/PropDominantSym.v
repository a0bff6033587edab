(** * PropDominantSym (C82): for symmetric dominant matrices with a positive diagonal all ordered
    preconditioners are symmetric and positive *)
From Coq Require Import ZArith QArith.Qcanon QArith.Qcabs.
From Verif Require Import Base Alg Norms SRMatrix Async AsyncTheory AsyncSystem AsyncSweeps Nd Kernels KernelFacts IluApply IluApplyFacts IluApplyProofs TriSpec TriFacts
  IluApplyMain IluPattern IluFactor IluFactorMain Sgs SgsFacts SgsProofs SgsForms SgsMain Memory Levels PropLevels PropIluInit
  PropIluFactor PropIluApply PropIluSolve Factory Petsc Objects ObjFacts ObjHistory ObjAlg ObjTotal GsSweep PropConverge PropConvergeEx PropDominantIlu DominantLu SymSpec SymFacts
  PropSgs PropObjects Inst PropObjectsEx PropLinear PropLinearEx PropEnergy.
Open Scope nat_scope.

(** ** Specification *)
(** [le] and [mag] are the order and the absolute value that belong to the positive elements *)
Definition absolute {F} {O : SOps F} (ps : F -> Prop) (mag : F -> F) (le : F -> F -> Prop) : Prop :=
  (forall a b, le a b <-> a = b \/ ps (b - a)%s) /\ forall a, ps a -> mag a = a.

Section Dominant.
  Context {F : Type} {O : SOps F} {R : Field F} {mag : F -> F} {le : F -> F -> Prop} {HM : Magnitude F mag le}.
  Add Ring Fr : cring.
  Variable ps : F -> Prop.
  Hypothesis (Hord : ordered ps) (Habs : absolute ps mag le).
  Lemma le_nonneg a : le s0 a <-> nonneg ps a.
  Proof.
    destruct Habs as [H _]. rewrite H. unfold nonneg. replace (a - s0)%s with a by ring. split; intros [E|E]; auto.
  Qed.
  Lemma ps_le a : ps a -> le s0 a.
  Proof. intros H. apply le_nonneg. right. exact H. Qed.
  Lemma le_ps a b : ps a -> le a b -> ps b.
  Proof. intros Ha Hl. apply Habs in Hl as [<-|Hl]; [exact Ha|]. replace b with (a + (b - a))%s by ring. apply (pos_add _ Hord); done. Qed.
  (** the smaller of a and -a is above -|a| *)
  Lemma above_mag a : le s0 (a + mag a)%s.
  Proof.
    destruct (pos_total _ Hord a) as [->|[Ha|Ha]].
    - rewrite mag_0. apply sle_eq. ring.
    - apply ps_le. rewrite (proj2 Habs a Ha). apply (pos_add _ Hord); done.
    - rewrite <- (mag_opp (mag := mag) a), (proj2 Habs _ Ha). apply sle_eq. ring.
  Qed.
  Lemma le_mag a : le a (mag a).
  Proof.
    apply (sle_cancel _ _ (sopp a)). eapply sle_trans; [apply sle_eq|eapply sle_trans; [apply (above_mag (sopp a))|apply sle_eq]]; [ring|].
    rewrite (mag_opp (mag := mag)). ring.
  Qed.
  Lemma mag_square a : (mag a * mag a = a * a)%s.
  Proof.
    destruct (pos_total _ Hord a) as [->|[Ha|Ha]].
    - rewrite mag_0. reflexivity.
    - rewrite (proj2 Habs a Ha). reflexivity.
    - rewrite <- (mag_opp (mag := mag) a), (proj2 Habs _ Ha). ring.
  Qed.
  Lemma half_le a b : le (a + a)%s (b + b)%s -> le a b.
  Proof.
    intros H. apply Habs. apply Habs in H. destruct (pos_total _ Hord (b - a)%s) as [E|[E|E]]; [left|right; exact E|exfalso].
    - transitivity (a + (b - a))%s; [rewrite E; ring|ring].
    - pose proof (pos_add _ Hord _ _ E E) as E2. apply (pos_zero _ Hord). destruct H as [H|H].
      + replace s0 with (sopp (b - a) + sopp (b - a))%s; [exact E2|]. transitivity ((a + a) - (b + b))%s; [ring|]. rewrite H. ring.
      + replace s0 with (sopp (b - a) + sopp (b - a) + (b + b - (a + a)))%s by ring. apply (pos_add _ Hord); done.
  Qed.
  Lemma not_le_pos rho : ~ le s1 rho -> ps (s1 - rho)%s.
  Proof.
    intros H. destruct (pos_total _ Hord (s1 - rho)%s) as [E|[E|E]]; [exfalso|exact E|exfalso]; apply H, Habs.
    - left. transitivity (s1 - rho + rho)%s; [ring|rewrite E; ring].
    - right. replace (rho - s1)%s with (sopp (s1 - rho))%s by ring. exact E.
  Qed.

  Variables (n : nat) (A : nat -> nat -> F) (u : nat -> F) (rho : F).
  Hypothesis (Hu : positive_weights le n u) (Hr0 : le s0 rho) (Hr : ~ le s1 rho) (Hdom : dominant mag le n A u rho).
  Hypothesis Hd : forall i, i < n -> ps (A i i).
  (** pivots near the diagonal entries are positive *)
  Lemma pivot_positive a b : ps a -> le (mag (a - b)%s) (rho * mag a)%s -> ps b.
  Proof.
    intros Ha Hn. rewrite (proj2 Habs a Ha) in Hn.
    assert (le (a - b)%s (rho * a)%s) as H1 by (eapply sle_trans; [apply le_mag|exact Hn]).
    apply (le_ps ((s1 - rho) * a)%s); [apply (pos_mul _ Hord); [apply not_le_pos, Hr|exact Ha]|].
    apply (sle_cancel _ _ (rho * a - b)%s). eapply sle_trans; [apply sle_eq|eapply sle_trans; [exact H1|apply sle_eq]]; ring.
  Qed.
  (** symmetric dominant matrices with a positive diagonal are positive definite *)
  Hypothesis Hsym : symm n A.
  Lemma dominant_definite : pos_def ps n A.
  Proof.
    intros x (k & Hk & Hx).
    pose (y := fun i => (mag (x i) * (s1 / u i))%s).
    assert (forall i, i < n -> mag (x i) = (y i * u i)%s) as Ey.
    { intros i Hi. unfold y. destruct (Hu i Hi) as (H1 & _). transitivity (mag (x i) * (s1 / u i * u i))%s; [rewrite (field_div s1 _ H1); ring|ring]. }
    assert (forall i, i < n -> le s0 (u i)) as Hup by (intros i Hi; apply (Hu i Hi)).
    pose (D := bsum n (fun i => A i i * (x i * x i))%s).
    pose (off := bsum n (fun i => bsum n (fun j => if decide (j = i) then s0 else mag (A i j) * (mag (x i) * mag (x j))))%s).
    assert (forall i, i < n -> le s0 (A i i * (x i * x i))%s) as Hterm.
    { intros i Hi. rewrite <- (mag_square (x i)). apply sle_pos_mul; [apply ps_le, Hd, Hi|]. apply sle_pos_mul; apply mag_pos. }
    assert (ps D) as HD.
    { apply (pos_bsum ps Hord n _ k); [intros i Hi; apply le_nonneg, Hterm, Hi|exact Hk|]. apply (pos_mul _ Hord); [apply Hd, Hk|apply (pos_square ps Hord), Hx]. }
    assert (le D (form n A x + off)%s) as H1.
    { unfold form, off. rewrite <- bsum_add. apply bsum_le. intros i Hi. rewrite <- bsum_mul_l, <- bsum_add.
      rewrite <- (bsum_delta n i (fun j => A i j * (x i * x j))%s Hi). apply bsum_le. intros j Hj. destruct (decide (j = i)) as [->|Hne].
      - apply sle_eq. ring.
      - rewrite <- !(mag_mul (mag := mag)). eapply sle_trans; [apply (above_mag (A i j * (x i * x j)))%s|apply sle_eq; f_equal; ring]. }
    assert (le off (rho * D)%s) as H2.
    { apply half_le.
      assert (off = bsum n (fun i => bsum n (fun j => if decide (j = i) then s0 else mag (A i j) * u i * u j * (y i * y j))))%s as Eo.
      { unfold off. apply bsum_ext. intros i Hi. apply bsum_ext. intros j Hj. destruct (decide (j = i)); [reflexivity|]. rewrite (Ey i Hi), (Ey j Hj). ring. }
      pose (S := bsum n (fun i => bsum n (fun j => if decide (j = i) then s0 else mag (A i j) * u i * u j * (y i * y i)))%s).
      assert (S = bsum n (fun i => bsum n (fun j => if decide (j = i) then s0 else mag (A i j) * u i * u j * (y j * y j))))%s as ES.
      { unfold S. rewrite bsum_swap. apply bsum_ext. intros i Hi. apply bsum_ext. intros j Hj. destruct (decide (i = j)) as [->|]; [rewrite decide_True by done; reflexivity|].
        rewrite decide_False by congruence. rewrite (Hsym i j Hi Hj). ring. }
      apply (sle_trans _ (S + S)%s).
      - rewrite Eo. rewrite ES at 2. unfold S. rewrite <- !bsum_add. apply bsum_le. intros i Hi. rewrite <- !bsum_add. apply bsum_le. intros j Hj.
        destruct (decide (j = i)); [apply sle_refl|].
        match goal with |- le (?m * ?a + ?m * ?a)%s (?m * ?b + ?m * ?c)%s =>
          replace (m * a + m * a)%s with (m * (a + a))%s by ring; replace (m * b + m * c)%s with (m * (b + c))%s by ring end.
        apply sle_mul; [apply sle_pos_mul; [apply sle_pos_mul; [apply mag_pos|auto]|auto]|].
        apply (sle_cancel _ _ (sopp (y i * y j + y i * y j)))%s.
        eapply sle_trans; [apply sle_eq|eapply sle_trans; [apply le_nonneg, (square_nonneg ps Hord (y i - y j)%s)|apply sle_eq]]; ring.
      - assert (le S (rho * D)%s) as HS; [|apply sle_add; exact HS].
        unfold S, D. rewrite <- bsum_mul_l. apply bsum_le. intros i Hi.
        rewrite (bsum_ext n _ (fun j => u i * (y i * y i) * (if decide (j = i) then s0 else mag (A i j) * u j))%s) by (intros j Hj; destruct (decide (j = i)); ring).
        rewrite bsum_mul_l. eapply sle_trans; [apply sle_mul; [|apply (Hdom i Hi)]|].
        + apply sle_pos_mul; [auto|]. apply sle_pos_mul; (apply sle_pos_mul; [apply mag_pos|apply (Hu i Hi)]).
        + apply sle_eq. rewrite (proj2 Habs _ (Hd i Hi)), <- (mag_square (x i)), (Ey i Hi). ring. }
    apply (le_ps ((s1 - rho) * D)%s); [apply (pos_mul _ Hord); [apply not_le_pos, Hr|exact HD]|].
    apply (sle_cancel _ _ (rho * D)%s). eapply sle_trans; [apply sle_eq|eapply sle_trans; [exact H1|]]; [ring|].
    apply sle_add; [apply sle_refl|exact H2].
  Qed.
End Dominant.

(** ** C82 *)
Section C82.
  Context {F : Type} {O : SOps F} {R : Field F} {mag : F -> F} {le : F -> F -> Prop} {HM : Magnitude F mag le}.
  Add Ring Fr1 : cring.
  Variables (ssqrt sabs : F -> F) (inv : list F -> list F) (ps : F -> Prop).
  Hypothesis (Hord : ordered ps) (Habs : absolute ps mag le).
  (** symmetric, positive on the diagonal, and in every row the weighted sum of the magnitudes off the diagonal at most [rho] < 1 times the diagonal entry *)
  Definition symmetric_dominant (n : nat) (A : nat -> nat -> F) : Prop :=
    symm n A /\ (forall i, i < n -> ps (A i i)) /\
    exists u rho, positive_weights le n u /\ le s0 rho /\ ~ le s1 rho /\ dominant mag le n A u rho.
  (** such a matrix is positive definite, its incomplete factors exist and have positive pivots *)
  Theorem C82_definite (M : srmat F) :
    let n := nbrows M in
    wf_mat M -> length (vals M) = nnz M -> symmetric_dominant n (dense M) ->
    pos_def ps n (dense M) /\
    exists lu, length lu = nnz M /\ exact_on_pattern M (unitlower (entry M lu)) (upper (entry M lu)) (dense M) /\
      forall i, i < n -> ps (upper (entry M lu) i i).
  Proof.
    intros n Hwf Hv (Hsym & Hd & u & rho & Hu & Hr0 & Hr & Hdom).
    assert (le rho s1) as Hr1 by (apply Habs; right; apply (not_le_pos ps Hord Habs rho Hr)).
    assert (forall i, i < n -> dense M i i <> s0) as Hnz by (intros i Hi E; apply (pos_zero _ Hord); rewrite <- E; apply Hd, Hi).
    split; [apply (dominant_definite ps Hord Habs n (dense M) u rho); auto|].
    destruct (C76_no_breakdown ssqrt sabs M false u rho Hwf Hv Hnz ltac:(discriminate) Hu Hr0 Hr1 Hr Hdom) as (lu & Hl & Hp & Hex & _).
    exists lu. split; [exact Hl|]. split; [exact Hex|].
    assert (forall i, upper (entry M lu) i i = entry M lu i i) as EU by (intros i; unfold upper; rewrite decide_True by lia; reflexivity).
    destruct (C76_inherited M None lu u rho Hwf Hv Logic.I Hl Hnz Hu Hr0 Hr1 Hr Hdom) as [_ Hb]; [intros i Hi; rewrite EU; apply Hp, Hi|exact Hex|].
    intros i Hi. destruct (Hb i Hi) as (_ & _ & Hn). apply (pivot_positive ps Hord Habs rho Hr (dense M i i)); [apply Hd, Hi|exact Hn].
  Qed.
  (** Every ordered scalar preconditioner of such a matrix, whatever its history, is a symmetric and positive operator *)
  Theorem C82_dominant_operators maxthr nthr p (M0 M : srmat F) :
    well_equipped inv p M0 -> same_pattern M0 M -> length (vals M) = nnz M -> pshape p = Scalar -> 1 <= nthr -> in_order maxthr nthr p ->
    symmetric_class p -> match p with PIlu _ _ | PLevelIlu _ _ => sym_pattern M | _ => True end ->
    (forall a, ps a -> ssqrt a <> s0) -> symmetric_dominant (nbrows M) (dense M) ->
    (forall u v, length u = nbrows M -> length v = nbrows M ->
      exists zu zv, gives ssqrt sabs inv maxthr nthr p M0 M u zu /\ gives ssqrt sabs inv maxthr nthr p M0 M v zv /\
        dot (nbrows M) u zv = dot (nbrows M) zu v) /\
    forall u, length u = nbrows M -> (exists i, i < nbrows M /\ vat u i <> s0) ->
      exists zu, gives ssqrt sabs inv maxthr nthr p M0 M u zu /\ ps (dot (nbrows M) u zu).
  Proof.
    intros Heq Hsame Hv Hsh Hn Hio Hc Hpat Hsq Hsd.
    pose proof (same_pattern_wf _ _ Hsame (proj1 Heq)) as Hwf. destruct (C82_definite M Hwf Hv Hsd) as (Hdef & lu & Hl & Hex & Hpiv).
    destruct Hsd as (Hsym & Hd & _). assert (forall a, ps a -> a <> s0) as Hpn by (intros a Ha ->; apply (pos_zero _ Hord Ha)).
    assert (obj_dim p M = nbrows M) as Edim by (unfold obj_dim; rewrite Hsh; cbn [Objects.width]; lia).
    assert (fits (pshape p) M) as Hf by (rewrite Hsh; unfold fits; cbn; lia).
    assert (exists E, is_inverse (nbrows M * 1) (bdiag 1 (dense M)) E) as HE.
    { eexists. apply (scalar_bdiag_inverse (dense M) (nbrows M)). auto. }
    assert (incomplete_factors Scalar M (unitlower (entry M lu)) (upper (entry M lu))) as HLU.
    { exists lu. split; [exact Hl|]. split; [reflexivity|]. split; [reflexivity|]. split; [exact Hex|]. intros k Hk. apply Hpn, Hpiv, Hk. }
    assert (regular ssqrt p M) as Hreg.
    { destruct p as [sh|sh na ch|na ch|sh na ai ch|sh|sh i|sh i|i|bs]; cbn [pshape] in Hsh; subst; cbn [regular]; try (cbn in Hio; contradiction); try exact Logic.I; try exact HE; auto.
      all: split; [eauto|]. all: intros _ I HI; cbn in HI |- *; apply Hsq, Hd; lia. }
    assert (symmetric_input p M) as Hin.
    { split; [|exact Hpat]. rewrite Edim, Hsh. destruct p; try exact Hsym; exact Logic.I. }
    assert (positive_input ps p M) as Hpi.
    { destruct p as [sh|sh na ch|na ch|sh na ai ch|sh|sh i|sh i|i|bs]; cbn [positive_input]; try exact Logic.I; try (rewrite Edim, Hsh; exact Hdef).
      all: cbn [pshape] in Hsh; subst sh; do 2 eexists; (split; [exact HLU|]); intros k Hk x (j & Hj & Hx); cbn in Hj; assert (j = 0) as -> by lia.
      all: unfold form, dblock; cbn [Objects.width bsum]; rewrite !Nat.mul_1_r, !Nat.add_0_r.
      all: match goal with |- ps ?e => replace e with (upper (entry M lu) k k * (x 0 * x 0))%s by ring end.
      all: apply (pos_mul _ Hord); [apply Hpiv, Hk|apply (pos_square ps Hord), Hx]. }
    split.
    - pose proof (C79_symmetric ssqrt sabs inv maxthr nthr p M0 M Heq Hsame Hf Hn Hio Hreg Hc Hin) as H. rewrite Edim in H. exact H.
    - pose proof (C79_positive ssqrt sabs inv ps maxthr nthr p M0 M Hord Heq Hsame Hf Hn Hio Hreg Hc Hin Hpi) as H. rewrite Edim in H. exact H.
  Qed.
End C82.

(** ** A case: the rational numbers and the matrix (4 2 0; 2 5 1; 0 1 3) with rate 3/5 *)
Lemma Qc_absolute : absolute positive Qcabs Qcle.
Proof.
  split.
  - intros a b. split.
    + intros H. apply Qcle_lt_or_eq in H as [H| ->]; [right|left; reflexivity]. apply Qclt_minus_iff in H. exact H.
    + intros [-> |H]; [apply Qcle_refl|]. apply Qclt_le_weak. apply Qclt_minus_iff. exact H.
  - intros a Ha. apply Qcabs_pos, Qclt_le_weak, Ha.
Qed.
Example C82_dominant : symmetric_dominant (mag := Qcabs) (le := Qcle) positive 3 (dense symT).
Proof.
  split; [apply symT_symm|]. split; [intros i Hi; destruct i as [|[|[|]]]; [reflexivity..|lia]|].
  exists (fun _ => q 1), (q 3 / q 5)%Qc. split; [intros i Hi; split; [discriminate|split; vm_compute; discriminate]|].
  split; [vm_compute; discriminate|]. split; [intros H; vm_compute in H; apply H; reflexivity|].
  intros i Hi. destruct i as [|[|[|]]]; [vm_compute; discriminate..|lia].
Qed.
(** all ordered classes of preconditioners for scalar matrices; objects of each exist (C78_case) *)
Example C82_case : forall p, p ∈ [PJacobi Scalar; PSgs Scalar 2 INIT_A_JACOBI 3; PLevelSgs Scalar; PIlu Scalar exSet; PLevelIlu Scalar exSet] ->
  usual 1 p symT /\ forall u, length u = 3 -> (exists i, i < 3 /\ vat u i <> q 0) ->
  exists zu, gives (fun x => x) (fun x => x) inv2 4 1 p symT symT u zu /\ positive (dot 3 u zu).
Proof.
  intros p Hp. assert (p ∈ ordered_classes Scalar) as Hp1.
  { unfold ordered_classes. repeat (apply elem_of_cons in Hp as [-> |Hp]; [repeat constructor|]). apply elem_of_nil in Hp as []. }
  assert (usual 1 p symT) as Hus by (apply C78_case; right; exact Hp1). split; [exact Hus|]. intros u Hu Hne. destruct Hus as (H1 & _ & H2 & _ & H3 & _).
  assert (pshape p = Scalar /\ symmetric_class p /\ True) as (K1 & K2 & _) by (clear - Hp; repeat (apply elem_of_cons in Hp as [-> |Hp]; [repeat split|]); apply elem_of_nil in Hp as []).
  destruct (C82_dominant_operators (mag := Qcabs) (le := Qcle) (fun x => x) (fun x => x) inv2 positive Qc_ordered Qc_absolute 4 1 p symT symT) as [_ H];
    [exact H1|exact H2|reflexivity|exact K1|lia|exact H3|exact K2| |intros a Ha ->; apply (pos_zero _ Qc_ordered Ha)|apply C82_dominant|apply H; auto].
  destruct p; try exact Logic.I; apply symT_pattern.
Qed.
Print Assumptions C82_definite.
Print Assumptions C82_dominant_operators.
Print Assumptions C82_case.
