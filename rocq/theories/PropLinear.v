(** * PropLinear (C78, C79): preconditioners applied in order are fixed linear operators, symmetric and positive for symmetric matrices *)
From Coq Require Import ZArith QArith.Qcanon QArith.Qcabs.
From Verif Require Import Base Alg Norms SRMatrix Async AsyncTheory AsyncSystem AsyncSweeps Nd Kernels KernelFacts IluApply IluApplyFacts IluApplyProofs TriSpec TriFacts
  IluApplyMain IluPattern IluFactor IluFactorMain Sgs SgsFacts SgsProofs SgsForms SgsMain Memory Levels PropLevels PropIluInit
  PropIluFactor PropIluApply PropIluSolve Factory Petsc Objects ObjFacts ObjHistory ObjAlg ObjTotal GsSweep PropDominantIlu ScaledLu SymSpec SymFacts PropSgs PropObjects Inst PropObjectsEx PropScaleIlu.
Open Scope nat_scope.

(** ** Specification *)
(** incomplete factors of the matrix: unit lower and upper (block) triangular with the pattern of the matrix, their product agrees with the
    matrix on the pattern, and the diagonal (blocks) of U can be inverted *)
Definition incomplete_factors {F} {O : SOps F} (sh : shape) (M : srmat F) (L U : nat -> nat -> F) : Prop :=
  match sh with
  | Scalar => exists lu, length lu = nnz M /\ L = unitlower (entry M lu) /\ U = upper (entry M lu) /\
      exact_on_pattern M L U (dense M) /\ forall k, k < nbrows M -> U k k <> s0
  | Blocks bs so => exists x, length x = nnz M * (bs * bs) /\ L = bunitlower bs (bentry so bs M x) /\ U = bupper bs (bentry so bs M x) (bentry so bs M x) /\
      bexact_on_pattern bs M L U (bdense so bs M) /\ forall k, k < nbrows M -> exists Y, is_inverse bs (dblock bs U k) Y
  end.
(** the numbers are such that the preconditioner [p] of [M] is defined *)
Definition regular {F} {O : SOps F} (ssqrt : F -> F) (p : prec) (M : srmat F) : Prop :=
  match p with
  | PNone _ => True
  | PJacobi sh | PSgs sh _ _ _ | PLevelSgs sh => exists E, is_inverse (nbrows M * width sh) (bdiag (width sh) (matrix_of sh M)) E
  | PCscBgs _ _ => forall i, i < nbrows M -> dense M i i <> s0
  | PIlu sh i | PLevelIlu sh i => (exists L U, incomplete_factors sh M L U) /\
      (i_scale i = true -> forall I, I < nbrows M * width sh -> ssqrt (matrix_of sh M I I) <> s0)
  | _ => False
  end.
(** the settings make one result possible: nothing is computed by unsynchronised threads, every iteration is carried out at least once *)
Definition built_in_order (maxthr : nat) (sh : shape) (i : ilu) : Prop :=
  (1 <= i_nbuild i)%Z /\ (i_tfactor i = false \/ maxthr = 1) /\ (sh = Scalar -> i_finit i <> INIT_F_SGS \/ i_scale i = false).
Definition in_order (maxthr nthr : nat) (p : prec) : Prop :=
  match p with
  | PNone _ | PJacobi _ | PLevelSgs _ => True
  | PCscBgs na chunk | PSgs _ na _ chunk => (1 <= na)%Z /\ (1 <= chunk)%Z /\ nthr = 1
  | PLevelIlu sh i => built_in_order maxthr sh i
  | PIlu sh i => built_in_order maxthr sh i /\ (1 <= i_napply i)%Z /\ i_ainit i <> INIT_A_NONE /\ (i_tapply i = false \/ nthr = 1)
  | PChaotic _ _ _ | PReorderedIlu _ => False
  end.

Section C78.
  Context {F : Type} {O : SOps F} {R : Field F}.
  Add Ring Fr : cring.
  Variables (ssqrt sabs : F -> F) (inv : list F -> list F).
  (** every object of the class whose last compute() was for [M] gives [z0] for [r], whatever was done before, whatever is in the output vector and
      whatever the allocator returns *)
  Definition gives (maxthr nthr : nat) (p : prec) (M0 M : srmat F) (r z0 : list F) : Prop :=
    forall st g z, lived ssqrt sabs inv p maxthr M0 M st -> length z = obj_dim p M ->
      nok (obj_apply nthr g p M st r z) (fun '(_, z') => z' = z0).

  Definition solves maxthr nthr p M0 M (P : nat -> nat -> F) : Prop :=
    let N := obj_dim p M in
    forall r, length r = N -> exists z, length z = N /\ is_prod N P z r /\ (forall z', length z' = N -> is_prod N P z' r -> z' = z) /\ gives maxthr nthr p M0 M r z.

  Lemma inverse_solves N (D E : nat -> nat -> F) r : is_inverse N D E -> length r = N ->
    exists z, length z = N /\ is_prod N D z r /\ forall z', length z' = N -> is_prod N D z' r -> z' = z.
  Proof.
    intros HE Hr. exists (mvec N E r). split; [apply mvec_length|]. split.
    - intros i Hi. symmetry. apply (inverse_apply N E D (vat (mvec N E r)) (vat r)); [apply is_inverse_sym, HE| |exact Hi].
      intros j Hj. symmetry. apply mvec_prod, Hj.
    - intros z' Hl Hz'. apply vec_eq; [rewrite mvec_length; exact Hl|]. intros i Hi. rewrite Hl in Hi.
      unfold mvec. rewrite vat_fmap_seq by done. apply (inverse_apply N D E (vat r) (vat z') HE); [|exact Hi]. intros j Hj. symmetry. apply Hz', Hj.
  Qed.
  Definition matrix_for (p : prec) (M : srmat F) (P : nat -> nat -> F) : Prop :=
    let N := obj_dim p M in
    match p with
    | PNone _ => P = ident
    | PJacobi sh => P = bdiag (width sh) (matrix_of sh M)
    | PSgs sh _ _ _ | PLevelSgs sh => exists E, is_inverse N (bdiag (width sh) (matrix_of sh M)) E /\ P = sgs_matrix (width sh) (nbrows M) (matrix_of sh M) E
    | PCscBgs _ _ => P = upper (dense M)
    | PIlu sh _ | PLevelIlu sh _ => exists L U, incomplete_factors sh M L U /\ P = mprod N L U
    | _ => False
    end.
  Lemma ilu_operator maxthr nthr sh i p (M0 M : srmat F) L U : p = PIlu sh i \/ p = PLevelIlu sh i ->
    well_equipped inv p M0 -> same_pattern M0 M -> fits sh M -> 1 <= nthr -> in_order maxthr nthr p -> regular ssqrt p M ->
    incomplete_factors sh M L U -> solves maxthr nthr p M0 M (mprod (obj_dim p M) L U).
  Proof.
    intros Hp Heq Hsame Hf Hn Hio Hreg HLU r Hr.
    assert (lawful inv sh /\ wf_end M0 /\ wf_mat M0) as (Hlaw & He0 & HM0) by (destruct Heq as (H1 & _ & H2); destruct Hp as [-> | ->]; destruct H2; auto).
    pose proof (same_pattern_wf _ _ Hsame HM0) as HM.
    assert (wf_end M) as He.
    { destruct Hsame as (E1 & E2 & E3 & E4 & E5), He0 as [K1 K2]. split; [rewrite <- E5, <- E1; exact K1|]. intros k Hk. rewrite <- E5, (K2 k) by lia. unfold rp. rewrite E2. reflexivity. }
    assert (built_in_order maxthr sh i) as (Hb & Ht & Hin) by (destruct Hp as [-> | ->]; apply Hio).
    assert (p = PLevelIlu sh i \/ ((1 <= i_napply i)%Z /\ i_ainit i <> INIT_A_NONE /\ (i_tapply i = false \/ nthr = 1))) as Happ.
    { destruct Hp as [-> | ->]; [right; apply Hio|left; reflexivity]. }
    assert (i_scale i = true -> forall I, I < nbrows M * width sh -> ssqrt (matrix_of sh M I I) <> s0) as Hsq by (destruct Hp as [-> | ->]; apply Hreg).
    assert (pshape p = sh) as Esh by (destruct Hp as [-> | ->]; reflexivity).
    unfold obj_dim in *. rewrite Esh in *. destruct sh as [|bs so]; cbn [width matrix_of bsize incomplete_factors] in *.
    - rewrite !Nat.mul_1_r in *. destruct HLU as (lu & Hl & -> & -> & Hex & Hpiv). unfold fits in Hf. cbn [bsize] in Hf. rewrite Nat.mul_1_r in Hf.
      destruct (C77_scaling F O R ssqrt sabs inv M lu r HM He Hf Hl Hex Hpiv Hr) as (z0 & H1 & H2 & H3 & H4).
      exists z0. split; [exact H1|]. split; [exact H2|]. split; [exact H3|]. intros st g z Hst Hz. unfold obj_dim in Hz. rewrite Esh in Hz. cbn [width] in Hz.
      apply (H4 p i M0 maxthr); auto; lia.
    - destruct HLU as (x & Hl & -> & -> & Hex & Hpiv). unfold fits in Hf. cbn [bsize] in Hf.
      destruct (C77_block_scaling F O R ssqrt sabs inv bs so M x r HM He Hlaw Hf Hl Hex Hpiv Hr) as (z0 & H1 & H2 & H3 & H4).
      exists z0. split; [exact H1|]. split; [exact H2|]. split; [exact H3|]. intros st g z Hst Hz. unfold obj_dim in Hz. rewrite Esh in Hz. cbn [width] in Hz.
      apply (H4 p i M0 maxthr); auto.
  Qed.
  Lemma operator maxthr nthr p (M0 M : srmat F) P :
    well_equipped inv p M0 -> same_pattern M0 M -> fits (pshape p) M -> 1 <= nthr -> in_order maxthr nthr p -> regular ssqrt p M ->
    matrix_for p M P -> solves maxthr nthr p M0 M P.
  Proof.
    intros Heq Hsame Hf Hn Hio Hreg HP. unfold solves, gives, obj_dim. destruct p as [sh|sh na ch|na ch|sh na ai ch|sh|sh i|sh i|i|bs]; cbn [in_order regular matrix_for pshape] in *; try contradiction.
    - intros r Hr. destruct Hreg as [E HE]. subst P. destruct (inverse_solves _ _ E r HE Hr) as (z0 & H1 & H2 & H3). exists z0. split; [exact H1|]. split; [exact H2|]. split; [exact H3|].
      intros st g z Hst Hz. eapply nok_mono; [apply (C68_jacobi F O R ssqrt sabs inv sh maxthr M0 M E st nthr g r z); auto|].
      cbn beta. intros [st' z'] [K1 K2]. apply H3; auto.
    - intros r Hr. destruct Hio as (Hna & Hch & ->). subst P. cbn [width] in *. rewrite Nat.mul_1_r in *.
      destruct (upper_solvable (nbrows M) (dense M) (fun i => s1 / dense M i i)%s r) as (z0 & H1 & H2 & H3); auto.
      { intros i Hi. apply field_div, Hreg, Hi. }
      exists z0. split; [exact H1|]. split; [exact H2|]. split; [exact H3|]. intros st g z Hst Hz.
      eapply nok_mono; [apply (C68_csc_bgs F O R ssqrt sabs inv na ch maxthr M0 M st g r z); auto|]. cbn beta. intros [st' z'] [K1 K2]. apply H3; auto.
    - intros r Hr. destruct Hio as (Hna & Hch & ->). destruct HP as (E & HE & ->).
      destruct (C68_sgs F O R ssqrt sabs inv (PSgs sh na ai ch) sh M0 M E r) as (x & H1 & H2 & H3 & H4); auto; [left; eauto 6|].
      exists x. split; [exact H1|]. split; [exact H2|]. split; [exact H3|]. intros st g z Hst Hz. apply (H4 maxthr); auto.
    - intros r Hr. destruct HP as (E & HE & ->).
      destruct (C68_sgs F O R ssqrt sabs inv (PLevelSgs sh) sh M0 M E r) as (x & H1 & H2 & H3 & H4); auto.
      exists x. split; [exact H1|]. split; [exact H2|]. split; [exact H3|]. intros st g z Hst Hz. apply (H4 maxthr); auto.
    - destruct HP as (L & U & HLU & ->). exact (ilu_operator maxthr nthr sh i (PIlu sh i) M0 M L U (or_introl eq_refl) Heq Hsame Hf Hn Hio Hreg HLU).
    - destruct HP as (L & U & HLU & ->). exact (ilu_operator maxthr nthr sh i (PLevelIlu sh i) M0 M L U (or_intror eq_refl) Heq Hsame Hf Hn Hio Hreg HLU).
    - intros r Hr. subst P. exists r. split; [exact Hr|]. cbn [width] in *.
      assert (forall z, length z = nbrows M * bs -> is_prod (nbrows M * bs) ident z r -> z = r) as Hu.
      { intros z Hz H. apply vec_eq; [lia|]. intros i Hi. rewrite Hz in Hi. rewrite <- (H i Hi). rewrite (bsum_single _ i _ Hi).
        - unfold ident. rewrite decide_True by done. ring.
        - intros j Hj Hne. unfold ident. rewrite decide_False by congruence. ring. }
      split; [|split; [exact Hu|]].
      + intros i Hi. rewrite (bsum_single _ i _ Hi); [unfold ident; rewrite decide_True by done; ring|].
        intros j Hj Hne. unfold ident. rewrite decide_False by congruence. ring.
      + intros st g z Hst Hz. apply C68_none; auto.
  Qed.
  Lemma has_matrix p (M : srmat F) maxthr nthr : in_order maxthr nthr p -> regular ssqrt p M -> exists P, matrix_for p M P.
  Proof.
    intros Hio Hreg. destruct p as [sh|sh na ch|na ch|sh na ai ch|sh|sh i|sh i|i|bs]; cbn [in_order regular matrix_for] in *; try contradiction; eauto.
    - destruct Hreg as [E HE]. unfold obj_dim. eauto.
    - destruct Hreg as [E HE]. unfold obj_dim. eauto.
    - destruct Hreg as [(L & U & H) _]. eauto 6.
    - destruct Hreg as [(L & U & H) _]. eauto 6.
  Qed.

  (** *** C78: applying the preconditioner is a linear function of the vector; it is one to one *)
  Theorem C78_linear maxthr nthr p (M0 M : srmat F) :
    well_equipped inv p M0 -> same_pattern M0 M -> fits (pshape p) M -> 1 <= nthr -> in_order maxthr nthr p -> regular ssqrt p M ->
    forall u v, length u = obj_dim p M -> length v = obj_dim p M ->
    exists zu zv, length zu = obj_dim p M /\ length zv = obj_dim p M /\ gives maxthr nthr p M0 M u zu /\ gives maxthr nthr p M0 M v zv /\
      (forall a b, gives maxthr nthr p M0 M (combine a b u v) (combine a b zu zv)) /\ (zu = zv -> u = v).
  Proof.
    intros Heq Hsame Hf Hn Hio Hreg u v Hu Hv. destruct (has_matrix p M maxthr nthr Hio Hreg) as [P HP].
    pose proof (operator maxthr nthr p M0 M P Heq Hsame Hf Hn Hio Hreg HP) as Hs.
    destruct (Hs u Hu) as (zu & Lu & Pu & _ & Gu). destruct (Hs v Hv) as (zv & Lv & Pv & _ & Gv).
    exists zu, zv. split; [exact Lu|]. split; [exact Lv|]. split; [exact Gu|]. split; [exact Gv|]. split.
    - intros a b. destruct (Hs (combine a b u v) (combine_length a b u v _ Hu Hv)) as (z & _ & _ & U & G).
      rewrite (U (combine a b zu zv)); [exact G|apply combine_length; auto|]. apply combine_solution; auto.
    - intros ->. apply vec_eq; [lia|]. intros i Hi. rewrite Hu in Hi. rewrite <- (Pu i Hi), <- (Pv i Hi). reflexivity.
  Qed.

  (** *** C79: symmetric matrices *)
  (** all classes but the backward Gauss-Seidel sweep have a symmetric form *)
  Definition symmetric_class (p : prec) : Prop := match p with PCscBgs _ _ => False | _ => True end.
  Definition symmetric_input (p : prec) (M : srmat F) : Prop :=
    match p with PNone _ => True | _ => symm (obj_dim p M) (matrix_of (pshape p) M) end /\ match p with PIlu _ _ | PLevelIlu _ _ => sym_pattern M | _ => True end.
  Definition stored (M : srmat F) (i j : nat) : bool := match pos M i j with Some _ => true | None => false end.
  Lemma stored_sym M i j : sym_pattern M -> i < nbrows M -> j < nbrows M -> stored M i j = stored M j i.
  Proof.
    intros Hs Hi Hj. unfold stored. pose proof (Hs i j Hi Hj) as H1. pose proof (Hs j i Hj Hi) as H2.
    destruct (pos M i j), (pos M j i); try reflexivity; exfalso; [apply H1|apply H2]; congruence.
  Qed.
  Lemma stored_diag M i : wf_mat M -> i < nbrows M -> stored M i i = true.
  Proof. intros (Hw & Hd & Hs) Hi. unfold stored. rewrite (pos_diag M i (sorted_nodup M Hs) Hd Hi). reflexivity. Qed.
  (** what SymFacts needs to know about the factors *)
  Lemma factors_facts sh (M : srmat F) L U : wf_mat M -> (forall bs so, sh = Blocks bs so -> 1 <= bs) -> incomplete_factors sh M L U ->
    let n := nbrows M in let w := width sh in let N := n * w in
    (forall I K, I < N -> K < N -> I / w < K / w -> L I K = s0) /\
    (forall I K, I < N -> K < N -> I / w = K / w -> L I K = ident I K) /\
    (forall K J, K < N -> J < N -> J / w < K / w -> U K J = s0) /\
    (forall I K, I < N -> K < N -> I / w <> K / w -> stored M (I / w) (K / w) = false -> L I K = s0) /\
    (forall I K, I < N -> K < N -> I / w <> K / w -> stored M (I / w) (K / w) = false -> U I K = s0) /\
    (forall I J, I < N -> J < N -> stored M (I / w) (J / w) = true -> mprod N L U I J = matrix_of sh M I J).
  Proof.
    intros HM Hbs H n w N. unfold N, w, n, stored. destruct sh as [|bs so]; cbn [incomplete_factors width matrix_of] in *.
    - rewrite Nat.mul_1_r. destruct H as (lu & Hl & -> & -> & Hex & _).
      split; [|split; [|split; [|split; [|split]]]]; intros I K HI HK; rewrite !Nat.div_1_r.
      + intros Hlt. unfold unitlower. rewrite !decide_False by lia. reflexivity.
      + intros ->. unfold unitlower, ident. rewrite decide_False by lia. reflexivity.
      + intros Hlt. unfold upper. rewrite decide_False by lia. reflexivity.
      + intros Hne E. unfold unitlower. rewrite (decide_False (P := I = K)) by done. destruct (decide (K < I)); [|reflexivity].
        unfold entry. destruct (pos M I K); [discriminate|reflexivity].
      + intros Hne E. unfold upper. destruct (decide (I <= K)); [|reflexivity]. unfold entry. destruct (pos M I K); [discriminate|reflexivity].
      + intros E. apply Hex; auto. destruct (pos M I K); [discriminate|discriminate].
    - specialize (Hbs bs so eq_refl). destruct H as (x & Hl & -> & -> & Hex & _).
      assert (forall I K, I < nbrows M * bs -> K < nbrows M * bs -> match pos M (I / bs) (K / bs) with Some _ => true | None => false end = false -> bentry so bs M x I K = s0) as Hz.
      { intros I K HI HK E. destruct (unflat bs _ I HI) as (a & p & -> & Ha & Hp). destruct (unflat bs _ K HK) as (c & q & -> & Hc & Hq).
        rewrite !flat_div in E by done. rewrite bentry_flat by done. destruct (pos M a c); [discriminate|reflexivity]. }
      split; [|split; [|split; [|split; [|split]]]]; intros I K HI HK.
      + intros Hlt. unfold bunitlower. rewrite !decide_False by (lia || (intros ->; lia)). reflexivity.
      + intros E. unfold bunitlower, ident. rewrite decide_False by lia. reflexivity.
      + intros Hlt. unfold bupper. rewrite !decide_False by lia. reflexivity.
      + intros Hne E. unfold bunitlower. destruct (decide (K / bs < I / bs)); [apply Hz; auto|]. rewrite decide_False by congruence. reflexivity.
      + intros Hne E. unfold bupper. rewrite (decide_False (P := I / bs = K / bs)) by done. destruct (decide (I / bs < K / bs)); [apply Hz; auto|reflexivity].
      + intros E. apply Hex; auto. destruct (pos M (I / bs) (K / bs)); discriminate.
  Qed.
  Lemma equipped_shape p (M0 : srmat F) sh i : p = PIlu sh i \/ p = PLevelIlu sh i -> well_equipped inv p M0 -> forall bs so, sh = Blocks bs so -> 1 <= bs.
  Proof. intros Hp (_ & _ & H) bs so ->. destruct Hp as [-> | ->]; destruct H as [[H _] _]; exact H. Qed.
  Lemma ilu_symm p sh i (M0 M : srmat F) L U : p = PIlu sh i \/ p = PLevelIlu sh i -> well_equipped inv p M0 -> same_pattern M0 M -> symmetric_input p M ->
    incomplete_factors sh M L U -> symm (obj_dim p M) (mprod (obj_dim p M) L U).
  Proof.
    intros Hp Heq Hsame [HA Hpat] HLU. pose proof (equipped_shape p M0 sh i Hp Heq) as Hbs.
    assert (pshape p = sh /\ sym_pattern M /\ symm (obj_dim p M) (matrix_of (pshape p) M)) as (Esh & Hsym & HA') by (destruct Hp as [-> | ->]; auto). clear HA.
    pose proof (same_pattern_wf _ _ Hsame (proj1 Heq)) as HM. unfold obj_dim in *. rewrite Esh in *.
    destruct (factors_facts sh M L U HM Hbs HLU) as (F1 & F2 & F3 & F4 & F5 & F6).
    apply (lu_symm (nbrows M) (width sh) L U (matrix_of sh M) (stored M)); auto.
    - intros; apply stored_sym; auto.
    - intros; apply stored_diag; auto.
  Qed.
  Lemma matrix_symm p (M0 M : srmat F) P : well_equipped inv p M0 -> same_pattern M0 M -> symmetric_class p -> symmetric_input p M ->
    matrix_for p M P -> symm (obj_dim p M) P.
  Proof.
    intros Heq Hsame Hc Hin HP. destruct p as [sh|sh na ch|na ch|sh na ai ch|sh|sh i|sh i|i|bs]; cbn [matrix_for symmetric_class] in *; try contradiction.
    - subst P. apply bdiag_symm, Hin.
    - destruct HP as (E & HE & ->). apply sgs_symm; [apply Hin|exact HE].
    - destruct HP as (E & HE & ->). apply sgs_symm; [apply Hin|exact HE].
    - destruct HP as (L & U & HLU & ->). exact (ilu_symm (PIlu sh i) sh i M0 M L U (or_introl eq_refl) Heq Hsame Hin HLU).
    - destruct HP as (L & U & HLU & ->). exact (ilu_symm (PLevelIlu sh i) sh i M0 M L U (or_intror eq_refl) Heq Hsame Hin HLU).
    - subst P. intros i j _ _. unfold ident. destruct (decide (i = j)), (decide (j = i)); congruence.
  Qed.
  (** the operator is its own adjoint: (u, B v) = (B u, v) *)
  Theorem C79_symmetric maxthr nthr p (M0 M : srmat F) :
    well_equipped inv p M0 -> same_pattern M0 M -> fits (pshape p) M -> 1 <= nthr -> in_order maxthr nthr p -> regular ssqrt p M ->
    symmetric_class p -> symmetric_input p M ->
    forall u v, length u = obj_dim p M -> length v = obj_dim p M ->
    exists zu zv, gives maxthr nthr p M0 M u zu /\ gives maxthr nthr p M0 M v zv /\ dot (obj_dim p M) u zv = dot (obj_dim p M) zu v.
  Proof.
    intros Heq Hsame Hf Hn Hio Hreg Hc Hin u v Hu Hv. destruct (has_matrix p M maxthr nthr Hio Hreg) as [P HP].
    pose proof (operator maxthr nthr p M0 M P Heq Hsame Hf Hn Hio Hreg HP) as Hs. pose proof (matrix_symm p M0 M P Heq Hsame Hc Hin HP) as HS.
    destruct (Hs u Hu) as (zu & Lu & Pu & _ & Gu). destruct (Hs v Hv) as (zv & Lv & Pv & _ & Gv).
    exists zu, zv. split; [exact Gu|]. split; [exact Gv|]. apply (symmetric_solution _ P); auto.
  Qed.

  (** positive definite matrices (for the ILU classes: positive definite pivots) *)
  Definition positive_input (ps : F -> Prop) (p : prec) (M : srmat F) : Prop :=
    match p with
    | PIlu sh _ | PLevelIlu sh _ => exists L U, incomplete_factors sh M L U /\ forall k, k < nbrows M -> pos_def ps (width sh) (dblock (width sh) U k)
    | PNone _ => True
    | _ => pos_def ps (obj_dim p M) (matrix_of (pshape p) M)
    end.
  Lemma ilu_pos ps p sh i (M0 M : srmat F) L U x : ordered ps -> p = PIlu sh i \/ p = PLevelIlu sh i -> well_equipped inv p M0 -> same_pattern M0 M -> symmetric_input p M ->
    incomplete_factors sh M L U -> (forall k, k < nbrows M -> pos_def ps (width sh) (dblock (width sh) U k)) ->
    let N := obj_dim p M in
    ((forall I, I < N -> bsum N (fun J => mprod N L U I J * x J)%s = s0) -> forall I, I < N -> x I = s0) -> (exists I, I < N /\ x I <> s0) ->
    ps (form N (mprod N L U) x).
  Proof.
    intros Hord Hp Heq Hsame [HA Hpat] HLU HD N Hker Hx. pose proof (equipped_shape p M0 sh i Hp Heq) as Hbs.
    assert (pshape p = sh /\ sym_pattern M /\ symm (obj_dim p M) (matrix_of (pshape p) M)) as (Esh & Hsym & HA') by (destruct Hp as [-> | ->]; auto). clear HA.
    pose proof (same_pattern_wf _ _ Hsame (proj1 Heq)) as HM. unfold N, obj_dim in *. rewrite Esh in *. clear N.
    destruct (factors_facts sh M L U HM Hbs HLU) as (F1 & F2 & F3 & F4 & F5 & F6). set (w := width sh) in *. set (n := nbrows M) in *.
    assert (forall i j, i < n -> j < n -> stored M i j = stored M j i) as Hst by (intros; apply stored_sym; auto).
    assert (forall i, i < n -> stored M i i = true) as Hsd by (intros; apply stored_diag; auto).
    rewrite (lu_form n w L U (matrix_of sh M) (stored M)); auto.
    destruct (all_or_some ps Hord (n * w) (lt n w L x)) as [H0|(K & HK & HKn)].
    - exfalso. destruct Hx as (I & HI & Hx). apply Hx, Hker; [|exact HI]. apply (lu_kernel n w L U (matrix_of sh M) (stored M)); auto.
    - destruct (unflat w n K HK) as (k & q & -> & Hk & Hq). apply (pos_bsum ps Hord n _ k); [|exact Hk|].
      + intros k' Hk'. apply (form_nonneg ps Hord), HD, Hk'.
      + apply HD; [exact Hk|]. exists q. auto.
  Qed.
  Lemma has_positive ps p (M : srmat F) maxthr nthr : in_order maxthr nthr p -> regular ssqrt p M -> positive_input ps p M ->
    exists P, matrix_for p M P /\ match p with
      | PIlu sh _ | PLevelIlu sh _ => exists L U, incomplete_factors sh M L U /\ P = mprod (obj_dim p M) L U /\ forall k, k < nbrows M -> pos_def ps (width sh) (dblock (width sh) U k)
      | _ => True end.
  Proof.
    intros Hio Hreg Hp. destruct (has_matrix p M maxthr nthr Hio Hreg) as [P HP].
    destruct p as [sh|sh na ch|na ch|sh na ai ch|sh|sh i|sh i|i|bs]; cbn [positive_input] in Hp; try (exists P; split; [exact HP|exact Logic.I]);
      destruct Hp as (L & U & HLU & Hp); (eexists; split; [exists L, U; split; [exact HLU|reflexivity]|exists L, U; split; [exact HLU|split; [reflexivity|exact Hp]]]).
  Qed.
  (** (u, B u) > 0 for u <> 0 *)
  Theorem C79_positive ps maxthr nthr p (M0 M : srmat F) : ordered ps ->
    well_equipped inv p M0 -> same_pattern M0 M -> fits (pshape p) M -> 1 <= nthr -> in_order maxthr nthr p -> regular ssqrt p M ->
    symmetric_class p -> symmetric_input p M -> positive_input ps p M ->
    forall u, length u = obj_dim p M -> (exists i, i < obj_dim p M /\ vat u i <> s0) ->
    exists zu, gives maxthr nthr p M0 M u zu /\ ps (dot (obj_dim p M) u zu).
  Proof.
    intros Hord Heq Hsame Hf Hn Hio Hreg Hc Hin Hpi u Hu Hne. destruct (has_positive ps p M maxthr nthr Hio Hreg Hpi) as (P & HP & Hpp).
    pose proof (operator maxthr nthr p M0 M P Heq Hsame Hf Hn Hio Hreg HP) as Hs. set (N := obj_dim p M) in *.
    destruct (Hs u Hu) as (z & Lz & Pz & _ & Gz). exists z. split; [exact Gz|]. rewrite (form_solution _ P) by exact Pz. fold N.
    assert (exists i, i < N /\ vat z i <> s0) as Hz.
    { destruct (all_or_some ps Hord N (vat z)) as [H0|H0]; [exfalso|exact H0]. destruct Hne as (i & Hi & Hne). apply Hne. rewrite <- (Pz i Hi).
      apply bsum_zero. intros j Hj. rewrite (H0 j Hj). ring. }
    assert (forall x : nat -> F, (forall I, I < N -> bsum N (fun J => P I J * x J)%s = s0) -> forall I, I < N -> x I = s0) as Hker.
    { intros x Hx. destruct (Hs (replicate N s0) (replicate_length _ _)) as (z1 & _ & _ & U1 & _).
      assert (forall i, i < N -> vat (replicate N s0) i = s0) as Hrep by (intros i Hi; apply vat_eq, lookup_replicate_2, Hi).
      assert (x <$> seq 0 N = replicate N s0) as E.
      { transitivity z1; [|symmetry]; apply U1; fold N; rewrite ?fmap_length, ?seq_length, ?replicate_length; auto.
        - intros i Hi. rewrite Hrep by done. rewrite <- (Hx i Hi). apply bsum_ext. intros j Hj. rewrite vat_fmap_seq by done. reflexivity.
        - intros i Hi. rewrite Hrep by done. apply bsum_zero. intros j Hj. rewrite Hrep by done. ring. }
      intros I HI. rewrite <- (vat_fmap_seq x N I HI), E. apply Hrep, HI. }
    destruct p as [sh|sh na ch|na ch|sh na ai ch|sh|sh i|sh i|i|bs]; cbn [matrix_for symmetric_class positive_input] in *; try contradiction.
    - subst P. apply (bdiag_pos ps Hord); [exact Hpi|exact Hz].
    - destruct HP as (E & HE & ->). apply (sgs_pos ps Hord); [apply Hin|exact HE|apply (bdiag_pos ps Hord), Hpi|apply Hker|exact Hz].
    - destruct HP as (E & HE & ->). apply (sgs_pos ps Hord); [apply Hin|exact HE|apply (bdiag_pos ps Hord), Hpi|apply Hker|exact Hz].
    - destruct Hpp as (L & U & HLU & -> & Hpp). apply (ilu_pos ps (PIlu sh i) sh i M0); auto.
    - destruct Hpp as (L & U & HLU & -> & Hpp). apply (ilu_pos ps (PLevelIlu sh i) sh i M0); auto.
    - subst P. apply (ident_pos ps Hord), Hz.
  Qed.
End C78.
