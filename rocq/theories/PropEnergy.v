(** * PropEnergy (C81): Gauss-Seidel relaxation of symmetric positive definite
    matrices decreases the energy of the error with every call *)
From Coq Require Import ZArith QArith.Qcanon.
From Verif Require Import Base Alg SRMatrix Async AsyncTheory AsyncSystem AsyncSweeps Nd Kernels KernelFacts
  IluApply IluApplyFacts TriSpec TriFacts IluApplyProofs IluApplyMain Sgs SgsFacts SgsProofs SgsForms SgsMain Levels PropLevels GsSweep SymSpec SymFacts PropConverge Inst.
Open Scope nat_scope.

(** ** Specification *)
Section Spec.
  Context {F : Type} {O : SOps F}.
  (** the energy of the error: (x - xs)^T A (x - xs) *)
  Definition energy (N : nat) (A : nat -> nat -> F) (xs x : list F) : F := form N A (fun i => vat x i - vat xs i)%s.
  (** [x'] is the solution if [x] is, and has less energy if [x] is not *)
  Definition nearer (pos : F -> Prop) (N : nat) (A : nat -> nat -> F) (xs x x' : list F) : Prop :=
    length x' = N /\ (x = xs -> x' = xs) /\ (x <> xs -> pos (energy N A xs x - energy N A xs x')%s).
  (** calls of relaxation that finish a row before they begin the next: asynchronous
      relaxation and symmetric Gauss-Seidel with one thread, level scheduling with any number *)
  Inductive row_by_row (w n : nat) (relaxC : list F -> nat -> @P F (list F)) (levels_ok : list nat -> Prop) (b : list F) :
      (list F -> nd (list F)) -> Prop :=
  | rr_chaotic steps chunk : 1 <= steps -> 1 <= chunk ->
      row_by_row w n relaxC levels_ok b (chaotic_relax w n relaxC steps chunk 1 b)
  | rr_sgs its chunk : 1 <= its -> 1 <= chunk ->
      row_by_row w n relaxC levels_ok b (sgs_relax w n relaxC its chunk 1 b)
  | rr_level levels its nthr : 1 <= its -> 1 <= nthr -> levels_ok levels ->
      row_by_row w n relaxC levels_ok b (level_relax w relaxC levels its nthr b).
End Spec.

Section Energy.
  Context {F : Type} {O : SOps F} {R : CRing F}.
  Add Ring Fr : cring.
  Variables (w n : nat) (A : nat -> nat -> F) (dinv : nat -> nat -> nat -> F) (relaxC : list F -> nat -> @P F (list F)) (dep : nat -> nat -> Prop).
  Notation N := (n * w)%nat.
  Hypothesis Hinv : forall i, (i < n)%nat -> is_inverse w (dinv i) (dblock w A i).
  Hypothesis HF : relax_form w n A dinv relaxC.
  Hypothesis Hk : forall b i, length b = N -> i < n -> kernel_ok w (relaxC b) n dep i.
  Hypothesis Hself : forall r, r < n -> ~ dep r r.
  Variable pos : F -> Prop.
  Hypothesis Hpos : ordered pos.
  Hypothesis (Hsym : symm N A) (Hdef : pos_def pos N A).
  Variables (b xs : list F).
  Hypothesis (Hb : length b = N) (Hxs : length xs = N) (Hsol : is_prod N A xs b).

  (** form (u + v) when A u vanishes wherever v does not *)
  Lemma form_split (u v : nat -> F) :
    (forall i, i < N -> v i = s0 \/ bsum N (fun j => A i j * u j)%s = s0) ->
    (form N A (fun i => u i + v i) = form N A u + form N A v)%s.
  Proof.
    intros H. unfold form.
    assert (bsum N (fun i => v i * bsum N (fun j => A i j * u j))%s = s0) as H1.
    { apply bsum_zero. intros i Hi. destruct (H i Hi) as [-> | ->]; ring. }
    assert (bsum N (fun i => u i * bsum N (fun j => A i j * v j))%s = s0) as H2.
    { rewrite <- H1. transitivity (bsum N (fun i => bsum N (fun j => u i * (A i j * v j))%s)).
      - apply bsum_ext. intros i Hi. symmetry. apply bsum_mul_l.
      - rewrite bsum_swap. apply bsum_ext. intros i Hi. rewrite <- bsum_mul_l. apply bsum_ext. intros j Hj.
        rewrite (Hsym i j Hi Hj). ring. }
    transitivity (bsum N (fun i => u i * bsum N (fun j => A i j * u j)) + bsum N (fun i => u i * bsum N (fun j => A i j * v j)) +
      bsum N (fun i => v i * bsum N (fun j => A i j * u j)) + bsum N (fun i => v i * bsum N (fun j => A i j * v j)))%s; [|rewrite H1, H2; ring].
    rewrite <- !bsum_add. apply bsum_ext. intros i Hi.
    rewrite (bsum_ext N _ (fun j => A i j * u j + A i j * v j)%s) by (intros; ring). rewrite bsum_add. ring.
  Qed.
  (** one row: the energy falls by that of the change *)
  Lemma row_energy x i : length x = N -> i < n ->
    exists x', exec x (T w (relaxC b) i) = Ok (tt, x') /\ length x' = N /\
      energy N A xs x = (energy N A xs x' + form N A (fun j => vat x j - vat x' j))%s /\
      forall p, p < w -> bsum N (fun J => A (i * w + p)%nat J * vat x' J)%s = vat b (i * w + p).
  Proof.
    intros Hx Hi. destruct (relax_row w n A dinv relaxC dep Hinv HF Hk Hself b x i Hb Hx Hi) as (x' & E & Hl & Hoff & Hrow).
    exists x'. split; [exact E|]. split; [exact Hl|].
    assert (forall p, p < w -> bsum N (fun J => A (i * w + p)%nat J * vat x' J)%s = vat b (i * w + p)) as Hres.
    { intros p Hp. rewrite bsum_flat.
      specialize (Hrow p Hp). rewrite (rest_ext w n A _ (fun c q => vat x' (c * w + q))) in Hrow by (intros c q Hc Hq Hne; symmetry; apply Hoff; done).
      transitivity (bsum w (fun q => A (i * w + p)%nat (i * w + q)%nat * vat x' (i * w + q)%nat)%s + rest w n A (fun c q => vat x' (c * w + q)) i p)%s; [|rewrite Hrow; ring].
      unfold rest. rewrite (bsum_ext n _ (fun c => (if decide (c = i) then bsum w (fun q => A (i * w + p)%nat (i * w + q)%nat * vat x' (i * w + q)%nat) else s0) +
         ((if decide (c < i)%nat then bsum w (fun q => A (i * w + p)%nat (c * w + q)%nat * vat x' (c * w + q)%nat) else s0) +
          (if decide (i < c)%nat then bsum w (fun q => A (i * w + p)%nat (c * w + q)%nat * vat x' (c * w + q)%nat) else s0)))%s).
      - rewrite !bsum_add. f_equal. rewrite (bsum_single n i _ Hi); [rewrite decide_True by done; reflexivity|].
        intros k _ Hne. rewrite decide_False by done. reflexivity.
      - intros c Hc. destruct (decide (c = i)) as [->|Hne]; [rewrite !decide_False by lia; ring|].
        destruct (decide (c < i)); [rewrite decide_False by lia; ring|rewrite decide_True by lia; ring]. }
    split; [|exact Hres]. unfold energy. rewrite <- form_split.
    - unfold form. apply bsum_ext. intros I _. f_equal; [ring|]. apply bsum_ext. intros J _. f_equal. ring.
    - intros I HI. destruct (unflat w n I HI) as (c & p & -> & Hc & Hp). destruct (decide (c = i)) as [->|Hne].
      + right. rewrite (bsum_ext N _ (fun j => A (i * w + p)%nat j * vat x' j + sopp s1 * (A (i * w + p)%nat j * vat xs j))%s) by (intros; ring).
        rewrite bsum_add, bsum_mul_l, Hres, (Hsol (i * w + p)%nat HI) by done. ring.
      + left. rewrite Hoff by done. ring.
  Qed.
  (** rows in any order, with repetitions *)
  Lemma rows_energy rs x : (forall r, r ∈ rs -> r < n) -> length x = N ->
    exists x', exec_seq (T w (relaxC b)) rs x = Ok x' /\ length x' = N /\
      ((x' = x /\ forall r p, r ∈ rs -> p < w -> bsum N (fun J => A (r * w + p)%nat J * vat x J)%s = vat b (r * w + p)) \/
       pos (energy N A xs x - energy N A xs x')%s).
  Proof.
    revert x. induction rs as [|r rs IH]; intros x Hrs Hx.
    - exists x. split; [reflexivity|]. split; [exact Hx|]. left. split; [reflexivity|]. intros r p Hr. apply elem_of_nil in Hr as [].
    - destruct (row_energy x r Hx (Hrs r ltac:(left))) as (y & E & Hy & He & Hres).
      destruct (IH y (fun r' Hr' => Hrs r' ltac:(right; exact Hr')) Hy) as (x' & E' & Hx' & Hc).
      exists x'. split; [cbn [exec_seq]; rewrite E; exact E'|]. split; [exact Hx'|].
      destruct (all_or_some pos Hpos N (fun j => vat x j - vat y j)%s) as [H0|H1].
      + assert (y = x) as ->.
        { apply (list_eq_same_length _ _ N); [exact Hx|exact Hy|]. intros i a c Hi Ha Hc'. specialize (H0 i Hi).
          apply vat_eq in Ha, Hc'. rewrite Ha, Hc' in H0. transitivity (c - s0)%s; [rewrite <- H0; ring|ring]. }
        destruct Hc as [[-> Hall]|Hp]; [|right; exact Hp]. left. split; [reflexivity|]. intros r' p Hr' Hp.
        apply elem_of_cons in Hr' as [->|Hr']; [apply Hres, Hp|apply Hall; done].
      + right. rewrite He. pose proof (Hdef _ H1) as Hd. destruct Hc as [[-> _]|Hp].
        * match goal with |- pos (?e + ?f - ?e)%s => replace (e + f - e)%s with f by ring end. exact Hd.
        * match goal with |- pos (?e + ?f - ?g)%s => replace (e + f - g)%s with (f + (e - g))%s by ring end. apply (pos_add _ Hpos); done.
  Qed.
  Lemma only_solution x : length x = N -> is_prod N A x b -> x = xs.
  Proof.
    intros Hx Hp. destruct (all_or_some pos Hpos N (fun j => vat x j - vat xs j)%s) as [H0|H1].
    - apply (list_eq_same_length _ _ N); [done|done|]. intros i a c Hi Ha Hc. specialize (H0 i Hi).
      apply vat_eq in Ha, Hc. rewrite Ha, Hc in H0. transitivity (c + s0)%s; [rewrite <- H0; ring|ring].
    - exfalso. apply (pos_zero _ Hpos). specialize (Hdef _ H1). replace s0 with (form N A (fun j => vat x j - vat xs j))%s; [exact Hdef|].
      apply bsum_zero. intros i Hi. rewrite (bsum_ext N _ (fun j => A i j * vat x j + sopp s1 * (A i j * vat xs j))%s) by (intros; ring).
      rewrite bsum_add, bsum_mul_l, (Hp i Hi), (Hsol i Hi). ring.
  Qed.
  (** all rows at least once *)
  Lemma rows_nearer rs x : (forall r, r ∈ rs <-> r < n) -> length x = N ->
    exists x', exec_seq (T w (relaxC b)) rs x = Ok x' /\ nearer pos N A xs x x'.
  Proof.
    intros Hrs Hx. destruct (rows_energy rs x (fun r Hr => proj1 (Hrs r) Hr) Hx) as (x' & E & Hl & Hc). exists x'. split; [exact E|]. split; [exact Hl|].
    assert (pos (energy N A xs x - energy N A xs x')%s -> x = xs -> False) as Hno.
    { intros Hp ->. assert (energy N A xs xs = s0) as Ez by (apply bsum_zero; intros i Hi; ring). apply (pos_zero _ Hpos).
      destruct (form_nonneg pos Hpos N A (fun i => vat x' i - vat xs i)%s Hdef) as [E0|Hp2].
      - change (energy N A xs x' = s0) in E0. rewrite E0, Ez in Hp. replace (s0 : F) with (s0 - s0 : F)%s by ring. exact Hp.
      - change (pos (energy N A xs x')) in Hp2. replace (s0 : F) with ((energy N A xs xs - energy N A xs x') + energy N A xs x')%s; [apply (pos_add _ Hpos); done|].
        rewrite Ez. ring. }
    destruct Hc as [[-> Hall]|Hp].
    - split; [auto|]. intros Hne. exfalso. apply Hne, only_solution; [exact Hx|]. intros I HI.
      destruct (unflat w n I HI) as (i & p & -> & Hi & Hp). apply Hall; [apply Hrs, Hi|exact Hp].
    - split; [intros Heq; destruct (Hno Hp Heq)|auto].
  Qed.
  Lemma call_nearer (levels_ok : list nat -> Prop) f x : (forall levels, levels_ok levels -> levels_for n dep levels) ->
    row_by_row w n relaxC levels_ok b f -> length x = N -> nok (f x) (nearer pos N A xs x).
  Proof.
    intros Hlev Hf Hx. assert (forall k l, 1 <= k -> (forall r, r ∈ l <-> r < n) -> forall r, r ∈ concat (replicate k l) <-> r < n) as Hcat.
    { intros k l Hk1 Hl r. rewrite <- Hl. split; [apply elem_of_concat_replicate|]. intros Hr. destruct k; [lia|]. cbn [replicate concat]. apply elem_of_app. left. exact Hr. }
    assert (forall r, r ∈ seq 0 n <-> r < n) as H1 by (intros r; rewrite elem_of_seq; lia).
    assert (forall r, r ∈ seq 0 n ++ rev (seq 0 n) <-> r < n) as H2.
    { intros r. rewrite elem_of_app, <- reverse_rev, elem_of_reverse, !elem_of_seq. lia. }
    destruct Hf as [steps chunk Hs Hc|its chunk Hs Hc|levels its nthr Hs Hn Hl].
    - unfold chaotic_relax. rewrite omp_region_seq by auto. rewrite concat_nowait by done.
      destruct (rows_nearer _ x (Hcat steps _ Hs H1) Hx) as (x' & E & H). apply nok_lift. rewrite E. exact H.
    - unfold sgs_relax. rewrite omp_region_seq by auto. rewrite sgs_queue by done.
      destruct (rows_nearer _ x (Hcat its _ Hs H2) Hx) as (x' & E & H). apply nok_lift. rewrite E. exact H.
    - eapply nok_mono; [eapply (level_relax_spec w n relaxC dep); eauto|]. intros x' [_ E].
      destruct (rows_nearer _ x (Hcat its _ Hs H2) Hx) as (x'' & E' & H). rewrite E in E'. injection E' as <-. exact H.
  Qed.
  Lemma nearer_trans x y z : nearer pos N A xs x y -> nearer pos N A xs y z -> nearer pos N A xs x z.
  Proof.
    intros (H1 & H2 & H3) (G1 & G2 & G3). split; [exact G1|]. split; [auto|]. intros Hne. specialize (H3 Hne).
    destruct (all_or_some pos Hpos N (fun j => vat y j - vat xs j)%s) as [H0|H4].
    - assert (y = xs) as ->.
      { apply (list_eq_same_length _ _ N); [done|done|]. intros i a c Hi Ha Hc. specialize (H0 i Hi).
        apply vat_eq in Ha, Hc. rewrite Ha, Hc in H0. transitivity (c + s0)%s; [rewrite <- H0; ring|ring]. }
      rewrite G2 by reflexivity. exact H3.
    - assert (y <> xs) as Hy by (intros ->; destruct H4 as (i & _ & H4); apply H4; ring). specialize (G3 Hy).
      replace (energy N A xs x - energy N A xs z)%s with ((energy N A xs x - energy N A xs y) + (energy N A xs y - energy N A xs z))%s by ring.
      apply (pos_add _ Hpos); done.
  Qed.
  Lemma calls_nearer (levels_ok : list nat -> Prop) calls x : (forall levels, levels_ok levels -> levels_for n dep levels) ->
    calls <> [] -> Forall (row_by_row w n relaxC levels_ok b) calls -> length x = N ->
    nok (in_turn calls x) (nearer pos N A xs x).
  Proof.
    intros Hlev Hne Hall. revert x Hne. induction Hall as [|f calls Hf Hall IH]; intros x Hne Hx; [done|]. cbn [in_turn].
    eapply nok_bind; [apply (call_nearer levels_ok f x Hlev Hf Hx)|]. intros y Hy. destruct calls as [|g calls].
    - apply nok_ret. exact Hy.
    - eapply nok_mono; [apply IH; [done|apply Hy]|]. intros z Hz. eapply nearer_trans; eauto.
  Qed.
End Energy.

(** ** C81: scalar matrices *)
Section Scalar.
  Context {F : Type} {O : SOps F} {R : Field F}.
  Add Ring Fr2 : cring.
  Lemma definite_diagonal (pos : F -> Prop) n A i : ordered pos -> pos_def pos n A -> i < n -> A i i <> s0.
  Proof.
    intros Hpos Hdef Hi E. apply (pos_zero _ Hpos). pose (x := fun j => if decide (j = i) then s1 else s0 : F).
    replace s0 with (form n A x).
    - apply Hdef. exists i. split; [exact Hi|]. unfold x. rewrite decide_True by done. apply field_10.
    - unfold form. apply bsum_zero. intros k Hk. unfold x at 1. destruct (decide (k = i)) as [->|]; [|ring].
      rewrite (bsum_single n i _ Hi); [unfold x; rewrite E; ring|]. intros j _ Hne. unfold x. rewrite decide_False by done. ring.
  Qed.
  (** Any sequence of calls that finish a row before they begin the next - asynchronous
      relaxation and symmetric Gauss-Seidel with one thread and level scheduling with
      any number, mixed in any way, with any numbers of sweeps and chunk sizes. *)
  Theorem C81_energy (M : srmat F) (pos : F -> Prop) b xs d0 x :
    let n := nbrows M in
    let A := dense M in
    wf_mat M -> length (vals M) = nnz M -> ordered pos -> symm n A -> pos_def pos n A ->
    length b = n -> length xs = n -> is_prod n A xs b -> length d0 = n -> length x = n ->
    nok (jacobi_setup M d0) (fun d => forall calls, calls <> [] ->
      Forall (row_by_row 1 n (scalar_relaxC M d) (valid_levels M) b) calls ->
      nok (in_turn calls x) (nearer pos n A xs x)).
  Proof.
    intros n A Hwf Hv Hpos Hsym Hdef Hb Hxs Hsol Hd0 Hx. destruct (mat_deps M Hwf) as (_ & _ & D3).
    eapply nok_mono; [apply (scalar_good M Hwf Hv (fun i Hi => definite_diagonal pos n A i Hpos Hdef Hi) d0 Hd0)|].
    intros d Hg calls Hne Hall.
    pose proof (calls_nearer 1 n A (sdinv d) (scalar_relaxC M d) (offdep M) (g_inv _ _ _ _ _ _ _ _ _ _ d Hg) (g_relax _ _ _ _ _ _ _ _ _ _ d Hg)
      (g_kr _ _ _ _ _ _ _ _ _ _ d Hg) D3 pos Hpos) as H. rewrite Nat.mul_1_r in H.
    apply (H Hsym Hdef b xs Hb Hxs Hsol (valid_levels M) calls x); auto.
    intros levels Hlev. destruct (mat_levels M levels Hwf Hlev) as (_ & _ & L3). exact L3.
  Qed.
End Scalar.

(** ** C81: block matrices *)
Section Block.
  Context {F : Type} {O : SOps F} {R : CRing F}.
  Theorem C81_block_energy so bs inv (M : srmat F) Dinv (pos : F -> Prop) b xs d0 x :
    let n := nbrows M in
    let N := n * bs in
    let A := bdense so bs M in
    wf_mat M -> 1 <= bs -> length (vals M) = nnz M * (bs * bs) -> inverse_oracle so bs inv -> is_inverse N (bdiag bs A) Dinv ->
    ordered pos -> symm N A -> pos_def pos N A ->
    length b = N -> length xs = N -> is_prod N A xs b -> length d0 = n * (bs * bs) -> length x = N ->
    nok (bjacobi_setup inv bs M d0) (fun d => forall calls, calls <> [] ->
      Forall (row_by_row bs n (block_relaxC so bs M d) (valid_levels M) b) calls ->
      nok (in_turn calls x) (nearer pos N A xs x)).
  Proof.
    intros n N A Hwf Hbs Hv Hor HDinv Hpos Hsym Hdef Hb Hxs Hsol Hd0 Hx. destruct (mat_deps M Hwf) as (_ & _ & D3).
    eapply nok_mono; [apply (block_good so bs inv M Dinv Hwf Hbs Hv Hor HDinv d0 Hd0)|].
    intros d Hg calls Hne Hall.
    apply (calls_nearer bs n A (bdinv so bs d) (block_relaxC so bs M d) (offdep M) (g_inv _ _ _ _ _ _ _ _ _ _ d Hg) (g_relax _ _ _ _ _ _ _ _ _ _ d Hg)
      (g_kr _ _ _ _ _ _ _ _ _ _ d Hg) D3 pos Hpos Hsym Hdef b xs Hb Hxs Hsol (valid_levels M) calls x); auto.
    intros levels Hlev. destruct (mat_levels M levels Hwf Hlev) as (_ & _ & L3). exact L3.
  Qed.
End Block.
Print Assumptions C81_energy.
Print Assumptions C81_block_energy.
