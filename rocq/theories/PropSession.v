(** * PropSession: preconditioners used through PETSc, from the options to the result of an application (C71) *)
From Coq Require Import ZArith.
From Verif Require Import Base Alg Coo CooFacts ColMat PropColMat SRMatrix Async AsyncTheory AsyncSystem AsyncSweeps Nd Kernels KernelFacts IluApply IluApplyFacts IluApplyProofs TriSpec TriFacts
  IluApplyMain IluPattern IluFactor IluFactorMain Sgs SgsFacts SgsProofs SgsForms SgsMain Memory Levels PropLevels PropIluInit
  PropIluFactor PropIluApply PropIluSolve Factory PropFactory Petsc PropPetscSetup Objects ObjFacts ObjHistory ObjAlg ObjTotal GsSweep PropObjects.
Open Scope nat_scope.

(** ** Specification *)
(** the matrix which a PETSc matrix of block size [bs] stands for: blocks are stored by columns *)
Definition shape_for (bs : nat) : shape := if decide (bs = 1) then Scalar else Blocks bs ColMajor.
Definition pmatrix {F} {O : SOps F} (bs : nat) (M : srmat F) : nat -> nat -> F := matrix_of (shape_for bs) M.

Section Session.
  Context {F : Type} {O : SOps F}.
  Variables (ssqrt sabs : F -> F) (slt : F -> F -> bool) (inv : list F -> list F).
  Local Notation ctx := (@ctx F). Local Notation mem := (@mem F (option (F * F))).
  (** A matrix with the pattern of [M0], and as many values as needed *)
  Definition holds (bs : nat) (M0 M : srmat F) : Prop := same_pattern M0 M /\ length (vals M) = nnz M * (bs * bs).
  (** The contexts, objects and matrices of the last set-up which successful calls of PETSc's functions can lead to: the options [o] at the
      first set-up; then any set-ups, with any matrices, any options and any diagnostics; applications and relaxations, with
      matrices changed in between; and anything that happens to the rest of the memory. At most [maxthr] threads. *)
  Inductive session (maxthr bs : nat) (M0 : srmat F) (o : options) : mem -> ctx -> @pstate F -> srmat F -> Prop :=
  | ss_first nthr g pg gf ga dm dcpu dwall M m c st m' c' st' :
      c_first c = false -> default_factory m c -> c_bs c = Z.of_nat bs -> 1 <= nthr <= maxthr -> holds bs M0 M ->
      shell_setup ssqrt sabs inv nthr g pg gf ga dm o dcpu dwall M m c st (Ok (m', c', st', Fine)) ->
      session maxthr bs M0 o m' c' st' M
  | ss_again nthr g pg gf ga dm o' dcpu dwall M m c st M1 m' c' st' :
      session maxthr bs M0 o m c st M -> 1 <= nthr <= maxthr -> holds bs M0 M1 ->
      shell_setup ssqrt sabs inv nthr g pg gf ga dm o' dcpu dwall M1 m c st (Ok (m', c', st', Fine)) ->
      session maxthr bs M0 o m' c' st' M1
  | ss_apply dbg nthr g dcpu dwall m c st M M1 r z a :
      session maxthr bs M0 o m c st M -> 1 <= nthr <= maxthr -> holds bs M0 M1 ->
      length r = nbrows M * bs -> length z = nbrows M * bs ->
      apply_local_blasted dbg nthr g dcpu dwall M1 c st r z (Ok a) -> a_status a = Fine ->
      session maxthr bs M0 o m (a_ctx a) (a_obj a) M
  | ss_relax dbg nthr g dcpu dwall rt at_ dt it gz m c st M M1 rhs x a its :
      session maxthr bs M0 o m c st M ->
      relax_local_blasted ssqrt slt dbg nthr g dcpu dwall rt at_ dt it gz M1 c st rhs x (Ok (a, its)) -> a_status a = Fine ->
      session maxthr bs M0 o m (a_ctx a) (a_obj a) M
  | ss_elsewhere m m' c st M : session maxthr bs M0 o m c st M -> session maxthr bs M0 o m' c st M.

  (** ** What the first set-up makes *)
  Lemma setup_inv_shell nthr g pg gf ga dm o dcpu dwall M (m : mem) c st m' c' st' :
    shell_setup ssqrt sabs inv nthr g pg gf ga dm o dcpu dwall M m c st (Ok (m', c', st', Fine)) ->
    exists p info st1, c_bprec c' = Some p /\ obj_compute ssqrt sabs inv nthr g p M st1 (Ok (st', info)) /\
      compute_preconditioner_blasted gf ga dm o info dcpu dwall m c = (m', c', Fine) /\
      (c_first c = true -> st1 = st /\ c_bprec c = Some p /\ c_first c' = true) /\ (c_first c = false -> st1 = p_new pg).
  Proof.
    unfold shell_setup, compute_preconditioner_blasted.
    destruct (c_first c) eqn:Ef.
    - destruct (c_bprec c) as [p|] eqn:Ep; [|intros H; discriminate]. intros (x & (y & Hy & ->) & H). exists p.
      destruct y as [[st1 info]| | |]; cbn [status_of] in H; try discriminate. exists info, st.
      destruct (updatePreconditioner info m c) as [m1 s1]. destruct s1; try discriminate. injection H as -> -> ->. cbn [c_bprec c_first].
      split; [reflexivity|]. split; [exact Hy|]. split; [reflexivity|]. split; [auto|discriminate].
    - destruct (setupDataFromOptions (m_facts m) o c) as [c1 s1]. destruct s1; try (intros H; discriminate).
      destruct (createNewPreconditioner gf ga dm m c1) as [[m2 c2] s2]. destruct s2; try (intros H; discriminate).
      destruct (c_bprec c2) as [p|] eqn:Ep; [|intros H; discriminate]. intros (x & (y & Hy & ->) & H). exists p.
      destruct y as [[st1 info]| | |]; cbn [status_of] in H; try discriminate. exists info, (p_new pg).
      destruct (updatePreconditioner info m2 c2) as [m3 s3]. destruct s3; try discriminate. injection H as -> -> ->. cbn [c_bprec c_first].
      split; [reflexivity|]. split; [exact Hy|]. split; [reflexivity|]. split; [discriminate|auto].
  Qed.
  (** The object is one that the factory makes for settings found in the options *)
  Definition made_from (bs : nat) (o : options) (p : prec) : Prop := exists s t st gf ga (c : ctx),
    o_type o = Some s /\ (trunc s, t) ∈ advertised /\ c_bs c = Z.of_nat bs /\ c_prectypestr c = trunc s /\
    (direct t -> c_nbuild c = 1%Z /\ c_napply c = 1%Z) /\
    (~ direct t -> exists nb na l ai k, o_sweeps o = Some (nb :: na :: l) /\ o_ainit o = Some ai /\ o_chunk o = Some k /\
       c_nbuild c = nb /\ c_napply c = na /\ c_ainit c = trunc ai /\ c_chunk c = k /\
       (starts_factor t -> o_scaling o = Some (c_scale c) /\ exists fi, o_finit o = Some fi /\ c_finit c = trunc fi) /\
       (~ starts_factor t -> c_scale c = false)) /\
    petsc_settings Default gf ga c = Ok st /\ create_preconditioner st = Ok (Some p).
  Lemma first_made gf ga dm o info dcpu dwall (m : mem) c m' c' bs : default_factory m c -> c_first c = false -> c_bs c = Z.of_nat bs ->
    compute_preconditioner_blasted gf ga dm o info dcpu dwall m c = (m', c', Fine) ->
    exists p, c_bprec c' = Some p /\ c_first c' = true /\ made_from bs o p.
  Proof.
    intros (a & Ef & Ea) Hfirst Hbs. unfold compute_preconditioner_blasted. rewrite Hfirst.
    destruct (setupDataFromOptions (m_facts m) o c) as [c1 s1] eqn:E1. destruct s1; try discriminate.
    destruct (createNewPreconditioner gf ga dm m c1) as [[m2 c2] s2] eqn:E2. destruct s2; try discriminate.
    destruct (updatePreconditioner info m2 c2) as [m3 s3] eqn:E3. destruct s3; try discriminate. intros [= <- <-]. cbn [c_bprec c_first].
    destruct (setup_inv _ _ _ _ _ Ef Ea E1) as (s & t & Es & Ht & Ef1 & Eb1 & En1 & Ei1 & Efi1 & Ep1 & Hd1 & Hn1).
    pose proof Ht as Ht'. rewrite <- En1 in Ht'.
    destruct (create_inv _ _ _ _ _ _ _ _ _ Ef1 Ea Ht' E2) as (-> & st & p & Est & Ep & Ep2 & _ & Efst & _ & _).
    exists p. split; [exact Ep2|]. split; [congruence|]. exists s, t, st, gf, ga, c1. rewrite Eb1. auto 10.
  Qed.
  Lemma made_shape bs o p : made_from bs o p -> (forall i, p <> PReorderedIlu i) /\ block_size p = bs /\ (pshape p = shape_for bs \/ p = PNone bs).
  Proof.
    intros (s & t & st & gf & ga & c & _ & Ht & Hbs & Hpt & _ & _ & Hst & Hp).
    rewrite <- Hpt in Ht. destruct (settings_inv _ _ _ _ _ Ht Hst) as (t' & nb & na & _ & _ & _ & _ & Ebs & Elay & _).
    assert (st_bs st = Z.of_nat bs) as Eb by congruence. clear Ebs Hst Ht Hpt Hbs.
    assert (bs = Z.to_nat (st_bs st)) as -> by lia. revert Hp.
    crush_factory st; intros [= <-]; unfold shape_for; cbn [block_size pshape]; (split; [discriminate|]);
      try discriminate Elay; try congruence;
      try match goal with H : st_bs st = _ |- _ => rewrite H; cbn; split; [reflexivity|]; auto; fail end; split; auto.
  Qed.
  Lemma made_fits bs o p M0 M : made_from bs o p -> holds bs M0 M -> fits (pshape p) M /\ obj_dim p M = nbrows M * bs.
  Proof.
    intros Hm [_ Hl]. destruct (made_shape bs o p Hm) as (_ & Hb & [Hs| ->]); unfold fits, obj_dim.
    - rewrite Hs. unfold shape_for. destruct (decide (bs = 1)) as [-> |]; cbn [bsize width]; auto.
    - auto.
  Qed.
End Session.

(** ** C71 *)
(** Whatever happened, the object in the context is one which the factory makes for the options of the first set-up, for the block size of
    the matrix, and it has gone through a life of set-ups and applications, the last set-up with the matrix [M] *)
Theorem C71_session :
  forall (F : Type) (O : SOps F) ssqrt sabs slt inv maxthr bs (M0 : srmat F) o m c st M,
  session ssqrt sabs slt inv maxthr bs M0 o m c st M ->
  exists p, c_bprec c = Some p /\ c_first c = true /\ made_from (F:=F) bs o p /\ holds bs M0 M /\ lived ssqrt sabs inv p maxthr M0 M st.
Proof.
  intros F O ssqrt sabs slt inv maxthr bs M0 o m c st M H.
  induction H as [nthr g pg gf ga dm dcpu dwall M m c st m' c' st' Hf Hd Hb Hn HM Hs|nthr g pg gf ga dm o' dcpu dwall M m c st M1 m' c' st' _ IH Hn HM Hs
    |dbg nthr g dcpu dwall m c st M M1 r z a _ IH Hn HM Hr Hz Ha Hok|dbg nthr g dcpu dwall rt at_ dt it gz m c st M M1 rhs x a its _ IH Ha Hok|m m' c st M _ IH].
  - destruct (setup_inv_shell _ _ _ _ _ _ _ _ _ _ _ _ _ _ _ _ _ _ _ Hs) as (p & info & st1 & Ep & Hc & Hcp & _ & E1). rewrite (E1 Hf) in Hc.
    destruct (first_made _ _ _ _ _ _ _ _ _ _ _ bs Hd Hf Hb Hcp) as (p' & Ep' & Hf' & Hm). assert (p' = p) as -> by congruence.
    exists p. split; [exact Ep|]. split; [exact Hf'|]. split; [exact Hm|]. split; [exact HM|].
    apply (lv_first _ _ _ _ _ _ nthr g pg M st' info); auto; [apply HM|]. apply (made_fits bs o p M0 M Hm HM).
  - destruct IH as (p & Ep & Hf & Hm & _ & Hl).
    destruct (setup_inv_shell _ _ _ _ _ _ _ _ _ _ _ _ _ _ _ _ _ _ _ Hs) as (p' & info & st1 & Ep' & Hc & _ & E1 & _).
    destruct (E1 Hf) as (-> & Ep'' & Hf'). assert (p' = p) as -> by congruence.
    exists p. split; [exact Ep'|]. split; [exact Hf'|]. split; [exact Hm|]. split; [exact HM|].
    apply (lv_again _ _ _ _ _ _ nthr g M st M1 st' info); auto; [apply HM|]. apply (made_fits bs o p M0 M1 Hm HM).
  - destruct IH as (p & Ep & Hf & Hm & HMM & Hl). unfold apply_local_blasted in Ha. rewrite Ep in Ha.
    destruct (dbg && _); [injection Ha as ->; discriminate Hok|]. destruct Ha as (y & (x & Hx & ->) & Ha).
    destruct (made_fits bs o p M0 M Hm HMM) as [_ Hd].
    destruct x as [[st1 z1]| | |]; injection Ha as ->; try discriminate Hok. exists p. cbn [a_ctx a_obj]. split; [exact Ep|]. split; [exact Hf|]. split; [exact Hm|].
    split; [exact HMM|]. apply (lv_apply _ _ _ _ _ _ nthr g M st M1 r z st1 z1); auto; try congruence; [apply HM|]. apply (made_fits bs o p M0 M1 Hm HM).
  - destruct IH as (p & Ep & Hf & Hm & HMM & Hl). unfold relax_local_blasted in Ha. rewrite Ep in Ha.
    destruct (dbg && _); [injection Ha as -> ->; discriminate Hok|]. destruct Ha as (y & (x0 & Hx & ->) & Ha).
    destruct x0 as [x1| | |]; injection Ha as -> ->; try discriminate Hok. exists p. cbn [a_ctx a_obj]. split; [exact Ep|]. split; [exact Hf|]. split; [exact Hm|].
    split; [exact HMM|]. apply lv_params. exact Hl.
  - exact IH.
Qed.

(** the call succeeded, nothing is left locked, the vector satisfies [Q] *)
Definition applied {F} (Q : list F -> Prop) (a : @after F) : Prop :=
  a_status a = Fine /\ a_held a = false /\ exists z', a_vec a = Some z' /\ Q z'.
Lemma apply_local_ok {F} {O : SOps F} dbg nthr g dcpu dwall (M : srmat F) c st r z p (Q : list F -> Prop) :
  c_bprec c = Some p -> length r = obj_dim p M ->
  nok (obj_apply nthr g p M st r z) (fun '(_, z') => Q z') ->
  nok (apply_local_blasted dbg nthr g dcpu dwall M c st r z) (applied Q).
Proof.
  intros Ep Hr H. unfold apply_local_blasted. rewrite Ep. rewrite Hr, Nat.eqb_refl. cbn [negb]. rewrite andb_false_r.
  eapply (nok_bind _ _ (fun y => exists s z', y = inl (s, z') /\ Q z')).
  - destruct (nok_exists _ _ H) as ([s' z'] & Ho & Hq). split; [eexists; eexists; split; [exact Ho|reflexivity]|].
    intros o (y & Hy & ->). pose proof (proj2 H y Hy) as Hk. destruct y as [[s1 z1]| | |]; cbn in Hk |- *; try tauto. exists s1, z1. auto.
  - intros y (s' & z' & -> & Hq). apply nok_ret. split; [reflexivity|]. split; [reflexivity|]. exists z'. auto.
Qed.
(** inverting blocks works *)
Definition inverses_work {F} {O : SOps F} (inv : list F -> list F) (bs : nat) : Prop := bs = 1 \/ inverse_oracle ColMajor bs inv.
Lemma equipped {F} {O : SOps F} inv bs o p (M0 : srmat F) : made_from (F:=F) bs o p -> wf_mat M0 -> wf_end M0 -> sym_pattern M0 \/ needs_symmetry p = false -> inverses_work inv bs ->
  well_equipped inv p M0.
Proof.
  intros Hm HM He Hs Hi. destruct (made_shape bs o p Hm) as (Hr & Hb & Hsh).
  split; [exact HM|]. split; [intros Hn; destruct Hs; [assumption|congruence]|].
  assert (forall sh, sh = shape_for bs -> (sh = Scalar \/ 1 <= bs) -> lawful inv sh) as Hlaw.
  { intros sh -> H. unfold shape_for in *. destruct (decide (bs = 1)); [exact Logic.I|]. destruct H as [H|H]; [discriminate|].
    split; [exact H|]. destruct Hi as [|Hi]; [contradiction|exact Hi]. }
  assert (1 <= bs \/ exists n, p = PNone n) as Hbs.
  { destruct Hm as (s & t & st & gf & ga & c & _ & Ht & Hcb & Hpt & _ & _ & Hst & Hp).
    rewrite <- Hpt in Ht. destruct (settings_inv _ _ _ _ _ Ht Hst) as (t' & nb & na & _ & _ & _ & _ & Ebs & _).
    assert (supported st) as [_ [H|(_ & so & _ & [H|[H _]])]] by (apply C46_supported; eauto); left; lia. }
  destruct p; cbn [pshape] in *; try (destruct Hsh as [Hsh|]; [|discriminate]); try exact Logic.I;
    try (apply Hlaw; [exact Hsh|destruct Hbs as [|[n Hn]]; [auto|discriminate Hn]]);
    try (split; [|exact He]; apply Hlaw; [exact Hsh|destruct Hbs as [|[n Hn]]; [auto|discriminate Hn]]).
Qed.
(** With "-blasted_pc_type jacobi": applying solves with the diagonal (blocks) *)
Theorem C71_jacobi :
  forall (F : Type) (O : SOps F) (R : Field F) ssqrt sabs slt inv maxthr bs (M0 : srmat F) o m c st M E dbg nthr g dcpu dwall r z,
  let N := nbrows M * bs in
  let D := bdiag bs (pmatrix bs M) in
  session ssqrt sabs slt inv maxthr bs M0 o m c st M -> o_type o = Some "jacobi"%string ->
  wf_mat M0 -> wf_end M0 -> inverses_work inv bs -> is_inverse N D E -> length r = N -> length z = N ->
  nok (apply_local_blasted dbg nthr g dcpu dwall M c st r z) (applied (fun z' => length z' = N /\ is_prod N D z' r)).
Proof.
  intros F O R ssqrt sabs slt inv maxthr bs M0 o m c st M E dbg nthr g dcpu dwall r z N D Hs Ho HM0 He Hi HE Hr Hz.
  destruct (C71_session _ _ _ _ _ _ _ _ _ _ _ _ _ _ Hs) as (p & Ep & _ & Hm & HMM & Hl).
  destruct (made_fits bs o p M0 M Hm HMM) as [_ Hd]. pose proof (made_shape bs o p Hm) as (_ & _ & Hsh).
  assert (method_of p = Diagonal) as Hk.
  { destruct Hm as (s & t & st1 & gf & ga & c1 & Hs1 & Ht & _ & Hpt & Hdir & _ & Hst & Hp). rewrite Ho in Hs1. injection Hs1 as <-.
    rewrite <- Hpt in Ht. pose proof (proj2 (C45_names _ _) Ht) as Et. rewrite Hpt in Et. injection Et as <-.
    destruct (settings_inv _ _ _ _ _ Ht Hst) as (t' & nb & na & Hsw & Ht' & _).
    destruct (Hdir (or_introl eq_refl)) as [E1 E2]. rewrite E1, E2 in Hsw. injection Hsw as <- _ _.
    destruct (C46_created _ _ Hp) as (Hmean & _). rewrite Ht' in Hmean. exact Hmean. }
  destruct p as [sh|sh na ch|na ch|sh na ai ch|sh|sh i|sh i|i|b]; try discriminate Hk. destruct Hsh as [Hsh|]; [|discriminate]. cbn [pshape] in Hsh.
  assert (width sh = bs) as Hw by (rewrite Hsh; unfold shape_for; destruct (decide (bs = 1)); cbn; auto).
  assert (well_equipped inv (PJacobi sh) M0) as Heq by (apply (equipped inv bs o); auto).
  apply (apply_local_ok _ _ _ _ _ _ _ _ _ _ (PJacobi sh)); [exact Ep|rewrite Hd; exact Hr|].
  pose proof (C68_jacobi F O R ssqrt sabs inv sh maxthr M0 M E st nthr g r z Heq Hl) as H. cbn zeta in H. rewrite Hw, Hd in H.
  unfold D, pmatrix in *. rewrite <- Hsh in *. apply H; auto.
Qed.
(** what the options say about the object *)
Lemma kind_of {F} bs o p s t : made_from (F:=F) bs o p -> o_type o = Some s -> (s, t) ∈ advertised ->
  (direct t -> meaning t (method_of p)) /\
  (~ direct t -> exists nb na l ai k, o_sweeps o = Some (nb :: na :: l) /\ o_ainit o = Some ai /\ o_chunk o = Some k /\
    honours (chunk p) k /\ (forall x, start_of_apply p = Some x -> (trunc ai, x) ∈ advertised_ainit) /\
    (nb <> (-1)%Z -> na <> (-1)%Z -> meaning t (method_of p) /\ honours (build_sweeps p) nb /\ honours (apply_sweeps p) na /\
      honours (threaded p) (negb (sequential_factor t), negb (sequential_apply t))) /\
    (~ starts_factor t -> honours (scaled p) false)).
Proof.
  intros Hm Ho Hst. destruct Hm as (s' & t' & st & gf & ga & c & Hs1 & Ht & _ & Hpt & Hdir & Hnd & Hset & Hp).
  assert (s' = s) as -> by congruence. rewrite (trunc_name _ _ Hst) in *. rewrite <- Hpt in Ht.
  pose proof (proj2 (C45_names _ _) Ht) as Et. rewrite Hpt in Et. rewrite (proj2 (C45_names _ _) Hst) in Et. injection Et as <-.
  destruct (settings_inv _ _ _ _ _ Ht Hset) as (t' & nb' & na' & Hsw & E1 & E2 & E3 & Ebs & Elay & Ech & Esc & Ein & Hfi & Hai & Hfn).
  destruct (C46_created _ _ Hp) as (Hmean & _ & _ & Hth & Hb & Ha & Hc & _ & Hsa & Hscl). rewrite E1 in *. split.
  - intros Hd. destruct (Hdir Hd) as [N1 N2]. rewrite N1, N2 in Hsw.
    rewrite C47_plain in Hsw by discriminate. injection Hsw as <- _ _. exact Hmean.
  - intros Hd. destruct (Hnd Hd) as (nb & na & l & ai & k & Os & Oa & Oc & N1 & N2 & N3 & N4 & N5 & N6). exists nb, na, l, ai, k.
    split; [exact Os|]. split; [exact Oa|]. split; [exact Oc|]. split; [intros x Hx; rewrite (Hc x Hx), Ech; exact N4|]. split.
    + intros x Hx. rewrite (Hsa x Hx). apply C45_initial_guesses. rewrite <- N3. apply Hai.
      intros Hd'. destruct Hd' as [-> | [-> | ->]]; cbn in Hmean; destruct p; cbn in Hmean, Hx; discriminate.
    + split.
      * intros Hnb Hna. rewrite N1, N2, C47_plain in Hsw by auto. injection Hsw as <- <- <-.
        split; [exact Hmean|]. split; [intros x Hx; rewrite (Hb x Hx); exact E2|]. split; [intros x Hx; rewrite (Ha x Hx); exact E3|].
        exact Hth.
      * intros Hsf x Hx. rewrite (Hscl x Hx), Esc. apply N6, Hsf.
Qed.
(** With "level_sgs", any number of threads, or "sgs" and one thread: applying solves [(D+L) D^-1 (D+U) z = r]. The solution [x] is unique
    and does not depend on the session. *)
Theorem C71_sgs :
  forall (F : Type) (O : SOps F) (R : Field F) ssqrt sabs slt inv bs (M0 M : srmat F) s t E r,
  let N := nbrows M * bs in
  let A := pmatrix bs M in
  1 <= bs -> (s, t) ∈ advertised -> t = SGS \/ t = LEVEL_SGS ->
  wf_mat M0 -> wf_end M0 -> t = SGS \/ sym_pattern M0 -> inverses_work inv bs -> is_inverse N (bdiag bs A) E -> length r = N -> holds bs M0 M ->
  exists x, length x = N /\ is_prod N (sgs_matrix bs (nbrows M) A E) x r /\
    (forall x', length x' = N -> is_prod N (sgs_matrix bs (nbrows M) A E) x' r -> x' = x) /\
    forall maxthr o m c st dbg nthr g dcpu dwall z,
      session ssqrt sabs slt inv maxthr bs M0 o m c st M -> o_type o = Some s -> length z = N -> 1 <= nthr ->
      t = LEVEL_SGS \/
        (nthr = 1 /\ exists nb na l k, o_sweeps o = Some (nb :: na :: l) /\ nb <> (-1)%Z /\ (1 <= na)%Z /\ o_chunk o = Some k /\ (1 <= k)%Z) ->
      nok (apply_local_blasted dbg nthr g dcpu dwall M c st r z) (applied (fun z' => z' = x)).
Proof.
  intros F O R ssqrt sabs slt inv bs M0 M s t E r N A Hbs Hst Ht HM0 He Hsym Hi HE Hr HMM.
  assert (forall p, pshape p = shape_for bs -> width (pshape p) = bs /\ obj_dim p M = N) as Hw.
  { intros p Hp. unfold obj_dim. rewrite Hp. unfold shape_for. destruct (decide (bs = 1)) as [-> |]; cbn; auto. }
  assert (fits (shape_for bs) M) as Hfit.
  { destruct HMM as [_ Hv]. unfold fits. rewrite Hv. unfold shape_for. destruct (decide (bs = 1)) as [-> |]; reflexivity. }
  (* one solution for both classes *)
  assert (forall p, p = PLevelSgs (shape_for bs) \/ (exists na ainit chunk, p = PSgs (shape_for bs) na ainit chunk /\ (1 <= na)%Z /\ (1 <= chunk)%Z) ->
    well_equipped inv p M0 -> exists x, length x = N /\ is_prod N (sgs_matrix bs (nbrows M) A E) x r /\
    (forall x', length x' = N -> is_prod N (sgs_matrix bs (nbrows M) A E) x' r -> x' = x) /\
    forall maxthr st nthr g z, lived ssqrt sabs inv p maxthr M0 M st -> length z = N -> 1 <= nthr -> p = PLevelSgs (shape_for bs) \/ nthr = 1 ->
      nok (obj_apply nthr g p M st r z) (fun '(_, z') => z' = x)) as Hone.
  { intros p Hp Heq. assert (pshape p = shape_for bs) as Hps by (destruct Hp as [-> | (? & ? & ? & -> & _)]; reflexivity).
    destruct (Hw p Hps) as [Ew Ed]. rewrite Hps in Ew.
    pose proof (C68_sgs F O R ssqrt sabs inv p (shape_for bs) M0 M E r) as H. cbn zeta in H. rewrite Ed, Ew in H.
    apply H; auto; [|apply HMM]. destruct Hp as [-> |Hp]; auto. }
  assert (lawful inv (shape_for bs)) as Hlaw.
  { unfold shape_for. destruct (decide (bs = 1)); [exact Logic.I|]. split; [exact Hbs|]. destruct Hi as [|Hi]; [contradiction|exact Hi]. }
  assert (forall p, pshape p = shape_for bs -> needs_symmetry p = false \/ sym_pattern M0 -> (forall sh i, p <> PIlu sh i) -> (forall sh i, p <> PLevelIlu sh i) -> well_equipped inv p M0) as Heq.
  { intros p Hp Hn H1 H2. split; [exact HM0|]. split; [intros Hn'; destruct Hn; [congruence|assumption]|].
    destruct p; cbn [pshape] in *; try exact Logic.I; try (rewrite Hp; exact Hlaw); try (exfalso; eapply H1; reflexivity); exfalso; eapply H2; reflexivity. }
  assert (exists x, length x = N /\ is_prod N (sgs_matrix bs (nbrows M) A E) x r /\
    (forall x', length x' = N -> is_prod N (sgs_matrix bs (nbrows M) A E) x' r -> x' = x)) as (x & H1 & H2 & H3).
  { destruct (Hone (PSgs (shape_for bs) 1 INIT_A_ZERO 1)) as (x & H1 & H2 & H3 & _).
    - right. do 3 eexists. split; [reflexivity|lia].
    - apply Heq; auto; discriminate.
    - eauto. }
  exists x. split; [exact H1|]. split; [exact H2|]. split; [exact H3|].
  intros maxthr o m c st dbg nthr g dcpu dwall z Hs Ho Hz Hn Hcase.
  destruct (C71_session _ _ _ _ _ _ _ _ _ _ _ _ _ _ Hs) as (p & Ep & _ & Hm & _ & Hl).
  pose proof (made_shape bs o p Hm) as (_ & _ & Hsh). destruct (kind_of bs o p s t Hm Ho Hst) as [Hk1 Hk2].
  assert (p = PLevelSgs (shape_for bs) \/ (exists na ainit chunk, p = PSgs (shape_for bs) na ainit chunk /\ (1 <= na)%Z /\ (1 <= chunk)%Z) /\ nthr = 1) as Hp.
  { destruct Ht as [-> | ->].
    - destruct Hcase as [|(-> & nb & na & l & k & Hos & Hnb & Hna & Hoc & Hck)]; [discriminate|]. right. split; [|reflexivity].
      destruct Hk2 as (nb' & na' & l' & ai & k' & E1 & E2 & E3 & Hc & _ & Hm' & _); [intros [|[|]]; discriminate|].
      rewrite Hos in E1. injection E1 as <- <- <-. rewrite Hoc in E3. injection E3 as <-.
      destruct (Hm' Hnb ltac:(lia)) as (Hmean & _ & Hap & _). cbn in Hmean. destruct p; try discriminate Hmean. destruct Hsh as [Hsh|]; [|discriminate].
      cbn [pshape] in Hsh. subst sh. do 3 eexists. split; [reflexivity|]. cbn in Hap, Hc. rewrite (Hap _ eq_refl), (Hc _ eq_refl). auto.
    - left. specialize (Hk1 (or_intror (or_introl eq_refl))). cbn in Hk1. destruct p; try discriminate Hk1. destruct Hsh as [Hsh|]; [|discriminate].
      cbn [pshape] in Hsh. congruence. }
  assert (pshape p = shape_for bs) as Hps by (destruct Hp as [-> | [(? & ? & ? & -> & _) _]]; reflexivity).
  destruct (Hw p Hps) as [_ Ed].
  destruct (Hone p) as (x1 & K1 & K2 & _ & K4).
  - destruct Hp as [-> |[Hp _]]; auto.
  - apply Heq; auto; [|destruct Hp as [-> | [(? & ? & ? & -> & _) _]]; discriminate..].
    destruct Hp as [-> | [(? & ? & ? & -> & _) _]]; [|auto]. right. destruct Hsym as [-> |]; [|assumption].
    destruct Hcase as [|(_ & nb & na & l & k & Hos & Hnb & Hna & _)]; [discriminate|].
    destruct Hk2 as (nb' & na' & l' & ai & k' & E1 & _ & _ & _ & _ & Hm' & _); [intros [|[|]]; discriminate|].
    rewrite Hos in E1. injection E1 as <- <- <-. destruct (Hm' Hnb ltac:(lia)) as (Hmean & _). discriminate Hmean.
  - rewrite <- (H3 x1 K1 K2). apply (apply_local_ok _ _ _ _ _ _ _ _ _ _ p); [exact Ep|congruence|].
    apply (K4 maxthr); auto. destruct Hp as [-> |[_ ->]]; auto.
Qed.
Lemma substring_short n s t : substring 0 n s = t -> String.length t < n -> s = t.
Proof.
  revert s t. induction n as [|n IH]; intros s t; [lia|]. destruct s as [|ch s]; cbn [substring]; intros <-; [reflexivity|].
  cbn [String.length]. intros H. f_equal. apply IH; [reflexivity|lia].
Qed.
(** With "seqilu0": if the matrix has an ILU(0) factorisation with nonzero pivots, [L U = A] on the pattern, then applying solves with it *)
Theorem C71_seqilu0 :
  forall (F : Type) (O : SOps F) (R : Field F) ssqrt sabs slt inv (M0 M : srmat F) lu r,
  let n := nbrows M in
  let L := unitlower (entry M lu) in
  let U := upper (entry M lu) in
  wf_mat M0 -> wf_end M0 -> holds 1 M0 M ->
  length lu = nnz M -> (forall k, k < n -> entry M lu k k <> s0) -> exact_on_pattern M L U (dense M) -> length r = n ->
  exists x, length x = n /\ is_prod n (mprod n L U) x r /\ (forall x', length x' = n -> is_prod n (mprod n L U) x' r -> x' = x) /\
    forall maxthr o m c st dbg nthr g dcpu dwall z,
      session ssqrt sabs slt inv maxthr 1 M0 o m c st M -> o_type o = Some "seqilu0"%string -> length z = n -> 1 <= nthr ->
      (exists nb na l k ai, o_sweeps o = Some (nb :: na :: l) /\ (1 <= nb)%Z /\ (1 <= na)%Z /\ o_chunk o = Some k /\ o_ainit o = Some ai /\ ai <> "init_none"%string) ->
      nok (apply_local_blasted dbg nthr g dcpu dwall M c st r z) (applied (fun z' => z' = x)).
Proof.
  intros F O R ssqrt sabs slt inv M0 M lu r n L U HM0 He HMM Hll Hpiv Hex Hr.
  destruct HMM as [Hp Hv]. rewrite !Nat.mul_1_r in Hv. pose proof (same_pattern_wf _ _ Hp HM0) as HM.
  destruct (C34_scalar_sequential_apply F O R M lu None r HM Hll Hpiv Logic.I Hr) as (x & H1 & H2 & H3 & _).
  exists x. split; [exact H1|]. split; [exact H2|]. split; [exact H3|].
  intros maxthr o m c st dbg nthr g dcpu dwall z Hs Ho Hz Hn (nb & na & l & k & ai & Hos & Hnb & Hna & Hoc & Hoa & Hai).
  destruct (C71_session _ _ _ _ _ _ _ _ _ _ _ _ _ _ Hs) as (p & Ep & _ & Hm & HMM & Hl).
  pose proof (made_shape 1 o p Hm) as (Hnr & _ & Hsh). destruct (made_fits 1 o p M0 M Hm HMM) as [_ Hd].
  assert (("seqilu0"%string, SEQILU0) ∈ advertised) as Hadv by (apply C45_names; reflexivity).
  destruct (kind_of 1 o p _ _ Hm Ho Hadv) as [_ Hk].
  destruct Hk as (nb' & na' & l' & ai' & k' & E1 & E2 & E3 & Hc & Hst & Hmean & Hsc); [intros [|[|]]; discriminate|].
  rewrite Hos in E1. injection E1 as <- <- <-. rewrite Hoa in E2. injection E2 as <-. rewrite Hoc in E3. injection E3 as <-.
  destruct (Hmean ltac:(lia) ltac:(lia)) as (Hk & Hb & Ha & Hth). cbn in Hk.
  destruct p as [sh|sh na1 ch|na1 ch|sh na1 ai1 ch|sh|sh i|sh i|i|b]; try discriminate Hk; [|exfalso; exact (Hnr i eq_refl)].
  destruct Hsh as [Hsh|]; [|discriminate]. cbn [pshape] in Hsh. change (shape_for 1) with Scalar in Hsh. subst sh.
  assert (i_scale i = false) as Esc by (apply (Hsc ltac:(intros [|[|]]; discriminate)); reflexivity).
  specialize (Hth _ eq_refl). injection Hth as Etf Eta. cbn in Etf, Eta.
  assert (well_equipped inv (PIlu Scalar i) M0) as Heq by (split; [exact HM0|]; split; [discriminate|]; split; [exact Logic.I|exact He]).
  destruct (C68_ilu F O R ssqrt sabs inv (PIlu Scalar i) i M0 M maxthr (or_introl eq_refl) Heq Hp Hv) as (lu' & K1 & K2 & K3 & K4).
  - rewrite (Hb _ eq_refl). exact Hnb.
  - left. exact Etf.
  - right. exact Esc.
  - unfold scale_used in K2, K3, K4. rewrite Esc in K2, K3, K4.
    assert (lu = lu') as -> by (apply K3; auto).
    destruct (K4 Hpiv r Hr) as (x1 & G1 & G2 & _ & G4).
    rewrite <- (H3 x1 G1 G2). apply (apply_local_ok _ _ _ _ _ _ _ _ _ _ (PIlu Scalar i)); [exact Ep|unfold obj_dim; cbn; lia|].
    change (fun '(_, z') => z' = x1) with (fun '((_, z') : @pstate F * list F) => z' = scaled_sol None x1).
    apply G4; auto. right. rewrite (Ha _ eq_refl). split; [exact Hna|]. split; [|auto].
    intros Ei. specialize (Hst _ eq_refl). rewrite Ei in Hst. unfold advertised_ainit in Hst. rewrite !elem_of_cons, elem_of_nil in Hst.
    destruct Hst as [[=]|[[=]|[[= Et]|[]]]]. apply Hai. apply (substring_short 19); [exact Et|cbn; lia].
Qed.
