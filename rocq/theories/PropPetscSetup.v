(** * PropPetscSetup: sweep counts, options and set-up of a preconditioner through PETSc (C47, C61, C62) *)
From Coq Require Import ZArith.
From Verif Require Import Base Alg SRMatrix IluApply IluFactor Factory PropFactory Petsc.
Local Open Scope string_scope.

(** ** C47 *)
(** The incomplete factorisations whose two parts can be made sequential *)
Definition ilu_type (t : ptype) : Prop := t = ILU0 \/ t = SFILU0 \/ t = SAPILU0 \/ t = SEQILU0.
(** Asynchronous ILU(0): a part is sequential in the result exactly if the type says so or its count is the symbol; such a count
    becomes 1; other counts stay, unless both parts are sequential *)
Theorem C47_ilu t nb na : ilu_type t -> t <> SEQILU0 ->
  exists t' nb' na', setSweeps_checkSeq t nb na = Ok (t', nb', na') /\ ilu_type t' /\
    (sequential_factor t' = true <-> sequential_factor t = true \/ nb = (-1)%Z) /\
    (sequential_apply t' = true <-> sequential_apply t = true \/ na = (-1)%Z) /\
    (nb = (-1)%Z -> nb' = 1%Z) /\ (na = (-1)%Z -> na' = 1%Z) /\
    (nb <> (-1)%Z -> t' <> SEQILU0 -> nb' = nb) /\ (na <> (-1)%Z -> t' <> SEQILU0 -> na' = na) /\
    (t' = SEQILU0 -> nb' = 1%Z /\ na' = 1%Z).
Proof.
  intros Ht Hs. unfold setSweeps_checkSeq, SEQ, ilu_type in *.
  destruct (decide (nb = (-1)%Z)) as [-> | Hb], (decide (na = (-1)%Z)) as [-> | Ha];
    (destruct Ht as [-> | [-> | [-> | ->]]]; [| | |congruence]);
    repeat (rewrite (bool_decide_eq_true_2 ((-1)%Z = (-1)%Z)) by reflexivity);
    rewrite ?(bool_decide_eq_false_2 (nb = (-1)%Z)) by assumption;
    rewrite ?(bool_decide_eq_false_2 (na = (-1)%Z)) by assumption; cbn;
    eexists _, _, _; (split; [reflexivity|]); cbn; repeat split; try tauto; try congruence; try (intros [?|?]; congruence).
Qed.
(** Without the symbol nothing changes, whatever the type *)
Theorem C47_plain t nb na : nb <> (-1)%Z -> na <> (-1)%Z -> setSweeps_checkSeq t nb na = Ok (t, nb, na).
Proof.
  intros Hb Ha. unfold setSweeps_checkSeq, SEQ. rewrite (bool_decide_eq_false_2 (nb = (-1)%Z)), (bool_decide_eq_false_2 (na = (-1)%Z)) by assumption.
  cbn. destruct (bool_decide (t = SEQILU0)); reflexivity.
Qed.
(** For the other preconditioners one symbol is an error ... *)
Theorem C47_others t nb na : ~ ilu_type t -> (nb = (-1)%Z /\ na <> (-1)%Z \/ nb <> (-1)%Z /\ na = (-1)%Z) ->
  exists e, setSweeps_checkSeq t nb na = Throw e.
Proof.
  unfold ilu_type. intros Ht H. unfold setSweeps_checkSeq, SEQ.
  destruct H as [[-> H]|[H ->]]; rewrite ?(bool_decide_eq_false_2 (na = (-1)%Z)), ?(bool_decide_eq_false_2 (nb = (-1)%Z)) by assumption;
    destruct t; try (exfalso; tauto); cbn; eauto.
Qed.
(** ... but two symbols replace them, without an error, by sequential ILU(0) *)
Theorem C47_both_refuted t : t <> SEQILU0 -> setSweeps_checkSeq t (-1) (-1) = Ok (SEQILU0, 1%Z, 1%Z).
Proof. destruct t; try congruence; reflexivity. Qed.
(** Explicitly sequential ILU(0) keeps the symbol: its factorisation then makes no sweep at all *)
Theorem C47_sequential_refuted nb na : setSweeps_checkSeq SEQILU0 nb na = Ok (SEQILU0, nb, na).
Proof. reflexivity. Qed.
Example C47_case : setSweeps_checkSeq ILU0 (-1) 3 = Ok (SFILU0, 1%Z, 3%Z) /\ ilu_type ILU0 /\ ~ ilu_type GS.
Proof. split; [reflexivity|]. split; [left; reflexivity|intros [H|[H|[H|H]]]; discriminate]. Qed.

Section Setup.
  Context {F : Type} {O : SOps F} {I : Type}.
  Local Notation ctx := (@ctx F). Local Notation mem := (@mem F I).
  Implicit Types (c : ctx) (m : mem) (o : options).

  (** The methods without sweeps *)
  Definition direct (t : ptype) : Prop := t = JACOBI \/ t = LEVEL_SGS \/ t = NO_PREC.
  Definition starts_factor (t : ptype) : Prop := t = ILU0 \/ t = SAPILU0 \/ t = ASYNC_LEVEL_ILU0.
  (** the context's factory is the library's *)
  Definition default_factory m c : Prop := exists a, c_factory c = Some a /\ m_facts m !! a = Some (Some Default).

  Lemma advertised_type s t : (s, t) ∈ advertised -> t <> EXTERNAL.
  Proof. intros H. apply C45_names in H. revert H. unfold solverTypeFromString. repeat (case String.eqb_spec; intros _; [intros [= <-]; discriminate|]). discriminate. Qed.

  (** setupDataFromOptions: what a normal return means *)
  Lemma setup_inv fs o c c' a : c_factory c = Some a -> fs !! a = Some (Some Default) ->
    setupDataFromOptions fs o c = (c', Fine) ->
    exists s t, o_type o = Some s /\ (trunc s, t) ∈ advertised /\
      c_factory c' = Some a /\ c_bs c' = c_bs c /\ c_prectypestr c' = trunc s /\ c_info c' = default false (o_info o) /\ c_first c' = true /\ c_bprec c' = None /\
      (direct t -> c_nbuild c' = 1%Z /\ c_napply c' = 1%Z) /\
      (~ direct t -> exists nb na l ai k, o_sweeps o = Some (nb :: na :: l) /\ o_ainit o = Some ai /\ o_chunk o = Some k /\
         c_nbuild c' = nb /\ c_napply c' = na /\ c_ainit c' = trunc ai /\ c_chunk c' = k /\
         (starts_factor t -> o_scaling o = Some (c_scale c') /\ exists fi, o_finit o = Some fi /\ c_finit c' = trunc fi) /\
         (~ starts_factor t -> c_scale c' = false)).
  Proof.
    intros Ef Ea. unfold setupDataFromOptions. rewrite Ef. simpl deref. rewrite Ea. unfold f_types.
    destruct (o_type o) as [s|]; [|discriminate].
    destruct (solverTypeFromString (trunc s)) as [t| | |] eqn:Et; try discriminate.
    pose proof (proj1 (C45_names _ _) Et) as Ht. intros H. exists s, t. split; [reflexivity|]. split; [exact Ht|].
    unfold direct, starts_factor.
    destruct (decide (t = JACOBI \/ t = LEVEL_SGS \/ t = NO_PREC)) as [Hd|Hd].
    { destruct Hd as [-> | [-> | ->]]; cbn in H; injection H as <-; cbn; do 6 (split; [reflexivity|]); (split; [auto|]); intros N; exfalso; apply N; auto. }
    revert H. rewrite !bool_decide_eq_false_2 with (P := t = JACOBI) by (intros ->; tauto).
    rewrite !bool_decide_eq_false_2 with (P := t = LEVEL_SGS) by (intros ->; tauto).
    rewrite !bool_decide_eq_false_2 with (P := t = NO_PREC) by (intros ->; tauto). cbn [negb andb].
    destruct (o_sweeps o) as [[|nb [|na l]]|]; cbn [bind]; try discriminate.
    destruct (decide (t = ILU0 \/ t = SAPILU0 \/ t = ASYNC_LEVEL_ILU0)) as [Hs|Hs].
    - replace (_ || _) with true by (destruct Hs as [-> | [-> | ->]]; reflexivity).
      destruct (o_scaling o) as [sc|]; cbn [bind]; try discriminate. destruct (o_finit o) as [fi|]; cbn [bind]; try discriminate.
      destruct (o_ainit o) as [ai|]; cbn [bind]; try discriminate. destruct (o_chunk o) as [k|]; cbn [bind]; try discriminate.
      intros [= <-]. cbn. do 6 (split; [reflexivity|]). split; [tauto|]. intros _. exists nb, na, l, ai, k. do 7 (split; [reflexivity|]).
      split; [|tauto]. intros _. split; [reflexivity|]. exists fi. auto.
    - replace (_ || _) with false by (rewrite !bool_decide_eq_false_2 by tauto; reflexivity). cbn [bind].
      destruct (o_ainit o) as [ai|]; cbn [bind]; try discriminate. destruct (o_chunk o) as [k|]; cbn [bind]; try discriminate.
      intros [= <-]. cbn. do 6 (split; [reflexivity|]). split; [tauto|]. intros _. exists nb, na, l, ai, k. do 7 (split; [reflexivity|]).
      split; [tauto|]. reflexivity.
  Qed.

  (** the settings *)
  Lemma settings_inv gf ga c t st : (c_prectypestr c, t) ∈ advertised -> petsc_settings Default gf ga c = Ok st ->
    exists t' nb na, setSweeps_checkSeq t (c_nbuild c) (c_napply c) = Ok (t', nb, na) /\
      st_prectype st = t' /\ st_nbuild st = nb /\ st_napply st = na /\ st_bs st = c_bs c /\ st_blockstorage st = Layout ColMajor /\
      st_chunk st = c_chunk c /\ st_scale st = c_scale c /\ st_info st = c_info c /\
      (starts_factor t' -> getFactInitFromString (c_finit c) = Ok (st_finit st)) /\
      (~ direct t' -> getApplyInitFromString (c_ainit c) = Ok (st_ainit st)) /\
      (~ direct t' -> ~ starts_factor t' -> st_finit st = INIT_F_NONE).
  Proof.
    intros Ht. apply C45_names in Ht. unfold petsc_settings, f_types. rewrite Ht. cbn [bind].
    destruct (setSweeps_checkSeq t (c_nbuild c) (c_napply c)) as [[[t' nb] na]| | |]; try discriminate. cbn [bind].
    unfold direct, starts_factor. intros H. exists t', nb, na.
    destruct t'; cbn in H; destruct (getFactInitFromString (c_finit c)); cbn in H; try discriminate H;
      destruct (getApplyInitFromString (c_ainit c)); cbn in H; try discriminate H; injection H as <-; cbn;
      repeat split; try tauto; try (intros [?|[?|?]]; discriminate).
  Qed.

  (** createNewPreconditioner *)
  Lemma create_inv gf ga dm m c a m' c' t : c_factory c = Some a -> m_facts m !! a = Some (Some Default) -> (c_prectypestr c, t) ∈ advertised ->
    createNewPreconditioner gf ga dm m c = (m', c', Fine) ->
    dm = false /\ exists st p, petsc_settings Default gf ga c = Ok st /\ create_preconditioner st = Ok (Some p) /\ c_bprec c' = Some p /\
      c_info c' = c_info c /\ c_first c' = c_first c /\ c_factory c' = c_factory c /\ c_bs c' = c_bs c /\ m_facts m' = m_facts m /\ m_nodes m' = m_nodes m /\
      (c_info c = true -> c_infolist c' = Some (length (m_infos m)) /\ m_infos m' = (m_infos m ++ [Some []])%list) /\
      (c_info c = false -> c_infolist c' = None /\ m_infos m' = m_infos m) /\
      c_fcpu c' = c_fcpu c /\ c_fwall c' = c_fwall c.
  Proof.
    intros Ef Ea Ht. unfold createNewPreconditioner. destruct dm; [discriminate|]. rewrite Ef. simpl deref. rewrite Ea.
    destruct (petsc_settings Default gf ga c) as [st| | |] eqn:Es; try discriminate.
    destruct (_ || _); [discriminate|]. cbn [f_create].
    destruct (C46_total st) as [[p Ep]|[e Ep]]; rewrite Ep; [|discriminate].
    intros H. split; [reflexivity|]. exists st, p. destruct (c_info c) eqn:Ei; injection H as <- <-; cbn; repeat split; auto; congruence.
  Qed.

  (** ** C61 *)
  (** If setting up through PETSc succeeds, the preconditioner is the one the options describe *)
  Theorem C61_options gf ga dm o info dcpu dwall m c m' c' :
    default_factory m c -> c_first c = false ->
    compute_preconditioner_blasted gf ga dm o info dcpu dwall m c = (m', c', Fine) ->
    exists s t p, o_type o = Some s /\ (trunc s, t) ∈ advertised /\ c_bprec c' = Some p /\
      Z.of_nat (block_size p) = c_bs c /\ (c_bs c = 1%Z \/ c_bs c = 4%Z \/ c_bs c = 5%Z) /\ honours (layout p) ColMajor /\
      (direct t -> meaning t (method_of p)) /\
      (~ direct t -> exists nb na l ai k, o_sweeps o = Some (nb :: na :: l) /\ o_ainit o = Some ai /\ o_chunk o = Some k /\
         honours (chunk p) k /\ (forall x, start_of_apply p = Some x -> (trunc ai, x) ∈ advertised_ainit) /\
         (* no sequential part asked for *)
         (nb <> (-1)%Z -> na <> (-1)%Z ->
            meaning t (method_of p) /\ honours (threaded p) (negb (sequential_factor t), negb (sequential_apply t)) /\
            honours (build_sweeps p) nb /\ honours (apply_sweeps p) na) /\
         (* asynchronous ILU with sequential parts *)
         (ilu_type t -> t <> SEQILU0 -> method_of p = Ilu0 /\
            forall x, threaded p = Some x -> (x.1 = false <-> sequential_factor t = true \/ nb = (-1)%Z) /\ (x.2 = false <-> sequential_apply t = true \/ na = (-1)%Z)) /\
         (forall x, scaled p = Some x -> x = true -> o_scaling o = Some true) /\
         (starts_factor t -> honours (scaled p) (default false (o_scaling o)) /\
            (nb <> (-1)%Z -> forall x, start_of_factor p = Some x -> exists fi, o_finit o = Some fi /\ (trunc fi, x) ∈ advertised_finit))).
  Proof.
    intros (a & Ef & Ea) Hfirst. unfold compute_preconditioner_blasted. rewrite Hfirst.
    destruct (setupDataFromOptions (m_facts m) o c) as [c1 s1] eqn:E1. destruct s1; try discriminate.
    destruct (createNewPreconditioner gf ga dm m c1) as [[m2 c2] s2] eqn:E2. destruct s2; try discriminate.
    destruct (updatePreconditioner info m2 c2) as [m3 s3] eqn:E3. destruct s3; try discriminate. intros [= <- <-]. cbn [c_bprec].
    destruct (setup_inv _ _ _ _ _ Ef Ea E1) as (s & t & Es & Ht & Ef1 & Eb1 & En1 & Ei1 & Efi1 & Ep1 & Hd1 & Hn1).
    rewrite <- En1 in Ht.
    destruct (create_inv _ _ _ _ _ _ _ _ _ Ef1 Ea Ht E2) as (-> & st & p & Est & Ep & Ep2 & _ & _ & _ & _).
    destruct (settings_inv _ _ _ _ _ Ht Est) as (t' & nb & na & Esw & <- & <- & <- & Ebs & Elay & Ech & Esc & Ein & Hfi & Hai & Hfn).
    pose proof (C46_created _ _ Ep) as (Hm & Hbs & Hlay & Hth & Hbu & Hap & Hch & Hsf & Hsa & Hscl).
    exists s, t, p. split; [exact Es|]. split; [rewrite <- En1; exact Ht|]. split; [exact Ep2|]. split; [rewrite Hbs, Ebs; exact Eb1|].
    split.
    { assert (supported st) as [_ [H|(_ & so & _ & [H|[H _]])]] by (apply C46_supported; eauto); rewrite Ebs, Eb1 in H; auto. }
    split; [intros so Hso; apply Hlay in Hso; congruence|].
    assert (direct t -> st_prectype st = t) as Hdt.
    { intros Hd. destruct (Hd1 Hd) as [E E']. rewrite E, E' in Esw. rewrite C47_plain in Esw by discriminate. congruence. }
    split; [intros Hd; rewrite <- (Hdt Hd); exact Hm|].
    intros Hd. destruct (Hn1 Hd) as (nb & na & l & ai & k & E1' & E2' & E3' & E4 & E5 & E6 & E7 & Hs1 & Hs2).
    assert (~ direct (st_prectype st)) as Hd'.
    { intros Hd'. revert Esw. unfold setSweeps_checkSeq. rewrite E4, E5.
      assert (forall x, direct x -> x <> SEQILU0 /\ x <> SAPILU0 /\ x <> SFILU0) as Hx by (intros x [-> | [-> | ->]]; repeat split; discriminate).
      pose proof (Hx _ Hd') as (? & ? & ?).
      destruct (bool_decide (t = SEQILU0)); [intros [= E _ _]; congruence|].
      destruct (_ || _); [intros [= E _ _]; congruence|].
      destruct (bool_decide (na = SEQ)).
      - destruct (_ && _); [discriminate|]. cbn [bind]. destruct (bool_decide (nb = SEQ)); [destruct (_ && _); [discriminate|]|]; cbn [bind]; intros [= E _ _]; congruence.
      - cbn [bind]. destruct (bool_decide (nb = SEQ)); [destruct (_ && _); [discriminate|]|]; cbn [bind]; intros [= E _ _]; congruence. }
    exists nb, na, l, ai, k. split; [exact E1'|]. split; [exact E2'|]. split; [exact E3'|].
    split; [intros x Hx; rewrite (Hch x Hx), Ech; exact E7|].
    split. { intros x Hx. rewrite (Hsa x Hx). apply (C45_initial_guesses (trunc ai)). rewrite <- E6. apply Hai, Hd'. }
    rewrite E4, E5 in Esw.
    split.
    { intros Hb Ha. rewrite C47_plain in Esw by assumption. injection Esw as Et1 Eb2 Ea2. rewrite <- Et1 in Hm, Hth. rewrite <- Eb2 in Hbu. rewrite <- Ea2 in Hap. auto. }
    split.
    { intros Hi Hns. destruct (C47_ilu t nb na Hi Hns) as (t' & nb' & na' & E & Hi' & Hsf' & Hsa' & _). rewrite E in Esw. injection Esw as Et1 _ _. rewrite <- Et1 in Hm, Hth.
      split. { revert Hm. destruct Hi' as [-> | [-> | [-> | ->]]]; exact id. }
      intros x Hx. rewrite (Hth x Hx). cbn. rewrite !negb_false_iff. auto. }
    split.
    { intros x Hx ->. pose proof (Hscl _ Hx) as E. rewrite Esc in E.
      destruct (decide (t = ILU0)) as [Ht1|Ht1], (decide (t = SAPILU0)) as [Ht2|Ht2], (decide (t = ASYNC_LEVEL_ILU0)) as [Ht3|Ht3];
        try (destruct Hs1 as [Hs1 _]; [unfold starts_factor; tauto|congruence]).
      rewrite Hs2 in E by (unfold starts_factor; tauto). discriminate. }
    intros Hst. destruct (Hs1 Hst) as [Hsc (fi & Efi & Efi')]. split.
    { intros x Hx. rewrite (Hscl _ Hx), Esc, Hsc. reflexivity. }
    intros Hb x Hx. exists fi. split; [exact Efi|]. rewrite (Hsf _ Hx). apply (C45_initial_guesses (trunc fi)). rewrite <- Efi'. apply Hfi.
    revert Esw. unfold setSweeps_checkSeq, SEQ. rewrite (bool_decide_eq_false_2 (nb = (-1)%Z)) by exact Hb.
    destruct Hst as [-> | [-> | ->]]; destruct (bool_decide (na = (-1)%Z)); cbn; intros [= <- _ _]; unfold starts_factor; auto; fail.
  Qed.

  Lemma create_direct t bs k sc fi ai info k' sc' fi' ai' : direct t ->
    create_preconditioner (Settings t bs (Layout ColMajor) k sc 1 1 fi ai info) = create_preconditioner (Settings t bs (Layout ColMajor) k' sc' 1 1 fi' ai' info).
  Proof. intros [-> | [-> | ->]]; reflexivity. Qed.
  (** The preconditioner does not depend on what was in memory before: neither in the members of the context not set so far nor in
      those of the settings *)
  Theorem C61_independent gf ga gf' ga' dm o info dcpu dwall m c g m' c' m'' c'' s' :
    default_factory m c -> c_first c = false -> c_first g = false -> c_factory g = c_factory c -> c_bs g = c_bs c ->
    compute_preconditioner_blasted gf ga dm o info dcpu dwall m c = (m', c', Fine) ->
    compute_preconditioner_blasted gf' ga' dm o info dcpu dwall m g = (m'', c'', s') ->
    s' = Fine /\ c_bprec c'' = c_bprec c' /\ c_info c'' = c_info c' /\ c_infolist c'' = c_infolist c' /\ m'' = m'.
  Proof.
    intros (a & Ef & Ea) Hf1 Hf2 Efg Ebs. unfold compute_preconditioner_blasted. rewrite Hf1, Hf2.
    unfold setupDataFromOptions. rewrite Efg, Ef. simpl deref. rewrite Ea. cbn [f_types].
    destruct (o_type o) as [s|]; [|discriminate].
    destruct (solverTypeFromString (trunc s)) as [t| | |] eqn:Et; try discriminate.
    destruct (decide (t = JACOBI \/ t = LEVEL_SGS \/ t = NO_PREC)) as [Hd|Hd].
    - assert (negb (bool_decide (t = JACOBI)) && negb (bool_decide (t = LEVEL_SGS)) && negb (bool_decide (t = NO_PREC)) = false) as Ed by (destruct Hd as [-> | [-> | ->]]; reflexivity).
      rewrite !Ed. unfold createNewPreconditioner. destruct dm; [discriminate|]. cbn [c_factory deref]. rewrite Ea.
      unfold petsc_settings; cbn [f_types c_prectypestr]; rewrite Et; cbn [bind c_nbuild c_napply c_bs c_info c_chunk c_scale c_finit c_ainit].
      rewrite !C47_plain by discriminate. cbn [bind]. rewrite !Ed. cbn [bind]. rewrite Ebs.
      destruct (_ || _); [discriminate|]. cbn [f_create].
      rewrite (create_direct t (c_bs c) (c_chunk g) (c_scale g) gf' ga' (default false (o_info o)) (c_chunk c) (c_scale c) gf ga) by exact Hd.
      destruct (create_preconditioner _) as [[p|]| | |]; cbn; try discriminate;
      destruct (default false (o_info o)); cbn -[deref]; try discriminate;
      try (simpl deref; rewrite !list_lookup_middle by reflexivity); cbn; intros [= <- <-] [= <- <- <-]; cbn; auto.
    - set (A := if negb (bool_decide (t = JACOBI)) && _ && _ then _ else Ok (1%Z, 1%Z, c_scale c, _, _, _)).
      set (A' := if negb (bool_decide (t = JACOBI)) && _ && _ then _ else Ok (1%Z, 1%Z, c_scale g, _, _, _)).
      assert (A' = A) as EA.
      { unfold A, A'. rewrite !bool_decide_eq_false_2 by (intros ->; tauto). reflexivity. }
      rewrite EA. clear EA A'. destruct A as [[[[[[nb na] sc] k] fi] ai]| | |]; try discriminate.
      unfold createNewPreconditioner. destruct dm; [discriminate|]. cbn [c_factory deref]. rewrite Ea.
      unfold petsc_settings; cbn [f_types c_prectypestr]; rewrite Et; cbn [bind c_nbuild c_napply c_bs c_info c_chunk c_scale c_finit c_ainit].
      destruct (setSweeps_checkSeq t nb na) as [[[t' nb'] na']| | |] eqn:Esw; cbn [bind]; try discriminate.
      assert (t' <> JACOBI /\ t' <> LEVEL_SGS /\ t' <> NO_PREC) as (N1 & N2 & N3).
      { revert Esw. unfold setSweeps_checkSeq.
        destruct (bool_decide (t = SEQILU0)); [intros [= <- _ _]; tauto|].
        destruct (_ || _); [intros [= <- _ _]; repeat split; discriminate|].
        destruct (bool_decide (na = SEQ)).
        - destruct (_ && _); [discriminate|]. cbn [bind]. destruct (bool_decide (nb = SEQ)); [destruct (_ && _); [discriminate|]|]; cbn [bind]; intros [= <- _ _]; repeat split; discriminate.
        - cbn [bind]. destruct (bool_decide (nb = SEQ)); [destruct (_ && _); [discriminate|]|]; cbn [bind]; intros [= <- _ _]; repeat split; first [discriminate|tauto]. }
      rewrite (bool_decide_eq_false_2 (t' = JACOBI)), (bool_decide_eq_false_2 (t' = LEVEL_SGS)), (bool_decide_eq_false_2 (t' = NO_PREC)) by assumption.
      cbn [negb andb].
      destruct (if (bool_decide (t' = ILU0)) || _ || _ then _ else _) as [fi'| | |]; cbn [bind]; try discriminate.
      destruct (getApplyInitFromString ai) as [ai'| | |]; cbn [bind]; try discriminate. rewrite Ebs.
      destruct (_ || _); [discriminate|]. cbn [f_create].
      destruct (create_preconditioner _) as [[p|]| | |]; cbn; try discriminate;
      destruct (default false (o_info o)); cbn -[deref]; try discriminate;
      try (simpl deref; rewrite !list_lookup_middle by reflexivity); cbn; intros [= <- <-] [= <- <- <-]; cbn; auto.
  Qed.

  (** Names are short enough to be read in full *)
  Lemma trunc_name s t : (s, t) ∈ advertised -> trunc s = s.
  Proof. unfold advertised. rewrite !elem_of_cons, elem_of_nil. intros H. repeat (destruct H as [[= -> _]|H]; [reflexivity|]). destruct H. Qed.
  Lemma trunc_finit s t : (s, t) ∈ advertised_finit -> trunc s = s.
  Proof. unfold advertised_finit. rewrite !elem_of_cons, elem_of_nil. intros H. repeat (destruct H as [[= -> _]|H]; [reflexivity|]). destruct H. Qed.
  Lemma trunc_ainit s t : (s, t) ∈ advertised_ainit -> trunc s = s.
  Proof. unfold advertised_ainit. rewrite !elem_of_cons, elem_of_nil. intros H. repeat (destruct H as [[= -> _]|H]; [reflexivity|]). destruct H. Qed.

  (** With all options set to documented values, any counts of sweeps other than the symbol, and a supported block size, setting up succeeds *)
  Theorem C61_complete gf ga s t nb na l sc fi fx ai ax k oi info dcpu dwall m c :
    default_factory m c -> c_first c = false ->
    (s, t) ∈ advertised -> (fi, fx) ∈ advertised_finit -> (ai, ax) ∈ advertised_ainit -> nb <> (-1)%Z -> na <> (-1)%Z ->
    c_bs c = 1%Z \/ t <> CSC_BGS /\ (c_bs c = 4%Z \/ c_bs c = 5%Z) ->
    exists m' c' p, compute_preconditioner_blasted gf ga false (Options (Some s) (Some (nb :: na :: l)) (Some sc) (Some fi) (Some ai) (Some k) oi) info dcpu dwall m c = (m', c', Fine) /\
      c_bprec c' = Some p.
  Proof.
    intros (a & Ef & Ea) Hfirst Ht Hfi Hai Hnb Hna Hbs. unfold compute_preconditioner_blasted. rewrite Hfirst.
    unfold setupDataFromOptions. rewrite Ef. simpl deref. rewrite Ea. cbn [f_types o_type o_sweeps o_scaling o_finit o_ainit o_chunk o_info].
    rewrite (trunc_name _ _ Ht), (trunc_finit _ _ Hfi), (trunc_ainit _ _ Hai). rewrite (proj2 (C45_names _ _) Ht). cbn [bind].
    pose proof (proj2 (proj1 (C45_initial_guesses fi) fx) Hfi) as Ei. pose proof (proj2 (proj1 (proj2 (C45_initial_guesses ai)) ax) Hai) as Ej.
    assert (t <> EXTERNAL) as Hx by (eapply advertised_type, Ht).
    assert (forall c1, c_factory c1 = Some a -> c_prectypestr c1 = s -> c_bs c1 = c_bs c ->
      (forall st, petsc_settings Default gf ga c1 = Ok st -> st_prectype st = t /\ st_bs st = c_bs c /\ st_blockstorage st = Layout ColMajor) ->
      (exists st, petsc_settings Default gf ga c1 = Ok st) ->
      exists m2 c2 p, createNewPreconditioner gf ga false m c1 = (m2, c2, Fine) /\ c_bprec c2 = Some p /\
        (c_info c2 = true -> exists l2, deref (m_infos m2) (c_infolist c2) = Ok l2)) as Hcreate.
    { intros c1 Ef1 En1 Eb1 Hst (st & Est). destruct (Hst st Est) as (Et & Eb & El).
      unfold createNewPreconditioner. rewrite Ef1. simpl deref. rewrite Ea, Est, Eb1.
      replace (_ || _) with false by (destruct Hbs as [Hbs|[_ [Hbs|Hbs]]]; rewrite Hbs; reflexivity). cbn [f_create].
      assert (supported st) as Hsup.
      { unfold supported. rewrite Et, Eb, El. split; [exact Hx|]. destruct Hbs as [H|[H H']]; [left; exact H|]. right. split; [exact H|]. exists ColMajor. tauto. }
      apply C46_supported in Hsup as [p Ep]. rewrite Ep.
      destruct (c_info c1) eqn:Einf; eexists _, _, p; (split; [reflexivity|]); cbn; (split; [reflexivity|]); [|discriminate].
      intros _. rewrite list_lookup_middle by reflexivity. eexists. reflexivity. }
    set (A := if negb (bool_decide (t = JACOBI)) && _ && _ then _ else _).
    assert (exists c1, match A with
      | Ok (nb, na, scale, chunk, finit, ainit) =>
          (Ctx None (Some a) (c_bs c) s t scale chunk nb na finit ainit (default false oi) (c_infolist c) true s0 s0 s0 s0 (c_next c), Fine)
      | Throw e => (Ctx (c_bprec c) (Some a) (c_bs c) s (c_prectype c) (c_scale c) (c_chunk c) (c_nbuild c) (c_napply c) (c_finit c) (c_ainit c) (c_info c) (c_infolist c) (c_first c) (c_fcpu c) (c_fwall c) (c_acpu c) (c_awall c) (c_next c), Exn e)
      | _ => (Ctx (c_bprec c) (Some a) (c_bs c) s (c_prectype c) (c_scale c) (c_chunk c) (c_nbuild c) (c_napply c) (c_finit c) (c_ainit c) (c_info c) (c_infolist c) (c_first c) (c_fcpu c) (c_fwall c) (c_acpu c) (c_awall c) (c_next c), Undefined)
      end = (c1, Fine) /\ c_factory c1 = Some a /\ c_prectypestr c1 = s /\ c_bs c1 = c_bs c /\
      (exists st, petsc_settings Default gf ga c1 = Ok st) /\
      (forall st, petsc_settings Default gf ga c1 = Ok st -> st_prectype st = t /\ st_bs st = c_bs c /\ st_blockstorage st = Layout ColMajor)) as (c1 & E1 & Ef1 & En1 & Eb1 & Hex & Hst).
    { assert (exists nb' na' sc' k' f', A = Ok (nb', na', sc', k', f', if decide (t = JACOBI \/ t = LEVEL_SGS \/ t = NO_PREC) then c_ainit c else ai) /\ nb' <> (-1)%Z /\ na' <> (-1)%Z /\
        (starts_factor t -> f' = fi)) as (nb' & na' & sc' & k' & f' & -> & H1 & H2 & H3).
      { unfold A, starts_factor. destruct t; try (exfalso; apply Hx; reflexivity); cbn -[decide];
          first [rewrite decide_True by tauto|rewrite decide_False by (intros [?|[?|?]]; discriminate)];
          eexists _, _, _, _, _; (split; [reflexivity|]); repeat split; try discriminate; try assumption; intros [?|[?|?]]; discriminate. }
      eexists. split; [reflexivity|]. cbn [c_factory c_prectypestr c_bs]. do 3 (split; [reflexivity|]).
      unfold petsc_settings. cbn [f_types c_prectypestr c_nbuild c_napply c_finit c_ainit c_bs c_chunk c_scale c_info]. rewrite (proj2 (C45_names _ _) Ht). cbn [bind].
      rewrite C47_plain by assumption. cbn [bind].
      destruct (decide (t = JACOBI \/ t = LEVEL_SGS \/ t = NO_PREC)) as [Hd|Hd].
      - replace (negb _ && _ && _) with false by (destruct Hd as [-> | [-> | ->]]; reflexivity). cbn [bind].
        split; [eexists; reflexivity|]. intros st [= <-]. auto.
      - replace (negb _ && _ && _) with true by (rewrite !bool_decide_eq_false_2 by tauto; reflexivity). rewrite Ej.
        destruct (decide (t = ILU0 \/ t = SAPILU0 \/ t = ASYNC_LEVEL_ILU0)) as [Hs|Hs].
        + replace (_ || _) with true by (destruct Hs as [-> | [-> | ->]]; reflexivity). rewrite (H3 Hs), Ei. cbn [bind].
          split; [eexists; reflexivity|]. intros st [= <-]. auto.
        + replace (_ || _) with false by (rewrite !bool_decide_eq_false_2 by tauto; reflexivity). cbn [bind].
          split; [eexists; reflexivity|]. intros st [= <-]. auto. }
    destruct (Hcreate c1 Ef1 En1 Eb1 Hst Hex) as (m2 & c2 & p & E2 & Ep & Hinf).
    destruct A as [[[[[[? ?] ?] ?] ?] ?]| | |]; cbn [status_of] in *; try discriminate E1.
    injection E1 as E1. rewrite E1. rewrite E2. unfold updatePreconditioner. rewrite Ep.
    destruct (c_info c2) eqn:Ei2.
    - destruct (Hinf eq_refl) as [l2 El2]. destruct (c_infolist c2) as [a2|] eqn:Ea2; [|discriminate El2]. rewrite El2. eexists _, _, p. split; reflexivity.
    - eexists _, _, p. split; reflexivity.
  Qed.

  (** A block size that is not supported is reported as a PETSc error, with nothing made; block size 3 is not among those checked and ends in
      an exception thrown through PETSc *)
  Theorem C61_block_size gf ga m c st : default_factory m c -> petsc_settings Default gf ga c = Ok st ->
    ((c_bs c <= 0 \/ c_bs c = 2 \/ 5 < c_bs c)%Z -> exists msg, createNewPreconditioner gf ga false m c = (m, c, PetscErr msg)) /\
    (c_bs c = 3%Z -> exists e, createNewPreconditioner gf ga false m c = (m, c, Exn e)).
  Proof.
    intros (a & Ef & Ea) Est. unfold createNewPreconditioner. rewrite Ef. simpl deref. rewrite Ea, Est. split.
    - intros Hb. replace (_ || _) with true; [eexists; reflexivity|]. symmetry. rewrite !orb_true_iff, Z.leb_le, Z.ltb_lt, Z.eqb_eq. lia.
    - intros Hb. rewrite Hb. cbn -[create_preconditioner].
      destruct (C46_total st) as [[p Ep]|[e Ep]]; rewrite Ep; [|eexists; reflexivity]. exfalso.
      assert (st_bs st = 3%Z) as E3.
      { assert (exists t, solverTypeFromString (c_prectypestr c) = Ok t) as [t Et].
        { revert Est. unfold petsc_settings, f_types. destruct (solverTypeFromString (c_prectypestr c)) as [t| | |]; try discriminate. eauto. }
        apply C45_names in Et. destruct (settings_inv _ _ _ _ _ Et Est) as (t' & nb & na & _ & _ & _ & _ & E & _). congruence. }
      assert (supported st) as [_ [H|(_ & so & _ & [H|[H _]])]] by (apply C46_supported; eauto); rewrite E3 in H; discriminate.
  Qed.

  (** ** C62: setting up again *)
  (** A context with a preconditioner: its later set-ups keep the object, whatever the options then say, and record one set of diagnostics each *)
  Definition prepared m c p : Prop :=
    c_first c = true /\ c_bprec c = Some p /\ (c_info c = true -> exists a l, c_infolist c = Some a /\ m_infos m !! a = Some (Some l)).
  Definition recorded m c : list I :=
    match c_infolist c with Some a => match m_infos m !! a with Some (Some l) => l | _ => [] end | None => [] end.
  Fixpoint set_up (gf : FactInit) (ga : ApplyInit) (runs : list (bool * options * I * F * F)) m c : mem * ctx * status :=
    match runs with
    | [] => (m, c, Fine)
    | (dm, o, info, dcpu, dwall) :: runs =>
      match compute_preconditioner_blasted gf ga dm o info dcpu dwall m c with
      | (m, c, Fine) => set_up gf ga runs m c
      | r => r
      end
    end.
  Theorem C62_again gf ga runs m c p : prepared m c p ->
    exists m' c', set_up gf ga runs m c = (m', c', Fine) /\ prepared m' c' p /\ c_info c' = c_info c /\
      (c_info c = true -> recorded m' c' = recorded m c ++ (map (fun r => r.1.1.2) runs))%list /\
      c_fcpu c' = fold_left sadd (map (fun r => r.1.2) runs) (c_fcpu c) /\ c_fwall c' = fold_left sadd (map (fun r => r.2) runs) (c_fwall c) /\
      (forall a, c_infolist c <> Some a -> m_infos m' !! a = m_infos m !! a).
  Proof.
    revert m c. induction runs as [|[[[[dm o] info] dcpu] dwall] runs IH]; intros m c Hp.
    - exists m, c. cbn. rewrite app_nil_r. auto 10.
    - destruct Hp as (Hf & Hb & Hi). cbn [set_up]. unfold compute_preconditioner_blasted. rewrite Hf. unfold updatePreconditioner. rewrite Hb.
      destruct (c_info c) eqn:Ei.
      + destruct (Hi eq_refl) as (a & l & Ea & El). rewrite Ea. simpl deref. rewrite El.
        match goal with |- context [set_up gf ga runs ?m1 ?c1] => destruct (IH m1 c1) as (m' & c' & E & Hp' & H1 & H2 & H3 & H4 & H5) end.
        { split; [exact Hf|]. split; [reflexivity|]. intros _. exists a. eexists. split; [reflexivity|]. cbn. rewrite list_lookup_insert by (apply lookup_lt_Some in El; exact El). reflexivity. }
        exists m', c'. split; [exact E|]. split; [exact Hp'|]. cbn in H1, H2, H3, H4, H5. split; [exact H1|].
        split; [|split; [exact H3|split; [exact H4|]]].
        * intros _. rewrite H2 by reflexivity. unfold recorded. cbn. rewrite Ea, El. rewrite list_lookup_insert by (apply lookup_lt_Some in El; exact El).
          rewrite <- app_assoc. reflexivity.
        * intros b Hb'. rewrite H5 by exact Hb'. apply list_lookup_insert_ne. congruence.
      + match goal with |- context [set_up gf ga runs ?m1 ?c1] => destruct (IH m1 c1) as (m' & c' & E & Hp' & H1 & H2 & H3 & H4 & H5) end.
        { split; [exact Hf|]. split; [reflexivity|]. cbn. discriminate. }
        exists m', c'. split; [exact E|]. split; [exact Hp'|]. cbn in H1, H3, H4, H5. split; [exact H1|]. split; [discriminate|]. auto.
  Qed.
  (** The first set-up, if it succeeds, leaves such a context, with one set of diagnostics *)
  Theorem C62_first gf ga dm o info dcpu dwall m c m' c' :
    default_factory m c -> c_first c = false ->
    compute_preconditioner_blasted gf ga dm o info dcpu dwall m c = (m', c', Fine) ->
    exists p, prepared m' c' p /\ c_info c' = default false (o_info o) /\ (c_info c' = true -> recorded m' c' = [info]) /\ c_fcpu c' = (s0 + dcpu)%s /\ c_fwall c' = (s0 + dwall)%s /\ default_factory m' c'.
  Proof.
    intros (a & Ef & Ea) Hfirst. unfold compute_preconditioner_blasted. rewrite Hfirst.
    destruct (setupDataFromOptions (m_facts m) o c) as [c1 s1] eqn:E1. destruct s1; try discriminate.
    destruct (createNewPreconditioner gf ga dm m c1) as [[m2 c2] s2] eqn:E2. destruct s2; try discriminate.
    destruct (updatePreconditioner info m2 c2) as [m3 s3] eqn:E3. destruct s3; try discriminate. intros [= <- <-]. cbn [c_bprec].
    destruct (setup_inv _ _ _ _ _ Ef Ea E1) as (s & t & Es & Ht & Ef1 & Eb1 & En1 & Ei1 & Efi1 & Ep1 & _).
    assert (c_fcpu c1 = s0 /\ c_fwall c1 = s0) as [Ec1 Ew1].
    { revert E1. unfold setupDataFromOptions. rewrite Ef. simpl deref. rewrite Ea. rewrite Es. destruct (f_types _ _); try discriminate.
      match goal with |- context [match ?A with Ok _ => _ | UB => _ | Throw _ => _ | Fuel => _ end] => destruct A as [[[[[[? ?] ?] ?] ?] ?]| | |] end; try discriminate. intros [= <-]. auto. }
    rewrite <- En1 in Ht.
    destruct (create_inv _ _ _ _ _ _ _ _ _ Ef1 Ea Ht E2) as (-> & st & p & Est & Ep & Ep2 & Ei2 & Ef2 & Efa2 & _ & Efs2 & _ & Hi2 & Hi2' & Ec2 & Ew2).
    exists p. unfold updatePreconditioner in E3. rewrite Ep2 in E3. unfold prepared, recorded, default_factory. cbn.
    destruct (c_info c2) eqn:Einf.
    - rewrite Ei2 in Einf. symmetry in Ei2. destruct (Hi2 Ei2) as [Eil Einfos]. rewrite Eil in *. rewrite Einfos in E3. simpl deref in E3.
      rewrite list_lookup_middle in E3 by reflexivity. injection E3 as <-. cbn. rewrite !list_lookup_insert by (rewrite app_length; simpl; lia).
      split; [|split; [congruence|split; [reflexivity|split; [congruence|split; [congruence|exists a; rewrite Efs2; split; [congruence|exact Ea]]]]]].
      split; [congruence|]. split; [exact Ep2|]. intros _. exists (length (m_infos m)), [info]. split; [reflexivity|]. rewrite !list_lookup_insert by (rewrite app_length; simpl; lia). reflexivity.
    - injection E3 as <-. split; [|split; [congruence|split; [discriminate|split; [congruence|split; [congruence|exists a; rewrite Efs2; split; [congruence|exact Ea]]]]]].
      split; [congruence|]. split; [exact Ep2|]. discriminate.
  Qed.
  (** A first set-up that fails while making the preconditioner (a missing diagonal entry, a block size that is not supported, a bad
      name of an initial guess, ...) is not repeated by the next call, even if the cause is gone: that call uses a null pointer *)
  Theorem C62_failed_refuted gf ga dm o info dcpu dwall m c c1 s m' c' :
    setupDataFromOptions (m_facts m) o c = (c1, Fine) -> default_factory m c -> c_first c = false ->
    compute_preconditioner_blasted gf ga dm o info dcpu dwall m c = (m', c', s) -> s <> Fine ->
    forall gf ga dm' o' info' dcpu' dwall', (compute_preconditioner_blasted gf ga dm' o' info' dcpu' dwall' m' c').2 = Undefined.
  Proof.
    intros E1 (a & Ef & Ea) Hfirst. unfold compute_preconditioner_blasted at 1. rewrite Hfirst, E1.
    destruct (setup_inv _ _ _ _ _ Ef Ea E1) as (sx & t & Es & Ht & Ef1 & Eb1 & En1 & Ei1 & Efi1 & Ep1 & _).
    rewrite <- En1 in Ht.
    destruct (createNewPreconditioner gf ga dm m c1) as [[m2 c2] s2] eqn:E2.
    assert (s2 = Fine \/ c2 = c1) as [-> | ->].
    { revert E2. unfold createNewPreconditioner. destruct dm; [intros [= _ <- _]; auto|]. rewrite Ef1. simpl deref. rewrite Ea.
      destruct (petsc_settings Default gf ga c1); try (intros [= _ <- _]; auto; fail).
      destruct (_ || _); [intros [= _ <- _]; auto|]. destruct (f_create Default _) as [p| | |]; try (intros [= _ <- _]; auto; fail).
      destruct (c_info c1); intros [= _ _ <-]; auto. }
    - intros H Hne. exfalso. destruct (create_inv _ _ _ _ _ _ _ _ _ Ef1 Ea Ht E2) as (-> & st & p & Est & Ep & Ep2 & Ei2 & Ef2 & Efa2 & _ & Efs2 & _ & Hi2 & Hi2' & _).
      revert H Hne. unfold updatePreconditioner. rewrite Ep2. destruct (c_info c2) eqn:Einf.
      + symmetry in Ei2. destruct (Hi2 Ei2) as [Eil Einfos]. rewrite Eil, Einfos. simpl deref. rewrite list_lookup_middle by reflexivity. congruence.
      + congruence.
    - intros H Hs gf' ga' dm' o' info' dcpu' dwall'. assert (c' = c1) as ->.
      { destruct s2; try congruence. revert H Hs. unfold updatePreconditioner. rewrite Ep1. congruence. }
      unfold compute_preconditioner_blasted. rewrite Efi1. unfold updatePreconditioner. rewrite Ep1. reflexivity.
  Qed.
End Setup.

(** A first set-up that fails, and one that succeeds *)
Definition C62_mem : @mem unit unit := Mem [] [] [Some Default].
Definition C62_ctx bs : @ctx unit := Ctx None (Some 0%nat) bs "" JACOBI false 0 0 0 "" "" false None false tt tt tt tt None.
Definition C62_options : options := Options (Some "ilu0") (Some [3%Z; (-1)%Z]) (Some true) (Some "init_original") (Some "init_zero") (Some 400%Z) (Some true).
Local Instance unit_ops : SOps unit := { s0 := tt; s1 := tt; sadd _ _ := tt; ssub _ _ := tt; smul _ _ := tt; sopp _ := tt; sdiv _ _ := tt }.
Example C62_case :
  default_factory C62_mem (C62_ctx 5) /\
  (exists m' c', compute_preconditioner_blasted INIT_F_NONE INIT_A_NONE false C62_options tt tt tt C62_mem (C62_ctx 5) = (m', c', Fine) /\
     c_bprec c' = Some (PIlu (Blocks 5 ColMajor) (Ilu 3 1 true 400 INIT_F_ORIGINAL INIT_A_ZERO true false true)) /\ recorded m' c' = [tt]) /\
  (compute_preconditioner_blasted INIT_F_NONE INIT_A_NONE true C62_options tt tt tt C62_mem (C62_ctx 5)).2 = PetscErr "! Zero diagonal in (block-)row!" /\
  (exists e, (compute_preconditioner_blasted INIT_F_NONE INIT_A_NONE false C62_options tt tt tt C62_mem (C62_ctx 3)).2 = Exn e).
Proof.
  split; [exists 0%nat; split; reflexivity|]. split; [|split; [reflexivity|eexists; reflexivity]].
  eexists _, _. split; [reflexivity|split; reflexivity].
Qed.

Print Assumptions C47_ilu.
Print Assumptions C47_plain.
Print Assumptions C47_others.
Print Assumptions C47_both_refuted.
Print Assumptions C47_sequential_refuted.
Print Assumptions C61_options.
Print Assumptions C61_independent.
Print Assumptions C61_complete.
Print Assumptions C61_block_size.
Print Assumptions C62_again.
Print Assumptions C62_first.
Print Assumptions C62_failed_refuted.
