(** * PropInfoList: the diagnostic records a program finds after any history (C88) *)
From Coq Require Import ZArith.
From Verif Require Import Base Alg SRMatrix Async Nd Kernels IluApply IluPattern IluFactor Sgs Levels ColMat Coo Factory Petsc Objects PropPetscList PropPetscSetup Life LifeFacts PropLife PropTimes.
Local Open Scope string_scope.

(** ** Specification *)
Section Spec.
  Context {F : Type} {O : SOps F} {I : Type}.
  (** what a program finds through the pointer [infolist] of a context: no list (null pointer), or the records *)
  Definition found (m : @mem F I) (c : @ctx F) : option (list I) :=
    match c_infolist c with Some i => match m_infos m !! i with Some l => l | None => None end | None => None end.
  (** the successful set-ups of a shell: none yet; or whether diagnostics were asked for in the options at the first one, and what
      compute() returned in each of them, in turn *)
  Definition set_ups : Type := option (bool * list I).
  Definition one_more (o : options) (info : I) (r : set_ups) : set_ups :=
    Some match r with None => (default false (o_info o), [info]) | Some (asked, l) => (asked, l ++ [info])%list end.
  Definition shown (r : set_ups) : option (list I) := match r with Some (true, l) => Some l | _ => None end.
  (** those of the shell [id], since it was made *)
  Definition count_shell (id : nat) (x : op F I) (s : status) (r : set_ups) : set_ups :=
    match x, s with
    | SetUp id' _ _ _ o info _ _, Fine => if decide (id' = id) then one_more o info r else r
    | Close id', _ => if decide (id' = id) then None else r
    | _, _ => r
    end.
  Fixpoint shell_history (id : nat) (xs : list (op F I)) (L : life F I) (r : set_ups) : set_ups :=
    match xs with
    | [] => r
    | x :: xs => match life_step x L with Ok (L', s) => shell_history id xs L' (count_shell id x s r) | _ => r end
    end.
  (** those with the context at [a]: it outlives its shell *)
  Definition count_context (a : nat) (x : op F I) (s : status) (L : life F I) (r : set_ups) : set_ups :=
    match x, s with
    | SetUp id _ _ _ o info _ _, Fine => if decide (context_of id L = Some a) then one_more o info r else r
    | _, _ => r
    end.
  Fixpoint context_history (a : nat) (xs : list (op F I)) (L : life F I) (r : set_ups) : set_ups :=
    match xs with
    | [] => r
    | x :: xs => match life_step x L with Ok (L', s) => context_history a xs L' (count_context a x s L r) | _ => r end
    end.
End Spec.
Arguments set_ups I : clear implicits.

Section C88.
  Context {F : Type} {O : SOps F} {I : Type}.
  Local Notation life := (life F I). Local Notation op := (op F I). Local Notation ctx := (@ctx F). Local Notation mem := (@mem F I).
  Implicit Types (L : life) (x : op) (xs : list op) (c : ctx) (m : mem).

  (** *** One set-up *)
  Lemma options_info fs o c c' : setupDataFromOptions fs o c = (c', Fine) -> c_info c' = default false (o_info o).
  Proof.
    unfold setupDataFromOptions. destruct (deref fs (c_factory c)) as [f| | |]; try discriminate.
    destruct (o_type o) as [nm|]; [|discriminate].
    destruct (f_types f (trunc nm)) as [t| | |]; try discriminate. cbv zeta.
    match goal with |- context [match ?A with Ok _ => _ | _ => _ end] => destruct A as [[[[[[nb na] sc] k] fi] ai]| | |] end; intros [= <-]; reflexivity.
  Qed.
  Lemma create_info gf ga dm m c m' c' : createNewPreconditioner gf ga dm m c = (m', c', Fine) ->
    c_info c' = c_info c /\ (if c_info c then found m' c' = Some [] /\ (forall j, j < length (m_infos m) -> m_infos m' !! j = m_infos m !! j) /\ c_infolist c' = Some (length (m_infos m))
      else c_infolist c' = None /\ m_infos m' = m_infos m).
  Proof.
    unfold createNewPreconditioner. destruct dm; [discriminate|].
    destruct (deref (m_facts m) (c_factory c)) as [f| | |]; try discriminate.
    destruct (petsc_settings f gf ga c) as [st| | |]; try discriminate.
    destruct (_ || _); [discriminate|]. destruct (f_create f st) as [p| | |]; try discriminate.
    destruct (c_info c) eqn:E; intros [= <- <-]; (split; [reflexivity|]); cbn.
    - unfold found. cbn. rewrite list_lookup_middle by reflexivity. split; [reflexivity|]. split; [|reflexivity]. intros j Hj. apply lookup_app_l, Hj.
    - auto.
  Qed.
  Lemma create_fails gf ga dm m c m' c' s : createNewPreconditioner gf ga dm m c = (m', c', s) -> s <> Fine -> m' = m /\ c' = c.
  Proof.
    unfold createNewPreconditioner. destruct dm; [intros [= <- <- <-]; auto|].
    destruct (deref (m_facts m) (c_factory c)) as [f| | |]; try (intros [= <- <- <-]; auto; fail).
    destruct (petsc_settings f gf ga c) as [st| | |]; try (intros [= <- <- <-]; auto; fail).
    destruct (_ || _); [intros [= <- <- <-]; auto|]. destruct (f_create f st) as [p| | |]; try (intros [= <- <- <-]; auto; fail).
    destruct (c_info c); intros [= <- <- <-] H; congruence.
  Qed.
  Lemma update_info info m c m' : updatePreconditioner info m c = (m', Fine) ->
    if c_info c then exists i l, c_infolist c = Some i /\ m_infos m !! i = Some (Some l) /\ m_infos m' = <[i := Some (l ++ [info])%list]> (m_infos m) else m_infos m' = m_infos m.
  Proof.
    unfold updatePreconditioner. destruct (c_bprec c); [|discriminate]. destruct (c_info c); [|intros [= <-]; reflexivity].
    destruct (c_infolist c) as [i|]; [|discriminate]. simpl deref. destruct (m_infos m !! i) as [[l|]|] eqn:E; try discriminate. intros [= <-]. eauto.
  Qed.

  (** a set-up that succeeds adds its record at the end of the list of this context, if asked for; lists of others stay *)
  Lemma compute_record gf ga dm o info dcpu dwall m c m' c' : ready m c -> 
    compute_preconditioner_blasted gf ga dm o info dcpu dwall m c = (m', c', Fine) ->
    c_info c' = (if c_first c then c_info c else default false (o_info o)) /\
    (if c_info c' then found m' c' = Some (default [] (found m c) ++ [info])%list else c_first c = false -> found m' c' = None) /\
    (c_info c' = false -> c_first c = true -> c_infolist c' = c_infolist c) /\
    (forall j, j < length (m_infos m) -> c_infolist c <> Some j -> m_infos m' !! j = m_infos m !! j) /\
    (c_info c' = false -> m_infos m' = m_infos m).
  Proof.
    intros [Hr _]. unfold compute_preconditioner_blasted. destruct (c_first c) eqn:Ef.
    - destruct (updatePreconditioner info m c) as [m1 s1] eqn:Eu. destruct s1; try discriminate. intros [= <- <-]. apply update_info in Eu. cbn.
      destruct (c_info c) eqn:Ei.
      + destruct Eu as (i & l & E1 & E2 & E3). split; [reflexivity|]. unfold found. cbn. rewrite E1, E3, E2. rewrite list_lookup_insert by (eapply lookup_lt_Some, E2).
        split; [reflexivity|]. split; [discriminate|]. split; [|discriminate]. intros j _ Hj. apply list_lookup_insert_ne. congruence.
      + rewrite Eu. split; [reflexivity|]. split; [discriminate|]. auto.
    - destruct (Hr eq_refl) as [_ Hn]. destruct (setupDataFromOptions (m_facts m) o c) as [c1 s1] eqn:E1. destruct s1; try discriminate.
      apply options_info in E1. destruct (createNewPreconditioner gf ga dm m c1) as [[m2 c2] s2] eqn:E2. destruct s2; try discriminate.
      apply create_info in E2 as [E2 E3]. destruct (updatePreconditioner info m2 c2) as [m3 s3] eqn:E4. destruct s3; try discriminate. intros [= <- <-]. apply update_info in E4.
      cbn. rewrite E2, E1 in *. split; [reflexivity|]. unfold found at 2. rewrite Hn.
      destruct (default false (o_info o)).
      + destruct E3 as (G1 & G2 & G3). destruct E4 as (i & l & K1 & K2 & K3). rewrite G3 in K1. injection K1 as <-. unfold found in *. cbn. rewrite G3 in *. rewrite K2 in G1. injection G1 as ->.
        rewrite K3, list_lookup_insert by (eapply lookup_lt_Some, K2). split; [reflexivity|]. split; [discriminate|]. split; [|discriminate].
        intros j Hj _. rewrite list_lookup_insert_ne by lia. apply G2, Hj.
      + destruct E3 as [G1 G2]. unfold found. cbn. rewrite G1, E4, G2. auto 10.
  Qed.
  (** a first set-up that fails leaves no list and changes none *)
  Lemma compute_no_record gf ga dm o info dcpu dwall m c m' c' s : default_factory m c -> ready m c -> (c_first c = true -> c_bprec c <> None) ->
    compute_preconditioner_blasted gf ga dm o info dcpu dwall m c = (m', c', s) -> s <> Fine -> m_infos m' = m_infos m /\ c_infolist c' = c_infolist c /\ c_first c = false.
  Proof.
    intros Hd Hr Hb E Hs. pose proof (compute_cases _ _ _ _ _ _ _ _ _ _ _ _ Hd Hr Hb E) as (Hu & _ & _ & _ & _ & _ & _ & _ & _ & G1 & _ & _ & G2 & _).
    destruct (c_first c) eqn:Ef. { exfalso. apply Hs, G2. destruct (G1 eq_refl) as [G3 G4]. split; [exact G4|]. rewrite G3. auto. }
    unfold compute_preconditioner_blasted in E. rewrite Ef in E. destruct Hd as (f & Hf1 & Hf2).
    destruct (setupDataFromOptions (m_facts m) o c) as [c1 s1] eqn:E1. destruct (setup_cases _ _ _ _ Hf1 Hf2 _ _ E1) as (_ & _ & _ & I1 & _).
    destruct s1; try (injection E as <- <- <-; auto; fail).
    destruct (createNewPreconditioner gf ga dm m c1) as [[m2 c2] s2] eqn:E2.
    destruct s2 eqn:Es; try (destruct (create_fails _ _ _ _ _ _ _ _ E2 ltac:(discriminate)) as [-> ->]; injection E as <- <- <-; auto; fail).
    destruct (updatePreconditioner info m2 c2) as [m3 s3] eqn:E4. destruct s3; [injection E as <- <- <-; congruence| | |injection E as <- <- <-; congruence].
    - exfalso. unfold updatePreconditioner in E4. destruct (c_bprec c2); [|discriminate]. destruct (c_info c2); [|discriminate].
      destruct (deref _ _); try discriminate. destruct (c_infolist c2); discriminate.
    - exfalso. unfold updatePreconditioner in E4. destruct (c_bprec c2); [|discriminate]. destruct (c_info c2); [|discriminate].
      destruct (deref _ _); try discriminate. destruct (c_infolist c2); discriminate.
  Qed.

  Lemma destroy_infos n : forall m p sz m' sz', destroy_loop n m p sz = Ok (m', sz') ->
    forall i (l : list I), m_infos m' !! i = Some (Some l) -> m_infos m !! i = Some (Some l).
  Proof.
    induction n as [|n IH]; intros m p sz m' sz' E i l Hi; (destruct p as [q|]; [|injection E as <- <-; exact Hi]); cbn [destroy_loop] in E; [discriminate E|].
    destruct (deref (m_nodes m) (Some q)) as [c0| | |]; cbn [bind] in E; try discriminate E.
    destruct (free (m_infos m) (c_infolist c0)) as [infos| | |] eqn:Ef; cbn [bind] in E; try discriminate E.
    destruct (free (m_nodes m) (Some q)) as [nodes| | |]; cbn [bind] in E; try discriminate E.
    pose proof (IH _ _ _ _ _ E i l Hi) as G. cbn [m_infos] in G. destruct (c_infolist c0) as [j|]; [|injection Ef as <-; exact G].
    cbn in Ef. destruct (m_infos m !! j) as [[y|]|] eqn:Ej; try discriminate Ef. injection Ef as <-.
    destruct (decide (j = i)) as [<- |Hne]; [rewrite list_lookup_insert in G by (eapply lookup_lt_Some, Ej); discriminate G|].
    rewrite list_lookup_insert_ne in G by exact Hne. exact G.
  Qed.

  (** *** Histories *)
  Record kept L (R S : nat -> set_ups I) : Prop := Kept {
    k_found : forall a c, m_nodes (l_mem L) !! a = Some (Some c) -> found (l_mem L) c = shown (R a);
    k_none : forall a c, m_nodes (l_mem L) !! a = Some (Some c) -> R a = None -> c_first c = true -> c_bprec c = None;
    k_asked : forall a c b l, m_nodes (l_mem L) !! a = Some (Some c) -> R a = Some (b, l) -> c_info c = b /\ c_first c = true;
    k_new : forall a, length (m_nodes (l_mem L)) <= a -> R a = None;
    k_shell : forall id a r, (id, a, r) ∈ l_shells L -> S id = R a;
    k_other : forall id, id ∉ existing L -> S id = None }.

  Lemma kept_ext L R S R' S' : kept L R S -> (forall a, R' a = R a) -> (forall id, S' id = S id) -> kept L R' S'.
  Proof.
    intros [H1 H2 H3 H4 H5 H6] HR HS. constructor.
    - intros a c Hc. rewrite HR. auto.
    - intros a c Hc. rewrite HR. eauto.
    - intros a c b l Hc. rewrite HR. eauto.
    - intros a. rewrite HR. auto.
    - intros id a r Hs. rewrite HS, HR. eauto.
    - intros id. rewrite HS. auto.
  Qed.
  (** only the memory of lists, objects and PETSc's notes differ *)
  Lemma kept_same L L' R S : kept L R S -> m_nodes (l_mem L') = m_nodes (l_mem L) -> m_infos (l_mem L') = m_infos (l_mem L) -> l_shells L' = l_shells L -> kept L' R S.
  Proof.
    intros [H1 H2 H3 H4 H5 H6] En Ei Es. constructor; unfold existing, found in *; rewrite ?En, ?Ei, ?Es; auto.
  Qed.

  Lemma step_kept owner L ls x L' s R S : inv owner L ls -> allowed owner L x -> life_step x L = Ok (L', s) -> kept L R S ->
    kept L' (fun a => count_context a x s L (R a)) (fun id => count_shell id x s (S id)).
  Proof.
    intros H Hx E K. destruct (step_inv owner L ls x H Hx) as (L0 & s0' & ls' & E' & H'). rewrite E in E'. injection E' as <- <-.
    destruct x as [|k ksp g|id gf ga dm o info dcpu dwall|id dcpu dwall|id|k|k]; cbn [life_step allowed count_context count_shell] in *.
    - injection E as <- <-. eapply kept_same; [exact K| | |]; reflexivity.
    - destruct Hx as (Hk & Hloc & _ & Hids).
      destruct (lookup_lt_is_Some_2 (l_lists L) k Hk) as [d Ed]. unfold life_configure, get in E. rewrite Ed in E. cbn [bind] in E.
      destruct (nested_spec g ksp Hloc (World (l_mem L) d (l_shells L))) as (w & Ew & new & _ & H2 & H3 & (H4 & H4') & H5 & H6 & _).
      unfold setup_blasted_stack in E. cbv zeta in E. rewrite Ew in E. injection E as <- <-. cbn [w_mem w_list w_shells] in *.
      assert (forall a, a ∈ map fst new -> length (m_nodes (l_mem L)) <= a /\ forall c, m_nodes (w_mem w) !! a = Some (Some c) -> c_infolist c = None /\ c_first c = false) as Hnew.
      { intros a Ha. clear -Ha H3. induction H3 as [|b [id bs] l' sh (Hb & c & f & Hc & _ & Hfr) HF IH]; [apply elem_of_nil in Ha as []|].
        apply elem_of_cons in Ha as [-> |Ha]; [|auto]. split; [apply lookup_ge_None_1, Hb|]. intros c' Hc'. rewrite Hc in Hc'. injection Hc' as <-. destruct Hfr as (_ & _ & _ & G1 & G2 & _). auto. }
      assert (forall a, ~ a < length (m_nodes (l_mem L)) -> R a = None) as Hnone by (intros a Ha; apply (k_new _ _ _ K); lia).
      assert (forall a c, m_nodes (w_mem w) !! a = Some (Some c) -> ~ a < length (m_nodes (l_mem L)) -> c_infolist c = None /\ c_first c = false) as Hfresh.
      { intros a c Hc Hlt. apply (proj2 (Hnew a (H4' a ltac:(split; [lia|eapply lookup_lt_Some, Hc])))), Hc. }
      constructor; cbn [l_mem l_shells].
      + intros a c Hc. destruct (decide (a < length (m_nodes (l_mem L)))) as [Hlt|Hge].
        * rewrite H5 in Hc by exact Hlt. rewrite <- (k_found _ _ _ K _ _ Hc). unfold found. rewrite H6. reflexivity.
        * rewrite Hnone by exact Hge. unfold found. destruct (Hfresh _ _ Hc Hge) as [-> _]. reflexivity.
      + intros a c Hc Hn Hf. destruct (decide (a < length (m_nodes (l_mem L)))) as [Hlt|Hge].
        * rewrite H5 in Hc by exact Hlt. apply (k_none _ _ _ K _ _ Hc Hn Hf).
        * destruct (Hfresh _ _ Hc Hge) as [_ G]. congruence.
      + intros a c b l Hc Hn. destruct (decide (a < length (m_nodes (l_mem L)))) as [Hlt|Hge].
        * rewrite H5 in Hc by exact Hlt. apply (k_asked _ _ _ K _ _ _ _ Hc Hn).
        * rewrite Hnone in Hn by exact Hge. discriminate.
      + intros a Ha. apply Hnone. lia.
      + intros id a r Hs. rewrite H2 in Hs. apply elem_of_app in Hs as [Hs|Hs]; [apply (k_shell _ _ _ K _ _ _ Hs)|].
        apply elem_of_lookup_zip_with in Hs as (i & [id' bs] & [a' r'] & E1 & E2 & E3). injection E1 as <- <- <-.
        rewrite (k_other _ _ _ K), Hnone; [reflexivity| |].
        * assert (a ∈ map fst new) as Ha by (apply elem_of_list_fmap; exists (a, r); split; [reflexivity|eapply elem_of_list_lookup_2; eassumption]). apply Hnew in Ha as [Ha _]. lia.
        * apply Hids. apply elem_of_list_fmap. exists (id, bs). split; [reflexivity|]. eapply elem_of_list_lookup_2; eassumption.
      + intros id Hid. apply (k_other _ _ _ K). intros Hi. apply Hid. unfold existing. cbn [l_shells]. rewrite H2, map_app. apply elem_of_app. left. exact Hi.
    - unfold life_setup in E. destruct (context_of id L) as [a|] eqn:Ectx; [|injection E as <- <-; exact K].
      pose proof Ectx as Ectx'. apply context_Some in Ectx' as [r Hs]. destruct (shell_live _ _ _ _ _ _ H Hs) as [c Hc]. simpl deref in E. rewrite Hc in E. cbn [bind] in E.
      destruct (get (l_ptr L) a) as [p| | |]; cbn [bind] in E; try discriminate E.
      destruct (compute_preconditioner_blasted gf ga dm o info dcpu dwall (l_mem L) c) as [[m' c'] s'] eqn:Ec.
      destruct (i_own _ _ _ H _ _ _ Hs) as (l & El & Ha). destruct (i_factory _ _ _ H _ _ _ _ El Ha Hc) as [Hdef _].
      destruct (i_shell _ _ _ H _ _ _ _ Hs Hc) as (_ & S2 & _).
      assert (c_first c = true -> c_bprec c <> None) as Hb by (intros Ef Eb; apply Hx, S2; assumption).
      destruct (compute_cases _ _ _ _ _ _ _ _ _ _ _ _ Hdef (i_ready _ _ _ H _ _ Hc) Hb Ec) as (_ & G1 & _ & _ & _ & _ & _ & _ & _ & _ & _ & _ & G4 & _).
      match type of E with bind ?A _ = _ => destruct A as [[os p']| | |] end; cbn [bind] in E; try discriminate E. rewrite G1 in E.
      assert (forall b cb i, b <> a -> m_nodes (l_mem L) !! b = Some (Some cb) -> c_infolist cb = Some i -> i < length (m_infos (l_mem L)) /\ c_infolist c <> Some i) as Hothers.
      { intros b cb i Hne Hb' Hi. split; [destruct (i_info _ _ _ H _ _ _ Hb' Hi) as [y Hy]; eapply lookup_lt_Some, Hy|]. intros Hi'. apply Hne. apply (i_info_inj _ _ _ H _ _ _ _ _ Hb' Hc Hi Hi'). }
      assert (forall b y, <[a:=Some c']> (m_nodes (l_mem L)) !! b = Some (Some y) -> b = a /\ y = c' \/ b <> a /\ m_nodes (l_mem L) !! b = Some (Some y)) as Hput.
      { intros b y Hy. destruct (decide (a = b)) as [<- |Hne]; [rewrite list_lookup_insert in Hy by (eapply lookup_lt_Some, Hc); injection Hy as <-; auto|].
        rewrite list_lookup_insert_ne in Hy by exact Hne. auto. }
      assert (forall id' a' r', (id', a', r') ∈ l_shells L -> a' = a <-> id' = id) as Hsame.
      { intros id' a' r' Hs'. split; intros ->; [destruct (same_addr _ _ _ _ _ _ (i_addr _ _ _ H) Hs Hs') as [-> _]|destruct (same_id _ _ _ _ _ _ (i_ids _ _ _ H) Hs Hs') as [-> _]]; reflexivity. }
      assert (s' = Fine \/ s' <> Fine) as [-> |Hbad] by (destruct s'; auto; right; discriminate).
      + destruct (alive os p'); [|discriminate E]. injection E as <- <-.
        destruct (compute_record _ _ _ _ _ _ _ _ _ _ _ (i_ready _ _ _ H _ _ Hc) Ec) as (N1 & N2 & N3 & N4 & N5).
        destruct (proj1 G4 eq_refl) as [G5 G6].
        assert (R a = None <-> c_first c = false) as Hfirst.
        { split; [intros Hn; destruct (c_first c) eqn:Ef; [|reflexivity]; destruct (Hb eq_refl); apply (k_none _ _ _ K _ _ Hc Hn Ef)|].
          intros Hf. destruct (R a) as [[b l0]|] eqn:Er; [|reflexivity]. destruct (k_asked _ _ _ K _ _ _ _ Hc Er). congruence. }
        assert (exists rs, one_more o info (R a) = Some (c_info c', rs) /\ found m' c' = shown (Some (c_info c', rs))) as (rs & Hone & Hfnd).
        { unfold one_more. destruct (R a) as [[b l0]|] eqn:Er.
          - destruct (k_asked _ _ _ K _ _ _ _ Hc Er) as [A1 A2]. rewrite A2, A1 in N1. exists (l0 ++ [info])%list. rewrite N1 in *. split; [reflexivity|].
            pose proof (k_found _ _ _ K _ _ Hc) as A3. rewrite Er in A3. destruct b; cbn in A3 |- *.
            + rewrite N2, A3. reflexivity.
            + unfold found in *. rewrite (N3 eq_refl A2), (N5 eq_refl). exact A3.
          - rewrite (proj1 Hfirst eq_refl) in *. exists [info]. rewrite <- N1. split; [reflexivity|]. pose proof (k_found _ _ _ K _ _ Hc) as A3. rewrite Er in A3. cbn in A3.
            destruct (c_info c'); cbn; [rewrite N2, A3; reflexivity|apply N2; reflexivity]. }
        constructor; cbn [l_mem l_shells m_nodes m_infos].
        * intros b y Hy. destruct (Hput _ _ Hy) as [[-> ->]|[Hne Hy']].
          -- rewrite decide_True by reflexivity. rewrite Hone, <- Hfnd. reflexivity.
          -- rewrite decide_False by congruence. rewrite <- (k_found _ _ _ K _ _ Hy'). unfold found. cbn. destruct (c_infolist y) as [i|] eqn:Ei; [|reflexivity].
             destruct (Hothers _ _ _ Hne Hy' Ei). rewrite N4 by assumption. reflexivity.
        * intros b y Hy. destruct (Hput _ _ Hy) as [[-> ->]|[Hne Hy']].
          -- rewrite decide_True by reflexivity. rewrite Hone. discriminate.
          -- rewrite decide_False by congruence. apply (k_none _ _ _ K _ _ Hy').
        * intros b y bb ll Hy. destruct (Hput _ _ Hy) as [[-> ->]|[Hne Hy']].
          -- rewrite decide_True by reflexivity. rewrite Hone. intros [= <- <-]. auto.
          -- rewrite decide_False by congruence. apply (k_asked _ _ _ K _ _ _ _ Hy').
        * intros b Hb'. rewrite insert_length in Hb'. rewrite decide_False; [apply (k_new _ _ _ K), Hb'|]. intros [= <-]. apply lookup_lt_Some in Hc. lia.
        * intros id' a' r' Hs'. rewrite (k_shell _ _ _ K _ _ _ Hs'). pose proof (Hsame _ _ _ Hs') as Hsm.
          destruct (decide (id = id')) as [<- |Hne]; [rewrite decide_True by (f_equal; symmetry; apply Hsm; reflexivity); reflexivity|].
          rewrite decide_False; [reflexivity|]. intros [= <-]. apply Hne. symmetry. apply Hsm. reflexivity.
        * intros id' Hid'. rewrite decide_False; [apply (k_other _ _ _ K), Hid'|]. intros <-. apply Hid'. apply elem_of_list_fmap. exists (id, a, r). auto.
      + destruct (compute_no_record _ _ _ _ _ _ _ _ _ _ _ _ Hdef (i_ready _ _ _ H _ _ Hc) Hb Ec Hbad) as (N1 & N2 & N3).
        assert (s = s' /\ L' = Life (Mem (<[a := Some c']> (m_nodes (l_mem L))) (m_infos m') (m_facts m')) (l_lists L) (l_shells L) (<[a := p']> (l_ptr L)) os (l_done L) (id :: l_failed L)) as [-> ->]
          by (destruct s'; try congruence; injection E as <- <-; auto).
        assert (R a = None) as Hra. { destruct (R a) as [[b l0]|] eqn:Er; [|reflexivity]. destruct (k_asked _ _ _ K _ _ _ _ Hc Er). congruence. }
        eapply (kept_ext _ R S); [|intros b; destruct s'; congruence|intros b; destruct s'; congruence].
        constructor; cbn [l_mem l_shells m_nodes m_infos].
        * intros b y Hy. destruct (Hput _ _ Hy) as [[-> ->]|[Hne Hy']].
          -- rewrite <- (k_found _ _ _ K _ _ Hc). unfold found. cbn. rewrite N1, N2. reflexivity.
          -- rewrite <- (k_found _ _ _ K _ _ Hy'). unfold found. cbn. rewrite N1. reflexivity.
        * intros b y Hy. destruct (Hput _ _ Hy) as [[-> ->]|[Hne Hy']]; [|apply (k_none _ _ _ K _ _ Hy')].
          intros _ Ef. destruct (c_bprec c') eqn:Eb; [|reflexivity]. exfalso. apply Hbad, G4. split; [exact Ef|congruence].
        * intros b y bb ll Hy. destruct (Hput _ _ Hy) as [[-> ->]|[Hne Hy']]; [congruence|apply (k_asked _ _ _ K _ _ _ _ Hy')].
        * intros b Hb'. rewrite insert_length in Hb'. apply (k_new _ _ _ K), Hb'.
        * apply (k_shell _ _ _ K).
        * apply (k_other _ _ _ K).
    - assert (kept L' R S) as G; [|eapply kept_ext; [exact G|intros; reflexivity|intros; reflexivity]].
      unfold life_apply in E. destruct (context_of id L) as [a|] eqn:Ectx; [|injection E as <- <-; exact K].
      case_bool_decide as Hd; [|injection E as <- <-; exact K].
      apply context_Some in Ectx as [r Hs]. destruct (shell_live _ _ _ _ _ _ H Hs) as [c Hc]. simpl deref in E. rewrite Hc in E. cbn [bind] in E.
      destruct (get (l_ptr L) a) as [p| | |]; cbn [bind] in E; try discriminate. destruct (alive (l_objs L) p); [|discriminate]. injection E as <- <-.
      assert (forall b y, <[a:=Some (spend c dcpu dwall)]> (m_nodes (l_mem L)) !! b = Some (Some y) -> exists y', m_nodes (l_mem L) !! b = Some (Some y') /\
        c_infolist y = c_infolist y' /\ c_first y = c_first y' /\ c_bprec y = c_bprec y' /\ c_info y = c_info y') as Hput.
      { intros b y Hy. destruct (decide (a = b)) as [<- |Hne]; [rewrite list_lookup_insert in Hy by (eapply lookup_lt_Some, Hc); injection Hy as <-; exists c; auto|].
        rewrite list_lookup_insert_ne in Hy by exact Hne. exists y. auto. }
      constructor; cbn [l_mem l_shells m_nodes m_infos].
      + intros b y Hy. destruct (Hput _ _ Hy) as (y' & Hy' & E1 & E2 & E3 & E4). rewrite <- (k_found _ _ _ K _ _ Hy'). unfold found. rewrite E1. reflexivity.
      + intros b y Hy. destruct (Hput _ _ Hy) as (y' & Hy' & E1 & E2 & E3 & E4). rewrite E2, E3. apply (k_none _ _ _ K _ _ Hy').
      + intros b y bb ll Hy. destruct (Hput _ _ Hy) as (y' & Hy' & E1 & E2 & E3 & E4). rewrite E2, E4. apply (k_asked _ _ _ K _ _ _ _ Hy').
      + intros b. rewrite insert_length. apply (k_new _ _ _ K).
      + apply (k_shell _ _ _ K).
      + apply (k_other _ _ _ K).
    - eapply (kept_ext _ R (fun id' => if decide (id = id') then None else S id')); [|intros; reflexivity|intros; destruct s; reflexivity].
      unfold life_close in E. destruct (context_of id L) as [a|] eqn:Ectx.
      + destruct (deref _ _) as [c| | |]; cbn [bind] in E; try discriminate. destruct (get _ _) as [p| | |]; cbn [bind] in E; try discriminate.
        destruct (free _ _) as [os| | |]; cbn [bind] in E; try discriminate. injection E as <- <-. destruct K. constructor; cbn [l_mem l_shells]; auto.
        * intros id' a' r' Hs'. apply elem_of_list_filter in Hs' as [Hne Hs']. cbn in Hne. rewrite decide_False by congruence. eauto.
        * intros id' Hid'. destruct (decide (id = id')) as [|Hne]; [reflexivity|]. apply k_other0. intros Hi. apply Hid'. unfold existing in *. cbn [l_shells].
          apply elem_of_list_fmap in Hi as (y & Ey & Hy). apply elem_of_list_fmap. exists y. split; [exact Ey|]. apply elem_of_list_filter. split; [congruence|exact Hy].
      + injection E as <- <-. destruct K. constructor; auto.
        * intros id' a' r' Hs'. rewrite decide_False; [eauto|]. intros <-. eapply context_None; eassumption.
        * intros id' Hid'. destruct (decide (id = id')); auto.
    - assert (kept L' R S) as G; [|eapply kept_ext; [exact G|intros; reflexivity|intros; reflexivity]].
      unfold life_totals in E. destruct (get (l_lists L) k) as [d| | |]; cbn [bind] in E; try discriminate E. destruct (computeTotalTimes _ _) as [d'| | |]; cbn [bind] in E; try discriminate E.
      injection E as <- <-. eapply kept_same; [exact K| | |]; reflexivity.
    - assert (kept L' R S) as G; [|eapply kept_ext; [exact G|intros; reflexivity|intros; destruct s; reflexivity]].
      unfold life_destroy in E. destruct (get (l_lists L) k) as [d| | |]; cbn [bind] in E; try discriminate E.
      destruct (destroyBlastedDataList (l_mem L) d) as [[m' d']| | |] eqn:E48; cbn [bind] in E; try discriminate E. injection E as <- <-.
      assert (length (m_nodes m') = length (m_nodes (l_mem L)) /\ (forall a c, m_nodes m' !! a = Some (Some c) -> m_nodes (l_mem L) !! a = Some (Some c)) /\
        forall i l, m_infos m' !! i = Some (Some l) -> m_infos (l_mem L) !! i = Some (Some l)) as (Hlen & Hn & Hi).
      { unfold destroyBlastedDataList in E48. destruct (if d_default d then _ else _) as [fs| | |]; cbn [bind] in E48; try discriminate E48.
        destruct (destroy_loop _ _ _ _) as [[m2 sz]| | |] eqn:E2; cbn [bind] in E48; try discriminate E48. destruct (Z.eqb sz 0); [|discriminate E48]. injection E48 as <- <-.
        split; [|split; [apply (destroy_loop_only _ _ _ _ _ _ E2)|apply (destroy_infos _ _ _ _ _ _ E2)]].
        pose proof (i_len _ _ _ H') as L1. pose proof (i_len _ _ _ H) as L2. cbn [l_ptr l_mem] in L1. congruence. }
      constructor; cbn [l_mem l_shells].
      + intros a c Hc. rewrite <- (k_found _ _ _ K _ _ (Hn _ _ Hc)). unfold found. destruct (c_infolist c) as [i|] eqn:Ei; [|reflexivity].
        destruct (i_info _ _ _ H' _ _ _ Hc Ei) as [y Hy]. cbn [l_mem] in Hy. rewrite Hy, (Hi _ _ Hy). reflexivity.
      + intros a c Hc. apply (k_none _ _ _ K _ _ (Hn _ _ Hc)).
      + intros a c b l Hc. apply (k_asked _ _ _ K _ _ _ _ (Hn _ _ Hc)).
      + intros a. rewrite Hlen. apply (k_new _ _ _ K).
      + apply (k_shell _ _ _ K).
      + apply (k_other _ _ _ K).
  Qed.

  Lemma run_kept owner xs : forall L ls R S, inv owner L ls -> follows owner xs L -> kept L R S ->
    forall L', life_run xs L = Ok L' -> kept L' (fun a => context_history a xs L (R a)) (fun id => shell_history id xs L (S id)).
  Proof.
    induction xs as [|x xs IH]; intros L ls R S H Hf K L' E; [injection E as <-; exact K|]. destruct Hf as [Hx Hf].
    destruct (step_inv _ _ _ _ H Hx) as (L1 & s & ls1 & E1 & H1). cbn [life_run context_history shell_history] in *. rewrite E1 in *. cbn [bind] in E.
    apply (IH L1 ls1 (fun a => count_context a x s L (R a)) (fun id => count_shell id x s (S id)) H1 (Hf _ _ eq_refl)); [|exact E]. eapply step_kept; eassumption.
  Qed.
  Lemma kept_start : kept (@life_start F I) (fun _ => None) (fun _ => None).
  Proof.
    constructor; auto.
    - intros a c Hc. cbn in Hc. rewrite lookup_nil in Hc. discriminate.
    - intros a c Hc. cbn in Hc. rewrite lookup_nil in Hc. discriminate.
    - discriminate.
  Qed.

  (** After any history that keeps the rules, the context of an existing shell leads to the records of exactly the successful set-ups of
      this shell since it was made, in their order, if diagnostics were asked for at its first set-up; and else to no list, as before the
      first successful set-up. *)
  Theorem C88_shell owner xs L id a c : follows owner xs life_start -> life_run xs life_start = Ok L -> context_of id L = Some a -> m_nodes (l_mem L) !! a = Some (Some c) ->
    found (l_mem L) c = shown (shell_history id xs life_start None).
  Proof.
    intros Hf E Ha Hc. pose proof (run_kept owner xs _ _ _ _ (inv_start owner) Hf kept_start L E) as K. apply context_Some in Ha as [r Hs].
    rewrite (k_shell _ _ _ K _ _ _ Hs). apply (k_found _ _ _ K _ _ Hc).
  Qed.
  (** The same for every context in existence, also those of shells already closed: the records can be read until the list is destroyed *)
  Theorem C88_context owner xs L a c : follows owner xs life_start -> life_run xs life_start = Ok L -> m_nodes (l_mem L) !! a = Some (Some c) ->
    found (l_mem L) c = shown (context_history a xs life_start None).
  Proof. intros Hf E Hc. apply (k_found _ _ _ (run_kept owner xs _ _ _ _ (inv_start owner) Hf kept_start L E) _ _ Hc). Qed.
End C88.

From Verif Require IluFactorMain.
(** ** What a record holds *)
Section Objects.
  Context {F : Type} {O : SOps F} (ssqrt sabs : F -> F) (slt : F -> F -> bool) (inv : list F -> list F).
  (** the kinds of preconditioners that compute diagnostics, when told to *)
  Definition diagnosed (p : prec) : bool := match p with PIlu _ i | PLevelIlu _ i => Factory.i_info i | _ => false end.

  Lemma member_Ok {A B} (x : option A) (k : A -> nd B) b : member x k (Ok b) -> exists a, x = Some a /\ k a (Ok b).
  Proof. destruct x as [a|]; [eauto|]. intros H. discriminate H. Qed.
  Lemma chunked_Ok {B} chunk (k : nat -> nd B) b : chunked chunk k (Ok b) -> exists n, k n (Ok b).
  Proof. unfold chunked. destruct (chunk <=? 0)%Z; [intros H; discriminate H|eauto]. Qed.
  Lemma ilu_info sh i nthr g M st st' info : ilu_compute ssqrt sabs inv sh i nthr g M st (Ok (st', info)) -> info = None <-> Factory.i_info i = false.
  Proof.
    unfold ilu_compute. intros H. apply chunked_Ok in H as [k H]. apply IluFactorMain.nbind_Ok in H as (y & _ & H). cbv zeta in H.
    apply IluFactorMain.nbind_Ok in H as ([s inf] & H & Hr). injection Hr as -> ->.
    assert (inf = None <-> Factory.i_info i = false) as G; [|exact G]. destruct sh as [|bs so].
    - unfold scalar_ilu0_compute in H. apply IluFactorMain.nbind_Ok in H as ([[lu sc] pl] & _ & H). apply IluFactorMain.nbind_Ok in H as ([[lu' sc'] inf'] & H & Hr).
      injection Hr as -> ->. unfold scalar_ilu0_factorize in H. do 5 apply IluFactorMain.nbind_Ok in H as (? & _ & H). injection H as -> -> ->. destruct (Factory.i_info i); split; congruence.
    - unfold block_ilu0_compute in H. apply IluFactorMain.nbind_Ok in H as ([[lu sc] pl] & _ & H). apply IluFactorMain.nbind_Ok in H as ([[lu' sc'] inf'] & H & Hr).
      injection Hr as -> ->. unfold block_ilu0_factorize in H. do 6 apply IluFactorMain.nbind_Ok in H as (? & _ & H). injection H as -> -> ->. destruct (Factory.i_info i); split; congruence.
  Qed.
  (** compute() returns a record that was written to exactly for incomplete factorisations told to compute diagnostics. All others return
      one with whatever values the memory had (include/preconditioner_diagnostics.hpp:16: no constructor). *)
  Theorem C88_written nthr g p M st st' info : (forall i, p <> PReorderedIlu i) ->
    obj_compute ssqrt sabs inv nthr g p M st (Ok (st', info)) -> info <> None <-> diagnosed p = true.
  Proof.
    intros Hp H. assert (info = None <-> diagnosed p = false) as G; [|destruct (diagnosed p), info; intuition congruence].
    destruct p as [sh|sh na ch|na ch|sh na ai ch|sh|sh i|sh i|i|bs]; cbn [obj_compute diagnosed] in *; cbv zeta in H;
      try (apply IluFactorMain.nbind_Ok in H as (? & _ & H); injection H as -> ->; tauto).
    - eapply ilu_info, H.
    - unfold level_ilu_compute in H. apply IluFactorMain.nbind_Ok in H as (? & _ & H). eapply ilu_info, H.
    - destruct (Hp i eq_refl).
    - injection H as -> ->. tauto.
  Qed.

  (** Set-up through PETSc with the object it calls: the record added is the one that compute() returned *)
  Theorem C88_set_up nthr g pg gf ga dm o dcpu dwall M m c st m' c' st' : ready m c ->
    shell_setup ssqrt sabs inv nthr g pg gf ga dm o dcpu dwall M m c st (Ok (m', c', st', Fine)) ->
    exists p st0 info, c_bprec c' = Some p /\ obj_compute ssqrt sabs inv nthr g p M st0 (Ok (st', info)) /\
      (c_info c' = true -> found m' c' = Some (default [] (found m c) ++ [info])%list).
  Proof.
    intros [Hr _]. unfold shell_setup.
    set (A := if c_first c then _ else _). assert (A.2 = Fine -> c_info A.1.1.2 = true -> default [] (found A.1.1.1 A.1.1.2) = default [] (found m c)) as HA.
    { unfold A. destruct (c_first c) eqn:Ec; [reflexivity|].
      destruct (setupDataFromOptions (m_facts m) o c) as [c1 s1] eqn:E1. destruct s1; try discriminate.
      destruct (createNewPreconditioner gf ga dm m c1) as [[m2 c2] s2] eqn:E2. cbn. intros -> Hi. apply create_info in E2 as [E2 E3]. rewrite E2 in Hi. rewrite Hi in E3.
      destruct E3 as [-> _]. unfold found. destruct (Hr eq_refl) as [_ ->]. reflexivity. }
    destruct A as [[[m1 c1] st1] s1]. cbn [fst snd] in HA. unfold nret, nlift.
    destruct s1; try discriminate. destruct (c_bprec c1) as [p|] eqn:Ep; [|discriminate].
    intros (x & (y & Hy & ->) & H). destruct y as [[st2 info]| |msg|]; try (injection H; discriminate).
    destruct (updatePreconditioner info m1 c1) as [m2 s2] eqn:Eu. destruct s2; injection H as H1 H2 H3; try discriminate. subst m' c' st'.
    exists p, st1, info. cbn. split; [congruence|]. split; [exact Hy|]. intros Hi. apply update_info in Eu. rewrite Hi in Eu. destruct Eu as (i & l & E1 & E2 & E3).
    rewrite <- (HA eq_refl Hi). unfold found. cbn. rewrite E1, E3, E2, list_lookup_insert by (eapply lookup_lt_Some, E2). reflexivity.
  Qed.
End Objects.

(** The history of C85 with numbered records; C62_options asks for diagnostics, C88_quiet does not *)
#[local] Instance Z_ops : SOps Z := {| s0 := 0%Z; s1 := 1%Z; sadd := Z.add; ssub := Z.sub; smul := Z.mul; sdiv := Z.div; sopp := Z.opp |}.
Definition C88_quiet : options := Options (Some "jacobi") None None None None None None.
Definition C88_build (id : nat) (dm : bool) (o : options) (rec : nat) : op Z nat := SetUp id INIT_F_NONE INIT_A_NONE dm o rec 1%Z 1%Z.
Definition C88_history : list (op Z nat) :=
  [NewList; NewList; Configure 0 C75_mg C85_g; C88_build 1 false C62_options 10; C88_build 2 false C88_quiet 20; C88_build 3 true C62_options 30; Apply 1 5%Z 6%Z;
   Configure 1 (KShell 14 true false 1) C85_g; C88_build 14 false C62_options 40; Close 14; Destroy 1; Configure 1 (KShell 14 true false 1) C85_g; C88_build 14 false C62_options 50;
   C88_build 1 false C88_quiet 60; C88_build 2 false C62_options 70; Apply 14 3%Z 4%Z; C88_build 14 false C62_options 80; Close 2].
Example C88_case : follows C75_owner C88_history life_start /\
  exists L, life_run C88_history life_start = Ok L /\
    (fun id => shown (shell_history id C88_history life_start None)) <$> [1; 2; 3; 14] = [Some [10; 60]; None; None; Some [50; 80]] /\
    (fun a => shown (context_history a C88_history life_start None)) <$> [0; 1; 2; 3; 4] = [Some [10; 60]; None; None; Some [40]; Some [50; 80]] /\
    context_of 1 L = Some 0 /\ context_of 14 L = Some 4 /\ is_Some (m_nodes (l_mem L) !! 0 ≫= id) /\ is_Some (m_nodes (l_mem L) !! 4 ≫= id).
Proof.
  split; [|eexists; split; [vm_compute; reflexivity|]; split; [vm_compute; reflexivity|]; split; [vm_compute; reflexivity|]; vm_compute; eauto 10].
  unfold C88_history. repeat (cbn [follows]; split; [C75_allowed|intros ? ? E; vm_compute in E; injection E as <- <-]). exact Logic.I.
Qed.

Print Assumptions C88_shell.
Print Assumptions C88_context.
Print Assumptions C88_written.
Print Assumptions C88_set_up.
