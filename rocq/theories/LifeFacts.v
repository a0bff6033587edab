(** * LifeFacts: the invariant of the histories of [Life] *)
From Coq Require Import ZArith.
From Verif Require Import Base Alg SRMatrix IluApply IluFactor Factory PropFactory Petsc PropPetscList PropPetscSetup Life.
Local Open Scope string_scope.

Section LifeFacts.
  Context {F : Type} {O : SOps F} {I : Type}.
  Local Notation ctx := (@ctx F). Local Notation mem := (@mem F I). Local Notation dlist := (@dlist F). Local Notation world := (@world F I).
  Local Notation life := (life F I). Local Notation op := (op F I).
  Implicit Types (c : ctx) (m : mem) (d : dlist) (w : world) (L : life).

  (** ** One set-up *)
  Lemma no_ub_types s : match solverTypeFromString s with UB | Fuel => False | _ => True end.
  Proof.
    unfold solverTypeFromString.
    repeat (match goal with |- context [if String.eqb ?x ?y then _ else _] => destruct (String.eqb x y); [exact Logic.I|] end). exact Logic.I.
  Qed.
  Lemma no_ub_finit s : match getFactInitFromString s with UB | Fuel => False | _ => True end.
  Proof.
    unfold getFactInitFromString.
    repeat (match goal with |- context [if String.eqb ?x ?y then _ else _] => destruct (String.eqb x y); [exact Logic.I|] end). exact Logic.I.
  Qed.
  Lemma no_ub_ainit s : match getApplyInitFromString s with UB | Fuel => False | _ => True end.
  Proof.
    unfold getApplyInitFromString.
    repeat (match goal with |- context [if String.eqb ?x ?y then _ else _] => destruct (String.eqb x y); [exact Logic.I|] end). exact Logic.I.
  Qed.
  Lemma no_ub_settings gf ga c : match petsc_settings Default gf ga c with UB | Fuel => False | _ => True end.
  Proof.
    unfold petsc_settings, f_types. pose proof (no_ub_types (c_prectypestr c)) as H. destruct (solverTypeFromString _) as [t| | |]; cbn [bind]; try exact H; clear H.
    assert (match setSweeps_checkSeq t (c_nbuild c) (c_napply c) with UB | Fuel => False | _ => True end) as H.
    { unfold setSweeps_checkSeq. destruct (bool_decide (t = SEQILU0)); [exact Logic.I|]. destruct (_ || _); [exact Logic.I|].
      destruct (bool_decide (c_napply c = SEQ)); [destruct (_ && _); [exact Logic.I|]|]; cbn [bind];
        (destruct (bool_decide (c_nbuild c = SEQ)); [destruct (_ && _); [exact Logic.I|]|]); exact Logic.I. }
    destruct (setSweeps_checkSeq _ _ _) as [[[t' nb] na]| | |]; cbn [bind]; try exact H; clear H.
    destruct (negb _ && _ && _); [|exact Logic.I].
    pose proof (no_ub_ainit (c_ainit c)) as Ha. pose proof (no_ub_finit (c_finit c)) as Hf.
    destruct (_ || _); [destruct (getFactInitFromString _)|]; cbn [bind]; try exact Hf; destruct (getApplyInitFromString _); cbn [bind]; exact Ha.
  Qed.

  (** The first part of a set-up: on success a null pointer; on failure nothing changed but the name of the type *)
  Lemma setup_cases fs o c a : c_factory c = Some a -> fs !! a = Some (Some Default) ->
    forall c' s, setupDataFromOptions fs o c = (c', s) ->
    s <> Undefined /\ c_next c' = c_next c /\ c_factory c' = c_factory c /\ c_infolist c' = c_infolist c /\
    (s = Fine -> c_first c' = true /\ c_bprec c' = None) /\
    (s <> Fine -> c_first c' = c_first c /\ c_bprec c' = c_bprec c /\ c_info c' = c_info c).
  Proof.
    intros Ef Ea c' s. unfold setupDataFromOptions. rewrite Ef. simpl deref. rewrite Ea. unfold f_types.
    destruct (o_type o) as [nm|]; [|intros [= <- <-]; repeat split; try discriminate; auto].
    pose proof (no_ub_types (trunc nm)) as Ht. destruct (solverTypeFromString (trunc nm)) as [t| | |]; try destruct Ht;
      [|intros [= <- <-]; cbn; repeat split; try discriminate; auto].
    set (A := if negb (bool_decide (t = JACOBI)) && _ && _ then _ else _).
    assert (match A with UB | Fuel => False | _ => True end) as HA.
    { unfold A. destruct (negb _ && _ && _); [|exact Logic.I]. destruct (o_sweeps o) as [[|nb [|na l]]|]; cbn [bind]; try exact Logic.I.
      destruct (_ || _); [destruct (o_scaling o); cbn [bind]; try exact Logic.I; destruct (o_finit o); cbn [bind]; try exact Logic.I|]; cbn [bind];
        (destruct (o_ainit o); cbn [bind]; try exact Logic.I; destruct (o_chunk o); cbn [bind]; exact Logic.I). }
    destruct A as [[[[[[nb na] sc] k] fi] ai]| | |]; try destruct HA; intros [= <- <-]; cbn; repeat split; try discriminate; try congruence; auto.
  Qed.

  (** a context as the calls leave it, unless a set-up failed: [first_setup_done] not set and nothing made, or all made *)
  Definition ready m c : Prop :=
    (c_first c = false -> c_bprec c = None /\ c_infolist c = None) /\
    (c_first c = true -> c_bprec c <> None -> c_info c = true -> exists i, c_infolist c = Some i /\ live (m_infos m) i).
  Lemma compute_cases gf ga dm o info dcpu dwall m c m' c' s : default_factory m c -> ready m c -> (c_first c = true -> c_bprec c <> None) ->
    compute_preconditioner_blasted gf ga dm o info dcpu dwall m c = (m', c', s) ->
    s <> Undefined /\ m_nodes m' = m_nodes m /\ m_facts m' = m_facts m /\ c_next c' = c_next c /\ c_factory c' = c_factory c /\
    (forall i, c_infolist c = Some i -> c_infolist c' = Some i) /\
    (forall i, c_infolist c' = Some i -> c_infolist c = Some i \/ m_infos m !! i = None /\ live (m_infos m') i) /\
    (forall j, live (m_infos m) j -> live (m_infos m') j) /\
    (forall j, live (m_infos m') j -> live (m_infos m) j \/ c_infolist c' = Some j) /\
    (c_first c = true -> c_bprec c' = c_bprec c /\ c_first c' = true) /\
    (c_first c' = false -> c_bprec c' = None /\ c_infolist c' = None) /\
    (c_first c' = true -> c_bprec c' <> None -> c_info c' = true -> exists i, c_infolist c' = Some i) /\
    (s = Fine <-> c_first c' = true /\ c_bprec c' <> None) /\
    (c_first c = false -> c_bprec c' <> None -> exists c1, setupDataFromOptions (m_facts m) o c = (c1, Fine)).
  Proof.
    intros (a & Ef & Ea) [Hr1 Hr2] Hb. unfold compute_preconditioner_blasted. destruct (c_first c) eqn:Efi.
    - specialize (Hb eq_refl). unfold updatePreconditioner. destruct (c_bprec c) as [p|] eqn:Ep; [|congruence].
      destruct (c_info c) eqn:Ei.
      + destruct (Hr2 eq_refl Hb eq_refl) as (i & Eil & x & Hx). rewrite Eil. simpl deref. rewrite Hx.
        intros [= <- <- <-]. cbn. repeat split; try discriminate; try congruence; auto.
        * intros j [y Hy]. unfold live. destruct (decide (i = j)) as [-> |Hne]; [rewrite list_lookup_insert by (eapply lookup_lt_Some, Hx); eauto|].
          rewrite list_lookup_insert_ne by exact Hne. eauto.
        * intros j [y Hy]. destruct (decide (i = j)) as [-> |Hne]; [left; exists x; exact Hx|]. rewrite list_lookup_insert_ne in Hy by exact Hne. left. exists y. exact Hy.
        * intros _ _ _. eauto.
      + intros [= <- <- <-]. cbn. repeat split; try discriminate; try congruence; auto.
    - destruct (Hr1 eq_refl) as [Ep Eil]. destruct (setupDataFromOptions (m_facts m) o c) as [c1 s1] eqn:E1.
      destruct (setup_cases _ _ _ _ Ef Ea _ _ E1) as (N1 & X1 & F1 & I1 & S1 & S2). rewrite Efi in S2.
      assert (s1 = Fine \/ s1 <> Fine) as [-> |Hs1] by (destruct s1; auto; right; discriminate).
      2:{ assert (match s1 with Fine => createNewPreconditioner gf ga dm m c1 | _ => (m, c1, s1) end = (m, c1, s1)) as -> by (destruct s1; congruence).
          intros E. assert ((m, c1, s1) = (m', c', s)) as [= <- <- <-] by (destruct s1; congruence). destruct (S2 Hs1) as (G1 & G2 & G3).
          rewrite G1, G2, Ep, I1, Eil, X1, F1. repeat split; auto; try discriminate; try congruence; try (intros [? ?]; congruence); try (intros ? ?; congruence). }
      destruct (S1 eq_refl) as [G1 G2]. unfold createNewPreconditioner. rewrite F1, Ef. simpl deref. rewrite Ea.
      destruct dm.
      { intros [= <- <- <-]. rewrite G1, G2, I1, Eil, X1. repeat split; auto; try discriminate; try congruence; try (intros [? ?]; congruence); try (intros ? ?; congruence). }
      pose proof (no_ub_settings gf ga c1) as Hst. destruct (petsc_settings Default gf ga c1) as [st| | |] eqn:Est; try destruct Hst;
        [|intros [= <- <- <-]; rewrite G1, G2, I1, Eil, X1; repeat split; auto; try discriminate; try congruence; try (intros [? ?]; congruence); try (intros ? ?; congruence)].
      destruct (_ || _).
      { intros [= <- <- <-]. rewrite G1, G2, I1, Eil, X1. repeat split; auto; try discriminate; try congruence; try (intros [? ?]; congruence); try (intros ? ?; congruence). }
      cbn [f_create]. destruct (C46_total st) as [[p E46]|[e E46]]; rewrite E46;
        [|intros [= <- <- <-]; rewrite G1, G2, I1, Eil, X1; repeat split; auto; try discriminate; try congruence; try (intros [? ?]; congruence); try (intros ? ?; congruence)].
      destruct (c_info c1) eqn:Ei; cbn -[deref].
      + simpl deref. rewrite list_lookup_middle by reflexivity. cbn. rewrite insert_app_r_alt, Nat.sub_diag by lia. cbn.
        intros [= <- <- <-]. cbn. rewrite G1, X1, Eil. repeat split; auto; try discriminate; try congruence; try (intros ? ?; congruence); eauto.
        * intros i [= <-]. right. split; [apply lookup_ge_None_2; lia|]. eexists. apply list_lookup_middle. reflexivity.
        * intros j [y Hy]. exists y. apply lookup_app_l_Some, Hy.
        * intros j [y Hy]. destruct (decide (j < length (m_infos m))) as [Hlt|Hge]; [rewrite lookup_app_l in Hy by exact Hlt; left; exists y; exact Hy|].
          right. apply lookup_lt_Some in Hy. rewrite app_length in Hy. simpl in Hy. f_equal. lia.
      + intros [= <- <- <-]. cbn. rewrite G1, X1, Eil. repeat split; auto; try discriminate; try congruence; try (intros ? ?; congruence); eauto.
  Qed.

  (** ** The invariant *)
  Definition object (L : life) (a : nat) (p : option nat) : Prop := l_ptr L !! a = Some p.
  Record inv (owner : nat -> nat) (L : life) (ls : list (list nat)) : Prop := Inv {
    i_lists : Forall2 (is_list (l_mem L)) (l_lists L) ls;
    i_all : forall a, live (m_nodes (l_mem L)) a -> exists k l, ls !! k = Some l /\ a ∈ l;
    i_apart : forall k k' l l' a, ls !! k = Some l -> ls !! k' = Some l' -> a ∈ l -> a ∈ l' -> k = k';
    i_ready : forall a c, m_nodes (l_mem L) !! a = Some (Some c) -> ready (l_mem L) c;
    i_info : forall a c i, m_nodes (l_mem L) !! a = Some (Some c) -> c_infolist c = Some i -> live (m_infos (l_mem L)) i;
    i_info_inj : forall a a' c c' i, m_nodes (l_mem L) !! a = Some (Some c) -> m_nodes (l_mem L) !! a' = Some (Some c') ->
      c_infolist c = Some i -> c_infolist c' = Some i -> a = a';
    i_info_all : forall i, live (m_infos (l_mem L)) i -> exists a c, m_nodes (l_mem L) !! a = Some (Some c) /\ c_infolist c = Some i;
    i_default : forall k d, l_lists L !! k = Some d -> d_default d = true -> exists f, d_factory d = Some f /\ live (m_facts (l_mem L)) f;
    i_default_inj : forall k k' d d', l_lists L !! k = Some d -> l_lists L !! k' = Some d' -> d_default d = true -> d_default d' = true ->
      d_factory d = d_factory d' -> k = k';
    i_factory : forall k l a c, ls !! k = Some l -> a ∈ l -> m_nodes (l_mem L) !! a = Some (Some c) -> default_factory (l_mem L) c /\
      forall k' d, l_lists L !! k' = Some d -> d_default d = true -> d_factory d = c_factory c -> k' = k;
    i_len : length (l_ptr L) = length (m_nodes (l_mem L));
    i_null : forall a c, m_nodes (l_mem L) !! a = Some (Some c) -> c_bprec c = None -> l_ptr L !! a = Some None;
    i_inj : forall a a' p, l_ptr L !! a = Some (Some p) -> l_ptr L !! a' = Some (Some p) -> a = a';
    i_range : forall a p, l_ptr L !! a = Some (Some p) -> p < length (l_objs L);
    i_obj : forall p, live (l_objs L) p -> exists id a r, (id, a, r) ∈ l_shells L /\ l_ptr L !! a = Some (Some p);
    i_ids : NoDup (map (fun s => s.1.1) (l_shells L));
    i_addr : NoDup (map (fun s => s.1.2) (l_shells L));
    i_own : forall id a r, (id, a, r) ∈ l_shells L -> exists l, ls !! (owner id) = Some l /\ a ∈ l;
    i_shell : forall id a r c, (id, a, r) ∈ l_shells L -> m_nodes (l_mem L) !! a = Some (Some c) ->
      (c_bprec c <> None -> exists p, l_ptr L !! a = Some (Some p) /\ live (l_objs L) p) /\
      (c_first c = true -> c_bprec c = None -> id ∈ l_failed L) /\
      (id ∈ l_done L -> c_bprec c <> None);
    i_done : forall id, id ∈ l_done L \/ id ∈ l_failed L -> exists a r, (id, a, r) ∈ l_shells L }.

  Lemma context_Some id L a : context_of id L = Some a -> exists r, (id, a, r) ∈ l_shells L.
  Proof.
    unfold context_of. destruct (last _) as [[[id' a'] r]|] eqn:E; [|discriminate]. cbn. intros [= ->].
    apply last_Some_elem_of, elem_of_list_filter in E as [E1 E2]. cbn in E1. subst id'. eauto.
  Qed.
  Lemma context_None id L a r : context_of id L = None -> (id, a, r) ∉ l_shells L.
  Proof.
    unfold context_of. destruct (last _) as [s|] eqn:E; [discriminate|]. intros _ H. apply last_None in E.
    assert ((id, a, r) ∈ filter (fun s => s.1.1 = id) (l_shells L)) as H' by (apply elem_of_list_filter; auto). rewrite E in H'. apply elem_of_nil in H' as [].
  Qed.
  Lemma same_id {A B} (l : list (nat * A * B)) id a r a' r' : NoDup (map (fun s => s.1.1) l) -> (id, a, r) ∈ l -> (id, a', r') ∈ l -> a = a' /\ r = r'.
  Proof.
    induction l as [|x l IH]; [intros _ H; apply elem_of_nil in H as []|]. cbn. intros H. apply NoDup_cons in H as [Hx Hn].
    assert (forall b s, (id, b, s) ∈ l -> id ∈ map (fun s => s.1.1) l) as Hin by (intros b s H; apply elem_of_list_fmap; exists (id, b, s); auto).
    intros H1 H2. destruct (proj1 (elem_of_cons _ _ _) H1) as [E1|H1'], (proj1 (elem_of_cons _ _ _) H2) as [E2|H2']; [rewrite <- E1 in E2; injection E2 as -> ->; auto| | |auto].
    - subst x. exfalso. apply Hx, (Hin _ _ H2').
    - subst x. exfalso. apply Hx, (Hin _ _ H1').
  Qed.
  Lemma same_addr {A B} (l : list (A * nat * B)) id a r id' r' : NoDup (map (fun s => s.1.2) l) -> (id, a, r) ∈ l -> (id', a, r') ∈ l -> id = id' /\ r = r'.
  Proof.
    induction l as [|x l IH]; [intros _ H; apply elem_of_nil in H as []|]. cbn. intros H. apply NoDup_cons in H as [Hx Hn].
    assert (forall b s, (b, a, s) ∈ l -> a ∈ map (fun s => s.1.2) l) as Hin by (intros b s H; apply elem_of_list_fmap; exists (b, a, s); auto).
    intros H1 H2. destruct (proj1 (elem_of_cons _ _ _) H1) as [E1|H1'], (proj1 (elem_of_cons _ _ _) H2) as [E2|H2']; [rewrite <- E1 in E2; injection E2 as -> ->; auto| | |auto].
    - subst x. exfalso. apply Hx, (Hin _ _ H2').
    - subst x. exfalso. apply Hx, (Hin _ _ H1').
  Qed.
  Lemma shell_live owner L ls id a r : inv owner L ls -> (id, a, r) ∈ l_shells L -> exists c, m_nodes (l_mem L) !! a = Some (Some c).
  Proof.
    intros H Hs. destruct (i_own _ _ _ H _ _ _ Hs) as (l & El & Ha). destruct (Forall2_lookup_r _ _ _ _ _ (i_lists _ _ _ H) El) as (d & _ & Hl & _).
    destruct (linked_lt _ _ _ Hl a Ha) as [c Hc]. eauto.
  Qed.
  Lemma shell_ptr owner L ls id a r : inv owner L ls -> (id, a, r) ∈ l_shells L -> exists p, l_ptr L !! a = Some p.
  Proof.
    intros H Hs. destruct (shell_live _ _ _ _ _ _ H Hs) as [c Hc]. apply lookup_lt_is_Some_2. rewrite (i_len _ _ _ H). eapply lookup_lt_Some, Hc.
  Qed.
  Lemma linked_update nodes p l a c c' : linked nodes p l -> nodes !! a = Some (Some c) -> c_next c' = c_next c -> linked (<[a := Some c']> nodes) p l.
  Proof.
    intros H Ha Hn. induction H as [|b x l E H IH]; [constructor|]. destruct (decide (a = b)) as [-> |Hne].
    - apply (linked_cons _ b c'); [apply list_lookup_insert; eapply lookup_lt_Some, E|]. rewrite Hn. rewrite Ha in E. injection E as ->. exact IH.
    - apply (linked_cons _ b x); [rewrite list_lookup_insert_ne by exact Hne; exact E|exact IH].
  Qed.
  Lemma live_update {A} (l : list (option A)) a x y : l !! a = Some (Some x) -> forall b, live (<[a := Some y]> l) b <-> live l b.
  Proof.
    intros Ha b. unfold live. destruct (decide (a = b)) as [-> |Hne]; [|rewrite list_lookup_insert_ne by exact Hne; reflexivity].
    rewrite list_lookup_insert by (eapply lookup_lt_Some, Ha). split; intros _; eauto.
  Qed.
  Lemma lookup_update {A} (l : list (option A)) a x y b z : l !! a = Some (Some x) -> <[a := Some y]> l !! b = Some (Some z) ->
    a = b /\ z = y \/ a <> b /\ l !! b = Some (Some z).
  Proof.
    intros Ha. destruct (decide (a = b)) as [-> |Hne]; [rewrite list_lookup_insert by (eapply lookup_lt_Some, Ha); intros [= ->]; auto|].
    rewrite list_lookup_insert_ne by exact Hne. auto.
  Qed.

  (** One context changes, with the object it points to *)
  Lemma inv_update owner L ls id a r c c' p p' infos' objs' done' failed' :
    inv owner L ls -> (id, a, r) ∈ l_shells L -> m_nodes (l_mem L) !! a = Some (Some c) -> l_ptr L !! a = Some p ->
    c_next c' = c_next c -> c_factory c' = c_factory c ->
    (forall i, c_infolist c = Some i -> c_infolist c' = Some i) ->
    (forall i, c_infolist c' = Some i -> c_infolist c = Some i \/ m_infos (l_mem L) !! i = None /\ live infos' i) ->
    (forall j, live (m_infos (l_mem L)) j -> live infos' j) ->
    (forall j, live infos' j -> live (m_infos (l_mem L)) j \/ c_infolist c' = Some j) ->
    (objs' = l_objs L /\ p' = p \/ p = None /\ objs' = (l_objs L ++ [Some tt])%list /\ p' = Some (length (l_objs L))) ->
    (c_bprec c' = None -> p' = None) ->
    (c_first c' = false -> c_bprec c' = None /\ c_infolist c' = None) ->
    (c_first c' = true -> c_bprec c' <> None -> c_info c' = true -> exists i, c_infolist c' = Some i) ->
    (c_bprec c' <> None -> exists q, p' = Some q /\ live objs' q) ->
    (c_first c' = true -> c_bprec c' = None -> id ∈ failed') ->
    (id ∈ done' -> c_bprec c' <> None) ->
    (forall j, j ∈ done' -> j = id \/ j ∈ l_done L) -> (forall j, j ∈ failed' -> j = id \/ j ∈ l_failed L) ->
    (forall j, j <> id -> j ∈ l_failed L -> j ∈ failed') ->
    inv owner (Life (Mem (<[a := Some c']> (m_nodes (l_mem L))) infos' (m_facts (l_mem L))) (l_lists L) (l_shells L) (<[a := p']> (l_ptr L)) objs' done' failed') ls.
  Proof.
    intros H Hs Ha Hp Hnext Hfac Hi1 Hi2 Hi3 Hi4 Hobj Hnull Hr1 Hr2 Hbp Hfail Hdone Hd1 Hf1 Hf2.
    assert (forall q, live (l_objs L) q -> live objs' q) as Ho1.
    { intros q Hq. destruct Hobj as [[-> _]|(_ & -> & _)]; [exact Hq|]. destruct Hq as [x Hx]. exists x. apply lookup_app_l_Some, Hx. }
    assert (length (l_objs L) <= length objs') as Hlo by (destruct Hobj as [[-> _]|(_ & -> & _)]; [|rewrite app_length]; lia).
    assert (forall b q, <[a := p']> (l_ptr L) !! b = Some q -> a = b /\ q = p' \/ a <> b /\ l_ptr L !! b = Some q) as Hptr.
    { intros b q. destruct (decide (a = b)) as [-> |Hne]; [rewrite list_lookup_insert by (eapply lookup_lt_Some, Hp); intros [= ->]; auto|].
      rewrite list_lookup_insert_ne by exact Hne. auto. }
    assert (forall q, p' = Some q -> p = Some q \/ q = length (l_objs L)) as Hp'.
    { intros q E. destruct Hobj as [[_ ->]|(_ & _ & ->)]; [auto|]. injection E as ->. auto. }
    assert (forall b q, l_ptr L !! b = Some (Some q) -> q < length (l_objs L)) as Hrange by apply (i_range _ _ _ H).
    constructor; cbn [l_mem l_lists l_shells l_ptr l_objs l_done l_failed m_nodes m_infos m_facts].
    - eapply Forall2_impl; [apply (i_lists _ _ _ H)|]. intros d l (G1 & G2 & G3). split; [|auto]. eapply linked_update; eauto.
    - intros b Hb. apply (i_all _ _ _ H). apply (live_update _ _ _ _ Ha) in Hb. exact Hb.
    - apply (i_apart _ _ _ H).
    - intros b x Hx. destruct (lookup_update _ _ _ _ _ _ Ha Hx) as [[<- ->]|[Hne Hx']].
      + split; [exact Hr1|]. intros E1 E2 E3. destruct (Hr2 E1 E2 E3) as [i Hi]. exists i. split; [exact Hi|]. cbn.
        destruct (Hi2 i Hi) as [Hi'|[_ Hi']]; [|exact Hi']. apply Hi3, (i_info _ _ _ H _ _ _ Ha Hi').
      + destruct (i_ready _ _ _ H _ _ Hx') as [G1 G2]. split; [exact G1|]. intros E1 E2 E3. destruct (G2 E1 E2 E3) as (i & Hi & Hl). exists i. split; [exact Hi|]. apply Hi3, Hl.
    - intros b x i Hx Hi. destruct (lookup_update _ _ _ _ _ _ Ha Hx) as [[<- ->]|[Hne Hx']].
      + destruct (Hi2 i Hi) as [Hi'|[_ Hi']]; [|exact Hi']. apply Hi3, (i_info _ _ _ H _ _ _ Ha Hi').
      + apply Hi3, (i_info _ _ _ H _ _ _ Hx' Hi).
    - assert (forall b x i, m_nodes (l_mem L) !! b = Some (Some x) -> c_infolist x = Some i -> c_infolist c' = Some i -> a = b) as Hone.
      { intros b x i Hx E E'. destruct (Hi2 i E') as [Hi'|[Hi' _]]; [apply (i_info_inj _ _ _ H _ _ _ _ _ Ha Hx Hi' E)|].
        destruct (i_info _ _ _ H _ _ _ Hx E) as [y Hy]. congruence. }
      intros b b' x x' i Hx Hx' E E'. destruct (lookup_update _ _ _ _ _ _ Ha Hx) as [[<- ->]|[Hne Hy]], (lookup_update _ _ _ _ _ _ Ha Hx') as [[<- ->]|[Hne' Hy']].
      + reflexivity.
      + apply (Hone _ _ _ Hy' E' E).
      + symmetry. apply (Hone _ _ _ Hy E E').
      + apply (i_info_inj _ _ _ H _ _ _ _ _ Hy Hy' E E').
    - intros i Hl. destruct (Hi4 i Hl) as [Hl'|Hl'].
      + destruct (i_info_all _ _ _ H i Hl') as (b & x & Hx & E). destruct (decide (a = b)) as [<- |Hne].
        * exists a, c'. split; [apply list_lookup_insert; eapply lookup_lt_Some, Ha|]. apply Hi1. congruence.
        * exists b, x. rewrite list_lookup_insert_ne by exact Hne. auto.
      + exists a, c'. split; [apply list_lookup_insert; eapply lookup_lt_Some, Ha|exact Hl'].
    - apply (i_default _ _ _ H).
    - apply (i_default_inj _ _ _ H).
    - intros k l b x El Hb Hx. destruct (lookup_update _ _ _ _ _ _ Ha Hx) as [[<- ->]|[Hne Hx']].
      + destruct (i_factory _ _ _ H _ _ _ _ El Hb Ha) as [G1 G2]. unfold default_factory in *. cbn. rewrite Hfac. auto.
      + apply (i_factory _ _ _ H _ _ _ _ El Hb Hx').
    - rewrite !insert_length. apply (i_len _ _ _ H).
    - intros b x Hx E. destruct (lookup_update _ _ _ _ _ _ Ha Hx) as [[<- ->]|[Hne Hx']].
      + rewrite list_lookup_insert by (eapply lookup_lt_Some, Hp). rewrite (Hnull E). reflexivity.
      + rewrite list_lookup_insert_ne by exact Hne. apply (i_null _ _ _ H _ _ Hx' E).
    - intros b b' q Hb Hb'. destruct (Hptr _ _ Hb) as [[<- E]|[Hne E]], (Hptr _ _ Hb') as [[<- E']|[Hne' E']]; [reflexivity| | |apply (i_inj _ _ _ H _ _ _ E E')].
      + destruct (Hp' q (eq_sym E)) as [G|G]; [|apply Hrange in E'; lia]. subst p. apply (i_inj _ _ _ H _ _ _ Hp E').
      + destruct (Hp' q (eq_sym E')) as [G|G]; [|apply Hrange in E; lia]. subst p. symmetry. apply (i_inj _ _ _ H _ _ _ Hp E).
    - intros b q Hb. destruct (Hptr _ _ Hb) as [[<- E]|[Hne E]]; [|apply Hrange in E; lia].
      destruct Hobj as [[-> ->]|(-> & -> & ->)]; [subst p; apply (Hrange _ _ Hp)|]. injection E as ->. rewrite app_length. simpl. lia.
    - intros q [x Hx].
      assert (live (l_objs L) q \/ p' = Some q) as [Hl|Hl].
      { destruct Hobj as [[-> _]|(_ & -> & ->)]; [left; exists x; exact Hx|]. destruct (decide (q < length (l_objs L))) as [Hlt|Hge].
        - left. exists x. rewrite lookup_app_l in Hx by exact Hlt. exact Hx.
        - right. apply lookup_lt_Some in Hx. rewrite app_length in Hx. simpl in Hx. f_equal. lia. }
      + destruct (i_obj _ _ _ H q Hl) as (id1 & b & r1 & G1 & G2). exists id1, b, r1. split; [exact G1|]. destruct (decide (a = b)) as [<- |Hne]; [|rewrite list_lookup_insert_ne by exact Hne; exact G2].
        rewrite list_lookup_insert by (eapply lookup_lt_Some, Hp). destruct Hobj as [[_ ->]|(-> & _)]; congruence.
      + exists id, a, r. split; [exact Hs|]. rewrite list_lookup_insert by (eapply lookup_lt_Some, Hp). rewrite Hl. reflexivity.
    - apply (i_ids _ _ _ H).
    - apply (i_addr _ _ _ H).
    - apply (i_own _ _ _ H).
    - intros id1 b r1 x Hs1 Hx. destruct (lookup_update _ _ _ _ _ _ Ha Hx) as [[<- ->]|[Hne Hx']].
      + destruct (same_addr _ _ _ _ _ _ (i_addr _ _ _ H) Hs Hs1) as [<- <-]. split; [|split; assumption].
        intros E. destruct (Hbp E) as (q & -> & Hq). exists q. split; [apply list_lookup_insert; eapply lookup_lt_Some, Hp|exact Hq].
      + assert (id1 <> id) as Hid by (intros ->; destruct (same_id _ _ _ _ _ _ (i_ids _ _ _ H) Hs Hs1) as [E _]; congruence).
        destruct (i_shell _ _ _ H _ _ _ _ Hs1 Hx') as (G1 & G2 & G3). split; [|split].
        * intros E. destruct (G1 E) as (q & Hq & Hl). exists q. rewrite list_lookup_insert_ne by exact Hne. auto.
        * intros E1 E2. apply Hf2; auto.
        * intros E. destruct (Hd1 _ E) as [G|G]; [contradiction|auto].
    - intros j Hj. assert (j = id \/ j ∈ l_done L \/ j ∈ l_failed L) as [-> |Hj'] by (destruct Hj as [Hj|Hj]; [apply Hd1 in Hj|apply Hf1 in Hj]; tauto); [eauto|apply (i_done _ _ _ H _ Hj')].
  Qed.

  Lemma inv_start owner : inv owner life_start [].
  Proof.
    constructor; cbn; try (intros; match goal with H : [] !! _ = Some _ |- _ => rewrite lookup_nil in H; discriminate H end).
    - constructor.
    - intros a [x Hx]. rewrite lookup_nil in Hx. discriminate.
    - intros i [x Hx]. rewrite lookup_nil in Hx. discriminate.
    - reflexivity.
    - intros i [x Hx]. rewrite lookup_nil in Hx. discriminate.
    - constructor.
    - constructor.
    - intros id a r H. apply elem_of_nil in H as [].
    - intros id [H|H]; apply elem_of_nil in H as [].
  Qed.

  Lemma inv_new owner L ls : inv owner L ls ->
    inv owner (Life (l_mem L) (l_lists L ++ [newBlastedDataList])%list (l_shells L) (l_ptr L) (l_objs L) (l_done L) (l_failed L)) (ls ++ [[]])%list.
  Proof.
    intros H. pose proof (Forall2_length _ _ _ (i_lists _ _ _ H)) as Hlen.
    assert (forall k l a, (ls ++ [[]])%list !! k = Some l -> a ∈ l -> ls !! k = Some l) as Hold.
    { intros k l a E Ha. apply lookup_app_Some in E as [E|[_ E]]; [exact E|]. apply list_lookup_singleton_Some in E as [_ <-]. apply elem_of_nil in Ha as []. }
    assert (forall k d, (l_lists L ++ [newBlastedDataList])%list !! k = Some d -> d_default d = true -> l_lists L !! k = Some d) as Hd.
    { intros k d E Ed. apply lookup_app_Some in E as [E|[_ E]]; [exact E|]. apply list_lookup_singleton_Some in E as [_ <-]. discriminate. }
    destruct H. constructor; cbn [l_mem l_lists l_shells l_ptr l_objs l_done l_failed]; try assumption.
    - apply Forall2_app; [assumption|]. constructor; [apply C48_new|constructor].
    - intros a Ha. destruct (i_all0 a Ha) as (k & l & E & Hl). exists k, l. split; [apply lookup_app_l_Some, E|exact Hl].
    - intros k k' l l' a E E' Ha Ha'. eapply i_apart0; eauto.
    - intros k d E Ed. apply (i_default0 k d); auto.
    - intros k k' d d' E E' Ed Ed'. apply (i_default_inj0 k k' d d'); auto.
    - intros k l a c E Ha Hc. destruct (i_factory0 k l a c (Hold _ _ _ E Ha) Ha Hc) as [G1 G2]. split; [exact G1|]. intros k' d E' Ed. apply G2; auto.
    - intros id a r Hs. destruct (i_own0 _ _ _ Hs) as (l & E & Ha). exists l. split; [apply lookup_app_l_Some, E|exact Ha].
  Qed.

  Lemma inv_configure owner L ls k ksp g : inv owner L ls -> k < length (l_lists L) -> local_stack ksp = true -> NoDup (map fst (shells ksp)) ->
    (forall id, id ∈ map fst (shells ksp) -> owner id = k /\ id ∉ map (fun s => s.1.1) (l_shells L)) ->
    exists L' ls', life_configure k ksp g L = Ok (L', Fine) /\ inv owner L' ls'.
  Proof.
    intros H Hk Hloc Hnd Hids. pose proof (Forall2_length _ _ _ (i_lists _ _ _ H)) as Hlen.
    destruct (lookup_lt_is_Some_2 (l_lists L) k Hk) as [d Ed]. destruct (Forall2_lookup_l _ _ _ _ _ (i_lists _ _ _ H) Ed) as (l & El & Hl).
    unfold life_configure. unfold get. rewrite Ed. cbn [bind].
    destruct (nested_spec g ksp Hloc (World (l_mem L) d (l_shells L))) as (w' & E & new & H1 & H2 & H3 & (H4 & H4') & H5 & H6 & H7 & _ & H9).
    unfold setup_blasted_stack. cbv zeta. rewrite E. clear E. destruct H9 as [H9 H10]; [discriminate|]. cbn [w_mem w_list w_shells] in *.
    specialize (H1 l Hl). set (n := S (nested_solvers ksp)) in *. rename w' into w.
    eexists _, (<[k := (reverse (map fst new) ++ l)%list]> ls). split; [reflexivity|].
    (* new addresses *)
    assert (forall a, a ∈ map fst new -> length (m_nodes (l_mem L)) <= a /\ exists c bs f', m_nodes (w_mem w) !! a = Some (Some c) /\
      length (m_facts (l_mem L)) <= f' < length (m_facts (l_mem L)) + n /\ fresh_context c bs (Some f')) as Hnew.
    { intros a Ha. clear -Ha H3. induction H3 as [|b [id bs] l' sh (Hb & c & f & Hc & (f' & -> & Hf) & Hfr) HF IH]; [apply elem_of_nil in Ha as []|].
      apply elem_of_cons in Ha as [-> |Ha]; [|auto]. split; [apply lookup_ge_None_1, Hb|]. exists c, bs, f'. auto. }
    assert (forall a l0 k0, ls !! k0 = Some l0 -> a ∈ l0 -> a < length (m_nodes (l_mem L))) as Hold.
    { intros a l0 k0 E0 Ha. destruct (Forall2_lookup_r _ _ _ _ _ (i_lists _ _ _ H) E0) as (d0 & _ & Hl0 & _). destruct (linked_lt _ _ _ Hl0 a Ha) as [x Hx]. eapply lookup_lt_Some, Hx. }
    assert (forall k0 l0 a, <[k := (reverse (map fst new) ++ l)%list]> ls !! k0 = Some l0 -> a ∈ l0 ->
      k0 = k /\ a ∈ map fst new \/ a < length (m_nodes (l_mem L)) /\ exists l1, ls !! k0 = Some l1 /\ a ∈ l1) as Hmem.
    { intros k0 l0 a E0 Ha. destruct (decide (k = k0)) as [<- |Hne].
      - rewrite list_lookup_insert in E0 by lia. injection E0 as <-. apply elem_of_app in Ha as [Ha|Ha]; [rewrite elem_of_reverse in Ha; auto|].
        right. split; [eapply Hold; eauto|eauto].
      - rewrite list_lookup_insert_ne in E0 by exact Hne. right. split; [eapply Hold; eauto|eauto]. }
    assert (forall a c, m_nodes (w_mem w) !! a = Some (Some c) -> a ∈ map fst new \/ a < length (m_nodes (l_mem L)) /\ m_nodes (l_mem L) !! a = Some (Some c)) as Hnode.
    { intros a c Hc. destruct (decide (a < length (m_nodes (l_mem L)))) as [Hlt|Hge]; [right; rewrite <- H5 by exact Hlt; auto|]. left. apply H4'.
      split; [lia|]. eapply lookup_lt_Some, Hc. }
    assert (forall f x, m_facts (l_mem L) !! f = Some x -> m_facts (w_mem w) !! f = Some x) as Hfo by (intros f x Hx; rewrite H7; apply lookup_app_l_Some, Hx).
    assert (forall f, length (m_facts (l_mem L)) <= f < length (m_facts (l_mem L)) + n -> m_facts (w_mem w) !! f = Some (Some Default)) as Hfn.
    { intros f Hf. rewrite H7, lookup_app_r by lia. apply lookup_replicate. split; [reflexivity|lia]. }
    assert (forall k0 d0, <[k := w_list w]> (l_lists L) !! k0 = Some d0 -> k0 = k /\ d0 = w_list w \/ k0 <> k /\ l_lists L !! k0 = Some d0) as Hdl.
    { intros k0 d0 E0. destruct (decide (k = k0)) as [<- |Hne]; [rewrite list_lookup_insert in E0 by lia; injection E0 as <-; auto|].
      rewrite list_lookup_insert_ne in E0 by exact Hne. auto. }
    assert (forall k0 d0 f, l_lists L !! k0 = Some d0 -> d_default d0 = true -> d_factory d0 = Some f -> f < length (m_facts (l_mem L))) as Hdf.
    { intros k0 d0 f E0 E1 E2. destruct (i_default _ _ _ H _ _ E0 E1) as (f' & E3 & x & Hx). rewrite E2 in E3. injection E3 as <-. eapply lookup_lt_Some, Hx. }
    pose proof (Forall2_length _ _ _ H3) as Hns. rewrite map_length in Hns.
    assert (map (fun s => s.1.1) (zip_with (fun '(id, _) '(a, r) => (id, a, r)) (shells ksp) new) = map fst (shells ksp)) as Eids.
    { clear -Hns. revert Hns. generalize (shells ksp). induction new as [|[a r] new IH]; intros [|[id bs] sh]; try discriminate; [reflexivity|]. intros [= Hn]. simpl. f_equal. apply IH, Hn. }
    assert (map (fun s => s.1.2) (zip_with (fun '(id, _) '(a, r) => (id, a, r)) (shells ksp) new) = map fst new) as Eaddr.
    { clear -Hns. revert Hns. generalize (shells ksp). induction new as [|[a r] new IH]; intros [|[id bs] sh]; try discriminate; [reflexivity|]. intros [= Hn]. simpl. f_equal. apply IH, Hn. }
    assert (forall id a r, (id, a, r) ∈ w_shells w -> (id, a, r) ∈ l_shells L \/ id ∈ map fst (shells ksp) /\ a ∈ map fst new) as Hsh.
    { intros id a r Hs. rewrite H2 in Hs. apply elem_of_app in Hs as [Hs|Hs]; [auto|]. right. split; [rewrite <- Eids|rewrite <- Eaddr]; apply elem_of_list_fmap; exists (id, a, r); auto. }
    assert (length (l_ptr L) <= length (m_nodes (w_mem w))) as Hlp by (rewrite (i_len _ _ _ H); exact H4).
    assert (forall a q, (l_ptr L ++ replicate (length (m_nodes (w_mem w)) - length (l_ptr L)) None)%list !! a = Some (Some q) -> l_ptr L !! a = Some (Some q)) as Hptr.
    { intros a q Hq. apply lookup_app_Some in Hq as [Hq|[_ Hq]]; [exact Hq|]. apply lookup_replicate in Hq as [Hq _]. discriminate. }
    constructor; cbn [l_mem l_lists l_shells l_ptr l_objs l_done l_failed].
    - apply Forall2_same_length_lookup_2; [rewrite !insert_length; exact Hlen|]. intros k0 d0 l0 E0 E1. destruct (Hdl _ _ E0) as [[-> ->]|[Hne E0']].
      + rewrite list_lookup_insert in E1 by lia. injection E1 as <-. exact H1.
      + rewrite list_lookup_insert_ne in E1 by congruence. destruct (Forall2_lookup_lr _ _ _ _ _ _ (i_lists _ _ _ H) E0' E1) as (G1 & G2 & G3).
        split; [|auto]. eapply linked_mono; [exact G1|]. intros a Ha. apply H5. eapply Hold; eauto.
    - intros a [c Hc]. destruct (Hnode _ _ Hc) as [Ha|[Hlt Hc']].
      + exists k. eexists. split; [apply list_lookup_insert; lia|]. apply elem_of_app. left. apply elem_of_reverse, Ha.
      + destruct (i_all _ _ _ H a) as (k0 & l0 & E0 & Ha); [exists c; exact Hc'|]. destruct (decide (k = k0)) as [<- |Hne].
        * exists k. eexists. split; [apply list_lookup_insert; lia|]. apply elem_of_app. right. congruence.
        * exists k0, l0. rewrite list_lookup_insert_ne by exact Hne. auto.
    - intros k1 k2 l1 l2 a E1 E2 Ha1 Ha2. destruct (Hmem _ _ _ E1 Ha1) as [[-> G1]|[G1 (x1 & G1' & G1'')]], (Hmem _ _ _ E2 Ha2) as [[-> G2]|[G2 (x2 & G2' & G2'')]]; auto.
      + apply Hnew in G1 as [G1 _]. lia.
      + apply Hnew in G2 as [G2 _]. lia.
      + eapply (i_apart _ _ _ H); eauto.
    - intros a c Hc. destruct (Hnode _ _ Hc) as [Ha|[Hlt Hc']].
      + destruct (Hnew a Ha) as (_ & c1 & bs & f' & Hc1 & _ & Hfr). rewrite Hc in Hc1. injection Hc1 as <-. destruct Hfr as (_ & _ & G1 & G2 & G3 & _).
        split; [auto|]. intros G. congruence.
      + destruct (i_ready _ _ _ H _ _ Hc') as [G1 G2]. split; [exact G1|]. rewrite H6. exact G2.
    - intros a c i Hc Hi. rewrite H6. destruct (Hnode _ _ Hc) as [Ha|[Hlt Hc']]; [|apply (i_info _ _ _ H _ _ _ Hc' Hi)].
      destruct (Hnew a Ha) as (_ & c1 & bs & f' & Hc1 & _ & Hfr). rewrite Hc in Hc1. injection Hc1 as <-. destruct Hfr as (_ & _ & _ & G2 & _). congruence.
    - assert (forall a c i, m_nodes (w_mem w) !! a = Some (Some c) -> c_infolist c = Some i -> m_nodes (l_mem L) !! a = Some (Some c)) as Hinf.
      { intros a c i Hc Hi. destruct (Hnode _ _ Hc) as [Ha|[Hlt Hc']]; [|exact Hc'].
        destruct (Hnew a Ha) as (_ & c1 & bs & f' & Hc1 & _ & Hfr). rewrite Hc in Hc1. injection Hc1 as <-. destruct Hfr as (_ & _ & _ & G2 & _). congruence. }
      intros a a' c c' i Hc Hc' Hi Hi'. eapply (i_info_inj _ _ _ H); eauto.
    - intros i Hi. rewrite H6 in Hi. destruct (i_info_all _ _ _ H i Hi) as (a & c & Hc & E). exists a, c. split; [|exact E]. rewrite H5; [exact Hc|]. eapply lookup_lt_Some, Hc.
    - intros k0 d0 E0 Ed0. destruct (Hdl _ _ E0) as [[-> ->]|[Hne E0']].
      + eexists. split; [exact H9|]. exists Default. apply Hfn. unfold n. lia.
      + destruct (i_default _ _ _ H _ _ E0' Ed0) as (f & Ef & x & Hx). exists f. split; [exact Ef|]. exists x. apply Hfo, Hx.
    - assert (forall k0 d0, l_lists L !! k0 = Some d0 -> d_default d0 = true -> d_factory d0 <> d_factory (w_list w)) as Hdiff.
      { intros k0 d0 E0 E1 E2. rewrite H9 in E2. pose proof (Hdf _ _ _ E0 E1 E2). unfold n in *. lia. }
      intros k1 k2 d1 d2 E1 E2 D1 D2 Ef. destruct (Hdl _ _ E1) as [[-> ->]|[N1 E1']], (Hdl _ _ E2) as [[-> ->]|[N2 E2']]; auto.
      + exfalso. apply (Hdiff _ _ E2' D2). auto.
      + exfalso. apply (Hdiff _ _ E1' D1). auto.
      + apply (i_default_inj _ _ _ H _ _ _ _ E1' E2' D1 D2 Ef).
    - intros k0 l0 a c E0 Ha Hc. destruct (Hmem _ _ _ E0 Ha) as [[-> G1]|[G1 (x1 & G1' & G1'')]].
      + destruct (Hnew a G1) as (_ & c1 & bs & f' & Hc1 & Hf' & Hfr). rewrite Hc in Hc1. injection Hc1 as <-. destruct Hfr as (_ & Efr & _).
        split; [exists f'; split; [exact Efr|apply Hfn, Hf']|]. intros k' d' E' D' Ef. destruct (Hdl _ _ E') as [[-> ->]|[N' E'']]; [reflexivity|].
        rewrite Efr in Ef. pose proof (Hdf _ _ _ E'' D' Ef). lia.
      + rewrite H5 in Hc by exact G1. destruct (i_factory _ _ _ H _ _ _ _ G1' G1'' Hc) as [(f & Ef & Hf) G2]. split; [exists f; split; [exact Ef|apply Hfo, Hf]|].
        intros k' d' E' D' Ef'. destruct (Hdl _ _ E') as [[-> ->]|[N' E'']]; [|eapply G2; eauto].
        exfalso. rewrite Ef, H9 in Ef'. injection Ef' as Ef'. apply lookup_lt_Some in Hf. unfold n in *. lia.
    - rewrite app_length, replicate_length. lia.
    - intros a c Hc Eb. destruct (Hnode _ _ Hc) as [Ha|[Hlt Hc']].
      + destruct (Hnew a Ha) as (Hge & _). rewrite lookup_app_r by (rewrite (i_len _ _ _ H); exact Hge). apply lookup_replicate. split; [reflexivity|].
        apply lookup_lt_Some in Hc. rewrite (i_len _ _ _ H). lia.
      + apply lookup_app_l_Some, (i_null _ _ _ H _ _ Hc' Eb).
    - intros a a' q Hq Hq'. apply Hptr in Hq, Hq'. apply (i_inj _ _ _ H _ _ _ Hq Hq').
    - intros a q Hq. apply (i_range _ _ _ H a q), Hptr, Hq.
    - intros q Hq. destruct (i_obj _ _ _ H q Hq) as (id & a & r & G1 & G2). exists id, a, r. split; [rewrite H2; apply elem_of_app; auto|apply lookup_app_l_Some, G2].
    - rewrite H2, map_app, Eids. apply NoDup_app. split; [apply (i_ids _ _ _ H)|]. split; [|exact Hnd].
      intros id Hi Hi'. apply (proj2 (Hids id Hi')), Hi.
    - rewrite H2, map_app, Eaddr. apply NoDup_app. split; [apply (i_addr _ _ _ H)|]. split.
      + intros a Ha Ha'. apply Hnew in Ha' as [Ha' _]. apply elem_of_list_fmap in Ha as ([[id b] r] & -> & Hs). cbn in Ha'.
        destruct (shell_live _ _ _ _ _ _ H Hs) as [c Hc]. apply lookup_lt_Some in Hc. lia.
      + destruct H1 as (_ & G & _). apply NoDup_app in G as [G _]. rewrite reverse_Permutation in G. exact G.
    - intros id a r Hs. destruct (Hsh _ _ _ Hs) as [Hs'|[Hi Ha]].
      + destruct (i_own _ _ _ H _ _ _ Hs') as (l0 & E0 & Ha). destruct (decide (k = owner id)) as [Eo|Hne].
        * rewrite <- Eo in *. rewrite El in E0. injection E0 as <-. eexists. split; [apply list_lookup_insert; lia|]. apply elem_of_app. right. exact Ha.
        * exists l0. rewrite list_lookup_insert_ne by exact Hne. auto.
      + rewrite (proj1 (Hids id Hi)). eexists. split; [apply list_lookup_insert; lia|]. apply elem_of_app. left. apply elem_of_reverse, Ha.
    - intros id a r c Hs Hc. destruct (Hsh _ _ _ Hs) as [Hs'|[Hi Ha]].
      + destruct (shell_live _ _ _ _ _ _ H Hs') as [c0 Hc0]. rewrite H5 in Hc by (eapply lookup_lt_Some, Hc0).
        destruct (i_shell _ _ _ H _ _ _ _ Hs' Hc) as (G1 & G2 & G3). split; [|auto]. intros E. destruct (G1 E) as (q & Hq & Hq'). exists q. split; [apply lookup_app_l_Some, Hq|exact Hq'].
      + destruct (Hnew a Ha) as (_ & c1 & bs & f' & Hc1 & _ & Hfr). rewrite Hc in Hc1. injection Hc1 as <-. destruct Hfr as (_ & _ & G1 & _ & G3 & _).
        split; [congruence|]. split; [congruence|]. intros Hd. exfalso. destruct (i_done _ _ _ H id) as (a0 & r0 & Hs0); [auto|].
        apply (proj2 (Hids id Hi)). apply elem_of_list_fmap. exists (id, a0, r0). auto.
    - intros id Hj. destruct (i_done _ _ _ H id Hj) as (a & r & Hs). exists a, r. rewrite H2. apply elem_of_app. auto.
  Qed.

  Lemma alive_live objs p : alive objs p = true <-> exists q, p = Some q /\ live objs q.
  Proof.
    unfold alive, live. destruct p as [q|]; cbn; [|split; [discriminate|intros (q & E & _); discriminate]].
    destruct (objs !! q) as [[x|]|] eqn:E; split; try discriminate; eauto; intros (q' & [= <-] & x & Hx); congruence.
  Qed.
  Lemma elem_without id j l : j ∈ without id l <-> j <> id /\ j ∈ l.
  Proof. unfold without. rewrite elem_of_list_filter. reflexivity. Qed.

  Lemma inv_setup owner L ls id gf ga dm o info dcpu dwall : inv owner L ls -> id ∉ l_failed L ->
    exists L' s ls', life_setup id gf ga dm o info dcpu dwall L = Ok (L', s) /\ inv owner L' ls'.
  Proof.
    intros H Hnf. unfold life_setup. destruct (context_of id L) as [a|] eqn:Ectx; [|eauto].
    apply context_Some in Ectx as [r Hs]. destruct (shell_live _ _ _ _ _ _ H Hs) as [c Hc]. destruct (shell_ptr _ _ _ _ _ _ H Hs) as [p Hp].
    simpl deref. rewrite Hc. cbn [bind]. unfold get. rewrite Hp. cbn [bind].
    destruct (compute_preconditioner_blasted gf ga dm o info dcpu dwall (l_mem L) c) as [[m' c'] s] eqn:E.
    destruct (i_own _ _ _ H _ _ _ Hs) as (l & El & Ha). destruct (i_factory _ _ _ H _ _ _ _ El Ha Hc) as [Hdef _].
    destruct (i_shell _ _ _ H _ _ _ _ Hs Hc) as (S1 & S2 & S3).
    assert (c_first c = true -> c_bprec c <> None) as Hb by (intros Ef Eb; apply Hnf, S2; assumption).
    destruct (compute_cases _ _ _ _ _ _ _ _ _ _ _ _ Hdef (i_ready _ _ _ H _ _ Hc) Hb E) as (N & G1 & G2 & G3 & G4 & G5 & G6 & G7 & G8 & G9 & G10 & G11 & G12 & G13).
    assert (exists objs' p', (if c_first c then Ok (l_objs L, p) else
         match setupDataFromOptions (m_facts (l_mem L)) o c with
         | (_, Fine) =>
           let! objs := free (l_objs L) None in
           match c_bprec c' with
           | Some _ => Ok ((objs ++ [Some tt])%list, Some (length objs))
           | None => Ok (objs, None)
           end
         | _ => Ok (l_objs L, p)
         end) = Ok (objs', p') /\
      (objs' = l_objs L /\ p' = p \/ p = None /\ objs' = (l_objs L ++ [Some tt])%list /\ p' = Some (length (l_objs L))) /\
      (c_bprec c' = None -> p' = None) /\ (c_bprec c' <> None -> exists q, p' = Some q /\ live objs' q)) as (objs' & p' & Eo & Ho & Hn & Hq).
    { destruct (c_first c) eqn:Efi.
      - destruct (G9 eq_refl) as [Eb _]. exists (l_objs L), p. split; [reflexivity|]. split; [auto|]. rewrite Eb. split.
        + intros Eb'. exfalso. apply (Hb eq_refl), Eb'.
        + intros Eb'. destruct (S1 Eb') as (q & Hq & Hl). exists q. split; [congruence|exact Hl].
      - destruct (i_ready _ _ _ H _ _ Hc) as [R1 _]. destruct (R1 Efi) as [Eb _]. pose proof (i_null _ _ _ H _ _ Hc Eb) as Hp0. rewrite Hp in Hp0. injection Hp0 as ->.
        destruct (c_bprec c') as [x|] eqn:Eb'.
        + destruct (G13 eq_refl) as [c1 E1]; [discriminate|]. rewrite E1. cbn [free bind]. eexists _, _. split; [reflexivity|]. split; [auto|]. split; [discriminate|].
          intros _. eexists. split; [reflexivity|]. exists tt. apply list_lookup_middle. reflexivity.
        + exists (l_objs L), None. split; [destruct (setupDataFromOptions _ _ _) as [c1 [| | |]]; reflexivity|]. split; [auto|]. split; [auto|congruence]. }
    cbv zeta. rewrite Eo. cbn [bind].
    destruct m' as [nodes' infos' facts']. cbn [m_nodes m_infos m_facts] in *. subst nodes' facts'.
    destruct s; [|eexists _, _, ls; (split; [reflexivity|])..|congruence].
    - destruct (proj1 G12 eq_refl) as [F1 F2]. rewrite (proj2 (alive_live objs' p') (Hq F2)). eexists _, _, ls. split; [reflexivity|].
      eapply inv_update; try eassumption; eauto.
      + congruence.
      + intros j Hj. apply elem_of_cons in Hj. exact Hj.
      + intros j Hj. apply elem_without in Hj as [_ Hj]. auto.
      + intros j Hj1 Hj2. apply elem_without. auto.
    - eapply inv_update; try eassumption; eauto.
      + intros _ _. left.
      + intros Hd Eb. pose proof (S3 Hd) as Eb0. destruct (c_first c) eqn:Efi; [destruct (G9 eq_refl) as [E1 _]; congruence|].
        destruct (i_ready _ _ _ H _ _ Hc) as [R1 _]. destruct (R1 Efi) as [Eb1 _]. congruence.
      + intros j Hj. apply elem_of_cons in Hj. exact Hj.
      + intros j _ Hj. right. exact Hj.
    - eapply inv_update; try eassumption; eauto.
      + intros _ _. left.
      + intros Hd Eb. pose proof (S3 Hd) as Eb0. destruct (c_first c) eqn:Efi; [destruct (G9 eq_refl) as [E1 _]; congruence|].
        destruct (i_ready _ _ _ H _ _ Hc) as [R1 _]. destruct (R1 Efi) as [Eb1 _]. congruence.
      + intros j Hj. apply elem_of_cons in Hj. exact Hj.
      + intros j _ Hj. right. exact Hj.
  Qed.

  Lemma inv_apply owner L ls id dcpu dwall : inv owner L ls -> exists L' s ls', life_apply id dcpu dwall L = Ok (L', s) /\ inv owner L' ls'.
  Proof.
    intros H. unfold life_apply. destruct (context_of id L) as [a|] eqn:Ectx; [|eauto]. case_bool_decide as Hd; [|eauto].
    apply context_Some in Ectx as [r Hs]. destruct (shell_live _ _ _ _ _ _ H Hs) as [c Hc].
    destruct (i_shell _ _ _ H _ _ _ _ Hs Hc) as (S1 & S2 & S3). destruct (S1 (S3 Hd)) as (q & Hq & Hl).
    simpl deref. rewrite Hc. cbn [bind]. unfold get. rewrite Hq. cbn [bind].
    rewrite (proj2 (alive_live (l_objs L) (Some q))) by eauto. eexists _, _, ls. split; [reflexivity|].
    destruct (i_ready _ _ _ H _ _ Hc) as [R1 R2].
    assert (inv owner (Life (Mem (<[a := Some (spend c dcpu dwall)]> (m_nodes (l_mem L))) (m_infos (l_mem L)) (m_facts (l_mem L))) (l_lists L) (l_shells L)
      (<[a := Some q]> (l_ptr L)) (l_objs L) (l_done L) (l_failed L)) ls) as G.
    { eapply inv_update; try eassumption; cbn; eauto.
      - intros Eb. pose proof (i_null _ _ _ H _ _ Hc Eb) as E. rewrite Hq in E. discriminate.
      - intros E1 E2 E3. destruct (R2 E1 E2 E3) as (i & Ei & _). eauto. }
    rewrite (list_insert_id _ _ _ Hq) in G. exact G.
  Qed.

  Lemma inv_close owner L ls id : inv owner L ls -> exists L' s ls', life_close id L = Ok (L', s) /\ inv owner L' ls'.
  Proof.
    intros H. unfold life_close. destruct (context_of id L) as [a|] eqn:Ectx; [|eauto].
    apply context_Some in Ectx as [r Hs]. destruct (shell_live _ _ _ _ _ _ H Hs) as [c Hc]. destruct (shell_ptr _ _ _ _ _ _ H Hs) as [p Hp].
    destruct (i_shell _ _ _ H _ _ _ _ Hs Hc) as (S1 & S2 & S3).
    simpl deref. rewrite Hc. cbn [bind]. unfold get. rewrite Hp. cbn [bind].
    assert (exists objs', free (l_objs L) p = Ok objs' /\ deleted (l_objs L) objs' (option_list p)) as (objs' & Eo & Ho).
    { destruct p as [q|]; [|exists (l_objs L); split; [reflexivity|apply deleted_nil]].
      assert (c_bprec c <> None) as Eb by (intros Eb; pose proof (i_null _ _ _ H _ _ Hc Eb); congruence).
      destruct (S1 Eb) as (q' & Hq & Hl). rewrite Hp in Hq. injection Hq as <-. destruct (free_spec _ _ Hl) as [E1 E2]. eauto. }
    rewrite Eo. cbn [bind]. eexists _, _, ls. split; [reflexivity|].
    assert (forall id0 a0 r0, (id0, a0, r0) ∈ filter (fun s => s.1.1 <> id) (l_shells L) <-> id0 <> id /\ (id0, a0, r0) ∈ l_shells L) as Hf
      by (intros id0 a0 r0; rewrite elem_of_list_filter; reflexivity).
    assert (forall q, live objs' q <-> p <> Some q /\ live (l_objs L) q) as Hlive.
    { intros q. unfold live. rewrite Ho. destruct (decide (q ∈ option_list p)) as [Hq|Hq].
      - destruct p as [q'|]; cbn in Hq; [apply elem_of_list_singleton in Hq as ->|apply elem_of_nil in Hq as []]. split; [intros [x Hx]; discriminate|intros [? _]; congruence].
      - split; [intros Hx; split; [|exact Hx]; intros ->; apply Hq; left|tauto]. }
    assert (length objs' = length (l_objs L)) as Hlo.
    { destruct p as [q|]; cbn in Eo; [|congruence]. destruct (l_objs L !! q) as [[x|]|]; try discriminate. injection Eo as <-. apply insert_length. }
    assert (forall {A} (g : nat * nat * bool -> A), NoDup (map g (l_shells L)) -> NoDup (map g (filter (fun s => s.1.1 <> id) (l_shells L)))) as Hsub.
    { intros A g. generalize (l_shells L). induction l as [|x l IH]; [auto|]. cbn [map]. intros Hn. apply NoDup_cons in Hn as [Hx Hn].
      rewrite filter_cons. destruct (decide _); [|auto]. cbn [map]. apply NoDup_cons. split; [|auto]. intros Hi. apply Hx.
      apply elem_of_list_fmap in Hi as (y & -> & Hy). apply elem_of_list_filter in Hy as [_ Hy]. apply elem_of_list_fmap. eauto. }
    pose proof H as Hinv. destruct H. constructor; cbn [l_mem l_lists l_shells l_ptr l_objs l_done l_failed]; try assumption.
    - intros b q Hq. rewrite Hlo. eauto.
    - intros q Hq. apply Hlive in Hq as [Hne Hq]. destruct (i_obj0 q Hq) as (id0 & a0 & r0 & G1 & G2). exists id0, a0, r0. split; [|exact G2].
      apply Hf. split; [|exact G1]. intros ->. destruct (same_id _ _ _ _ _ _ i_ids0 Hs G1) as [<- _]. congruence.
    - apply Hsub, i_ids0.
    - apply Hsub, i_addr0.
    - intros id0 a0 r0 G. apply Hf in G as [_ G]. eauto.
    - intros id0 a0 r0 c0 G Hc0. apply Hf in G as [Hne G]. destruct (i_shell0 _ _ _ _ G Hc0) as (T1 & T2 & T3). split; [|split].
      + intros Eb. destruct (T1 Eb) as (q & Hq & Hl). exists q. split; [exact Hq|]. apply Hlive. split; [|exact Hl]. intros ->.
        pose proof (i_inj0 _ _ _ Hp Hq) as <-. destruct (same_addr _ _ _ _ _ _ i_addr0 Hs G) as [<- _]. congruence.
      + intros E1 E2. apply elem_without. auto.
      + intros E. apply elem_without in E as [_ E]. auto.
    - intros j Hj. assert (j <> id /\ (j ∈ l_done L \/ j ∈ l_failed L)) as [Hne Hj'] by (destruct Hj as [Hj|Hj]; apply elem_without in Hj as [? ?]; auto).
      destruct (i_done0 j Hj') as (a0 & r0 & G). exists a0, r0. apply Hf. auto.
  Qed.

  Lemma inv_totals owner L ls k : inv owner L ls -> k < length (l_lists L) -> exists L' s ls', life_totals k L = Ok (L', s) /\ inv owner L' ls'.
  Proof.
    intros H Hk. destruct (lookup_lt_is_Some_2 (l_lists L) k Hk) as [d Ed]. destruct (Forall2_lookup_l _ _ _ _ _ (i_lists _ _ _ H) Ed) as (l & El & Hl).
    assert (exists cs, Forall2 (fun a c => m_nodes (l_mem L) !! a = Some (Some c)) l cs) as [cs Hcs].
    { destruct Hl as (Hl & _ & _). clear -Hl. induction Hl as [|a c l E Hl [cs IH]]; [exists []; constructor|exists (c :: cs); constructor; assumption]. }
    unfold life_totals, get. rewrite Ed. cbn [bind]. destruct (C50_totals _ _ _ _ Hl Hcs) as (d' & E & Hl' & Ef & Edf & _). rewrite E. cbn [bind].
    eexists _, _, ls. split; [reflexivity|].
    assert (forall k0 d0, <[k := d']> (l_lists L) !! k0 = Some d0 -> exists d1, l_lists L !! k0 = Some d1 /\ d_factory d1 = d_factory d0 /\ d_default d1 = d_default d0) as Hdl.
    { intros k0 d0 E0. destruct (decide (k = k0)) as [<- |Hne]; [rewrite list_lookup_insert in E0 by lia; injection E0 as <-; eauto|].
      rewrite list_lookup_insert_ne in E0 by exact Hne. eauto. }
    destruct H. constructor; cbn [l_mem l_lists l_shells l_ptr l_objs l_done l_failed]; try assumption.
    - apply Forall2_same_length_lookup_2; [rewrite insert_length; eapply Forall2_length; eassumption|]. intros k0 d0 l0 E0 E1. destruct (decide (k = k0)) as [<- |Hne].
      + rewrite list_lookup_insert in E0 by lia. injection E0 as <-. rewrite El in E1. injection E1 as <-. exact Hl'.
      + rewrite list_lookup_insert_ne in E0 by exact Hne. eapply Forall2_lookup_lr; eassumption.
    - intros k0 d0 E0 D0. destruct (Hdl _ _ E0) as (d1 & E1 & <- & G). apply (i_default0 k0); [exact E1|congruence].
    - intros k1 k2 d1 d2 E1 E2 D1 D2 Ef'. destruct (Hdl _ _ E1) as (x1 & X1 & Y1 & Z1), (Hdl _ _ E2) as (x2 & X2 & Y2 & Z2). apply (i_default_inj0 k1 k2 x1 x2); congruence.
    - intros k0 l0 a c E0 Ha Hc. destruct (i_factory0 _ _ _ _ E0 Ha Hc) as [G1 G2]. split; [exact G1|]. intros k' d0 E1 D1 Ef'.
      destruct (Hdl _ _ E1) as (x1 & X1 & Y1 & Z1). apply (G2 k' x1); congruence.
  Qed.

  Lemma inv_destroy owner L ls k : inv owner L ls -> k < length (l_lists L) -> (forall s, s ∈ l_shells L -> owner s.1.1 <> k) ->
    exists L' s ls', life_destroy k L = Ok (L', s) /\ inv owner L' ls' /\ (forall j l, ls' !! j = Some l -> j = k /\ l = [] \/ j <> k /\ ls !! j = Some l).
  Proof.
    intros H Hk Hsh. pose proof (Forall2_length _ _ _ (i_lists _ _ _ H)) as Hlen.
    destruct (lookup_lt_is_Some_2 (l_lists L) k Hk) as [d Ed]. destruct (Forall2_lookup_l _ _ _ _ _ (i_lists _ _ _ H) Ed) as (l & El & Hl).
    assert (exists cs, Forall2 (fun a c => m_nodes (l_mem L) !! a = Some (Some c)) l cs) as [cs Hcs].
    { destruct Hl as (Hl & _ & _). clear -Hl. induction Hl as [|a c l E Hl [cs IH]]; [exists []; constructor|exists (c :: cs); constructor; assumption]. }
    assert (infos_of (l_mem L) l (omap c_infolist cs)) as Hinfos.
    { exists cs. split; [exact Hcs|]. split; [reflexivity|]. split.
      - destruct Hl as (_ & Hn & _). pose proof (i_info_inj _ _ _ H) as Hinj. clear -Hcs Hn Hinj. induction Hcs as [|a c l cs Ha HF IH]; [constructor|].
        apply NoDup_cons in Hn as [Hal Hn]. change (omap c_infolist (c :: cs)) with (match c_infolist c with Some y => y :: omap c_infolist cs | None => omap c_infolist cs end).
        destruct (c_infolist c) as [i|] eqn:Ei; [|auto]. apply NoDup_cons. split; [|auto]. intros Hi. apply elem_of_list_omap in Hi as (c' & Hc' & Ei').
        apply elem_of_list_lookup in Hc' as [n Hc']. destruct (Forall2_lookup_r _ _ _ _ _ HF Hc') as (a' & Ha' & Hn'). pose proof (Hinj _ _ _ _ _ Ha Hn' Ei Ei') as <-.
        apply Hal. eapply elem_of_list_lookup_2, Ha'.
      - intros i Hi. apply elem_of_list_omap in Hi as (c & Hc & Ei). apply elem_of_list_lookup in Hc as [n Hc].
        destruct (Forall2_lookup_r _ _ _ _ _ Hcs Hc) as (a & _ & Ha). apply (i_info _ _ _ H _ _ _ Ha Ei). }
    unfold life_destroy, get. rewrite Ed. cbn [bind].
    destruct (C48_destroy _ _ _ _ Hl Hinfos) as (m' & d' & E & Hl' & Dn & Di & Df & Dd); [intros D; apply (i_default _ _ _ H _ _ Ed D)|].
    rewrite E. cbn [bind]. eexists _, _, (<[k := []]> ls). split; [reflexivity|].
    assert (length (m_nodes m') = length (m_nodes (l_mem L))) as Hln.
    { assert (forall {A} (x y : list (option A)) z, deleted x y z -> length y <= length x \/ exists n, n ∈ z /\ length x <= n) as G.
      { intros A x y z Hd. destruct (decide (length y <= length x)) as [Hle|Hgt]; [auto|]. right. exists (length x). split; [|lia].
        pose proof (Hd (length x)) as G. destruct (decide (length x ∈ z)) as [Hz|Hz]; [exact Hz|]. rewrite (lookup_ge_None_2 x) in G by lia. apply lookup_ge_None_1 in G. lia. }
      assert (length (m_nodes (l_mem L)) <= length (m_nodes m')) as G1.
      { destruct (decide (length (m_nodes (l_mem L)) <= length (m_nodes m'))) as [Hle|Hgt]; [exact Hle|]. exfalso.
        assert (m_nodes m' !! length (m_nodes m') = None) as E0 by (apply lookup_ge_None_2; lia). rewrite Dn in E0. destruct (decide _) in E0; [discriminate|].
        apply lookup_ge_None_1 in E0. lia. }
      destruct (G _ _ _ _ Dn) as [G2|(n & Hn & Hge)]; [lia|]. destruct Hl as (Hl & _ & _). destruct (linked_lt _ _ _ Hl n Hn) as [x Hx]. apply lookup_lt_Some in Hx. lia. }
    assert (forall a c, m_nodes m' !! a = Some (Some c) <-> a ∉ l /\ m_nodes (l_mem L) !! a = Some (Some c)) as Hnode.
    { intros a c. rewrite Dn. destruct (decide (a ∈ l)); [split; [discriminate|tauto]|tauto]. }
    assert (forall j l0, <[k := []]> ls !! j = Some l0 -> j = k /\ l0 = [] \/ j <> k /\ ls !! j = Some l0) as Hls.
    { intros j l0 E0. destruct (decide (k = j)) as [<- |Hne]; [rewrite list_lookup_insert in E0 by lia; injection E0 as <-; auto|].
      rewrite list_lookup_insert_ne in E0 by exact Hne. auto. }
    assert (forall j d0, <[k := d']> (l_lists L) !! j = Some d0 -> d_default d0 = true -> j <> k /\ l_lists L !! j = Some d0) as Hdl.
    { intros j d0 E0 D0. destruct (decide (k = j)) as [<- |Hne]; [rewrite list_lookup_insert in E0 by lia; injection E0 as <-; congruence|].
      rewrite list_lookup_insert_ne in E0 by exact Hne. auto. }
    assert (forall f x, m_facts (l_mem L) !! f = Some x -> (d_default d = true -> d_factory d <> Some f) -> m_facts m' !! f = Some x) as Hfo.
    { intros f x Hx Hne. rewrite Df. rewrite decide_False; [exact Hx|]. destruct (d_default d); [|apply not_elem_of_nil]. destruct (d_factory d) as [f'|]; [|apply not_elem_of_nil].
      intros G. apply elem_of_list_singleton in G as ->. apply (Hne eq_refl eq_refl). }
    assert (forall i, live (m_infos m') i <-> (i ∉ omap c_infolist cs) /\ live (m_infos (l_mem L)) i) as Hli.
    { intros i. unfold live. rewrite Di. destruct (decide _); [split; [intros [x Hx]; discriminate|tauto]|tauto]. }
    assert (forall a c i, a ∉ l -> m_nodes (l_mem L) !! a = Some (Some c) -> c_infolist c = Some i -> i ∉ omap c_infolist cs) as Hnot.
    { intros a c i Ha Hc Ei Hi. apply elem_of_list_omap in Hi as (c' & Hc' & Ei'). apply elem_of_list_lookup in Hc' as [n Hc'].
      destruct (Forall2_lookup_r _ _ _ _ _ Hcs Hc') as (a' & Ha' & Hn'). pose proof (i_info_inj _ _ _ H _ _ _ _ _ Hc Hn' Ei Ei') as <-. apply Ha. eapply elem_of_list_lookup_2, Ha'. }
    split; [|exact Hls].
    pose proof H as Hinv. destruct H. constructor; cbn [l_mem l_lists l_shells l_ptr l_objs l_done l_failed]; try assumption.
    - apply Forall2_same_length_lookup_2; [rewrite !insert_length; exact Hlen|]. intros j d0 l0 E0 E1. destruct (Hls _ _ E1) as [[-> ->]|[Hne E1']].
      + rewrite list_lookup_insert in E0 by lia. injection E0 as <-. exact Hl'.
      + rewrite list_lookup_insert_ne in E0 by congruence. destruct (Forall2_lookup_lr _ _ _ _ _ _ i_lists0 E0 E1') as (G1 & G2 & G3).
        split; [|auto]. eapply linked_mono; [exact G1|]. intros a Ha. rewrite Dn. rewrite decide_False; [reflexivity|]. intros Ha'. apply Hne, (i_apart0 _ _ _ _ _ E1' El Ha Ha').
    - intros a [c Hc]. apply Hnode in Hc as [Ha Hc]. destruct (i_all0 a) as (j & l0 & E0 & Ha'); [exists c; exact Hc|]. exists j, l0. split; [|exact Ha'].
      rewrite list_lookup_insert_ne; [exact E0|]. intros <-. congruence.
    - intros k1 k2 l1 l2 a E1 E2 Ha1 Ha2. destruct (Hls _ _ E1) as [[-> ->]|[N1 E1']]; [apply elem_of_nil in Ha1 as []|].
      destruct (Hls _ _ E2) as [[-> ->]|[N2 E2']]; [apply elem_of_nil in Ha2 as []|]. eauto.
    - intros a c Hc. apply Hnode in Hc as [Ha Hc]. destruct (i_ready0 _ _ Hc) as [G1 G2]. split; [exact G1|]. intros E1 E2 E3. destruct (G2 E1 E2 E3) as (i & Ei & Hl0).
      exists i. split; [exact Ei|]. apply Hli. split; [eapply Hnot; eassumption|exact Hl0].
    - intros a c i Hc Ei. apply Hnode in Hc as [Ha Hc]. apply Hli. split; [eapply Hnot; eassumption|eapply i_info0; eassumption].
    - intros a a' c c' i Hc Hc' Ei Ei'. apply Hnode in Hc as [_ Hc], Hc' as [_ Hc']. eapply i_info_inj0; eassumption.
    - intros i Hi. apply Hli in Hi as [Hi Hi']. destruct (i_info_all0 i Hi') as (a & c & Hc & Ei). exists a, c. split; [|exact Ei]. apply Hnode. split; [|exact Hc].
      intros Ha. apply Hi. apply elem_of_list_lookup in Ha as [n Hn]. destruct (Forall2_lookup_l _ _ _ _ _ Hcs Hn) as (c' & Hc' & Hn'). apply elem_of_list_omap. exists c'.
      split; [eapply elem_of_list_lookup_2, Hc'|congruence].
    - intros j d0 E0 D0. destruct (Hdl _ _ E0 D0) as [Hne E0']. destruct (i_default0 _ _ E0' D0) as (f & Ef & x & Hx). exists f. split; [exact Ef|]. exists x. apply Hfo; [exact Hx|].
      intros D1 Ef1. apply Hne. apply (i_default_inj0 _ _ _ _ E0' Ed D0 D1). congruence.
    - intros k1 k2 d1 d2 E1 E2 D1 D2. destruct (Hdl _ _ E1 D1) as [_ E1'], (Hdl _ _ E2 D2) as [_ E2']. eauto.
    - intros j l0 a c E0 Ha Hc. destruct (Hls _ _ E0) as [[-> ->]|[Hne E0']]; [apply elem_of_nil in Ha as []|]. apply Hnode in Hc as [Ha' Hc].
      destruct (i_factory0 _ _ _ _ E0' Ha Hc) as [(f & Ef & Hf) G2]. split.
      + exists f. split; [exact Ef|]. apply Hfo; [exact Hf|]. intros D1 Ef1. apply Hne. symmetry. apply (G2 _ _ Ed D1). congruence.
      + intros k' d0 E1 D1 Ef'. destruct (Hdl _ _ E1 D1) as [_ E1']. eauto.
    - rewrite Hln. exact i_len0.
    - intros a c Hc. apply Hnode in Hc as [_ Hc]. eauto.
    - intros id a r Hs. destruct (i_own0 _ _ _ Hs) as (l0 & E0 & Ha). exists l0. rewrite list_lookup_insert_ne; [auto|]. intros E1. apply (Hsh _ Hs). auto.
    - intros id a r c Hs Hc. apply Hnode in Hc as [_ Hc]. eauto.
  Qed.
End LifeFacts.
