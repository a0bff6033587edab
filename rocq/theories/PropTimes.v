(** * PropTimes: the times reported to the user (C85) *)
From Coq Require Import ZArith.
From Verif Require Import Base Alg SRMatrix Async Nd Kernels IluApply IluPattern IluFactor Sgs Levels ColMat Coo Factory Petsc Objects PropPetscList PropPetscSetup Life LifeFacts PropLife.
Local Open Scope string_scope.

(** ** Specification *)
Section Spec.
  Context {F : Type} {O : SOps F} {I : Type}.
  (** times for building and for applying, each on the CPU's clock and on the wall *)
  Definition times : Type := F * F * F * F.
  Definition no_time : times := (s0, s0, s0, s0).
  Definition plus (t u : times) : times :=
    let '(a, b, c, d) := t in let '(a', b', c', d') := u in ((a + a')%s, (b + b')%s, (c + c')%s, (d + d')%s).
  (** What one call that ended with [s] adds to the account of list [k]: a set-up which succeeded the time of building, an application or
      relaxation which succeeded the time of applying, if the shell was configured for the list. A call which failed adds nothing.
      Destroying the list clears the account. *)
  Definition charge (owner : nat -> nat) (k : nat) (x : op F I) (s : status) (t : times) : times :=
    match x, s with
    | SetUp id _ _ _ _ _ dcpu dwall, Fine => if decide (owner id = k) then plus t (dcpu, dwall, s0, s0) else t
    | Apply id dcpu dwall, Fine => if decide (owner id = k) then plus t (s0, s0, dcpu, dwall) else t
    | Destroy j, _ => if decide (j = k) then no_time else t
    | _, _ => t
    end.
  Fixpoint account (owner : nat -> nat) (k : nat) (xs : list (op F I)) (L : life F I) (t : times) : times :=
    match xs with
    | [] => t
    | x :: xs => match life_step x L with Ok (L', s) => account owner k xs L' (charge owner k x s t) | _ => t end
    end.
  (** the fields of the list the user reads after computeTotalTimes, and those of a context *)
  Definition reported (d : @dlist F) : times := (d_fcpu d, d_fwall d, d_acpu d, d_awall d).
  Definition noted (c : @ctx F) : times := (c_fcpu c, c_fwall c, c_acpu c, c_awall c).
End Spec.
Arguments times F : clear implicits.

(** ** Single calls *)
Section Calls.
  Context {F : Type} {O : SOps F}.
  Local Notation ctx := (@ctx F).

  Lemma options_noted fs o (c c' : ctx) s : setupDataFromOptions fs o c = (c', s) -> noted c' = match s with Fine => no_time | _ => noted c end.
  Proof.
    unfold setupDataFromOptions. destruct (deref fs (c_factory c)) as [f| | |]; try (intros [= <- <-]; reflexivity).
    destruct (o_type o) as [nm|]; [|intros [= <- <-]; reflexivity].
    destruct (f_types f (trunc nm)) as [t| | |]; try (intros [= <- <-]; reflexivity). cbv zeta.
    match goal with |- context [match ?A with Ok _ => _ | _ => _ end] => destruct A as [[[[[[nb na] sc] k] fi] ai]| | |] end; intros [= <- <-]; reflexivity.
  Qed.
  Lemma options_first fs o (c c' : ctx) s : setupDataFromOptions fs o c = (c', s) -> c_first c' = false -> s <> Fine /\ c_first c = false.
  Proof.
    unfold setupDataFromOptions. destruct (deref fs (c_factory c)) as [f| | |]; try (intros [= <- <-]; split; [discriminate|assumption]).
    destruct (o_type o) as [nm|]; [|intros [= <- <-]; split; [discriminate|assumption]].
    destruct (f_types f (trunc nm)) as [t| | |]; try (intros [= <- <-]; split; [discriminate|assumption]). cbv zeta.
    match goal with |- context [match ?A with Ok _ => _ | _ => _ end] => destruct A as [[[[[[nb na] sc] k] fi] ai]| | |] end; intros [= <- <-]; cbn; try discriminate;
      intros H; (split; [discriminate|exact H]).
  Qed.
  Lemma create_noted {I} gf ga dm (m m' : @mem F I) (c c' : ctx) s : createNewPreconditioner gf ga dm m c = (m', c', s) ->
    noted c' = noted c /\ c_first c' = c_first c.
  Proof.
    unfold createNewPreconditioner. destruct dm; [intros [= <- <- <-]; split; reflexivity|].
    destruct (deref (m_facts m) (c_factory c)) as [f| | |]; try (intros [= <- <- <-]; split; reflexivity).
    destruct (petsc_settings f gf ga c) as [st| | |]; try (intros [= <- <- <-]; split; reflexivity).
    destruct (_ || _); [intros [= <- <- <-]; split; reflexivity|]. destruct (f_create f st) as [p| | |]; try (intros [= <- <- <-]; split; reflexivity).
    destruct (c_info c); intros [= <- <- <-]; split; reflexivity.
  Qed.
  (** a context which was never set up holds no time *)
  Definition unused (c : ctx) : Prop := c_first c = false -> noted c = no_time.
  Lemma compute_noted {I} gf ga dm o info dcpu dwall (m m' : @mem F I) (c c' : ctx) s : unused c ->
    compute_preconditioner_blasted gf ga dm o info dcpu dwall m c = (m', c', s) ->
    noted c' = match s with Fine => ((c_fcpu c + dcpu)%s, (c_fwall c + dwall)%s, c_acpu c, c_awall c) | _ => noted c end /\ unused c'.
  Proof.
    intros Hu. unfold compute_preconditioner_blasted.
    set (A := if c_first c then _ else _). assert (noted A.1.2 = noted c /\ unused A.1.2 /\ (A.2 = Fine -> c_first A.1.2 = true)) as (HA & HB & HC).
    { unfold A, unused in *. destruct (c_first c) eqn:Ec; [cbn; rewrite Ec; split; [reflexivity|split; [discriminate|auto]]|].
      destruct (setupDataFromOptions (m_facts m) o c) as [c1 s1] eqn:E1.
      pose proof (options_noted _ _ _ _ _ E1) as H1. pose proof (options_first _ _ _ _ _ E1) as H2.
      assert (noted c1 = noted c) as H3 by (destruct s1; rewrite H1, ?(Hu eq_refl); reflexivity).
      assert (noted c = no_time) as H4 by auto.
      destruct s1; try (cbn; rewrite H3; split; [reflexivity|split; [auto|discriminate]]). destruct (createNewPreconditioner gf ga dm m c1) as [[m2 c2] s2] eqn:E2. apply create_noted in E2 as [E2 E3]. cbn.
      split; [congruence|]. split; [intros _; congruence|]. intros _. rewrite E3. destruct (c_first c1); [reflexivity|]. destruct (H2 eq_refl) as [H5 _]. congruence. }
    destruct A as [[m1 c1] s1]. cbn in HA, HB, HC. destruct s1; try (intros [= <- <- <-]; split; [exact HA|exact HB]).
    destruct (updatePreconditioner info m1 c1) as [m2 s2] eqn:E. destruct s2; intros [= <- <- <-]; try (split; [exact HA|exact HB]).
    unfold noted, unused in *. cbn. split; [congruence|]. intros H. rewrite (HC eq_refl) in H. discriminate.
  Qed.
End Calls.

Section C85.
  Context {F : Type} {O : SOps F} {R : CRing F}.
  Add Ring c85ring : cring.
  Local Notation ctx := (@ctx F).

  Local Ltac by_field := repeat match goal with |- (_, _) = (_, _) => f_equal end; ring.
  Lemma plus_build (c : ctx) a b : ((c_fcpu c + a)%s, (c_fwall c + b)%s, c_acpu c, c_awall c) = plus (noted c) (a, b, s0, s0).
  Proof. unfold plus, noted. by_field. Qed.
  Lemma plus_apply (c : ctx) a b : (c_fcpu c, c_fwall c, (c_acpu c + a)%s, (c_awall c + b)%s) = plus (noted c) (s0, s0, a, b).
  Proof. unfold plus, noted. by_field. Qed.

  (** *** The functions registered with PETSc, with the objects they call *)
  Section Objects.
    Variables (ssqrt sabs : F -> F) (slt : F -> F -> bool) (inv : list F -> list F).
    (** A set-up, the first or a later one, adds its time to the times of building if it succeeds, and else no time *)
    Theorem C85_set_up nthr g pg gf ga dm o dcpu dwall M m c st m' c' st' s : unused c ->
      shell_setup ssqrt sabs inv nthr g pg gf ga dm o dcpu dwall M m c st (Ok (m', c', st', s)) ->
      noted c' = (match s with Fine => plus (noted c) (dcpu, dwall, s0, s0) | _ => noted c end) /\ unused c'.
    Proof.
      intros Hu. unfold shell_setup.
      set (A := if c_first c then _ else _). assert (noted A.1.1.2 = noted c /\ unused A.1.1.2 /\ (A.2 = Fine -> c_first A.1.1.2 = true)) as (HA & HB & HC).
      { unfold A, unused in *. destruct (c_first c) eqn:Ec; [cbn; rewrite Ec; split; [reflexivity|split; [discriminate|auto]]|].
        destruct (setupDataFromOptions (m_facts m) o c) as [c1 s1] eqn:E1.
        pose proof (options_noted _ _ _ _ _ E1) as H1. pose proof (options_first _ _ _ _ _ E1) as H2.
        assert (noted c1 = noted c) as H3 by (destruct s1; rewrite H1, ?(Hu eq_refl); reflexivity).
        assert (noted c = no_time) as H4 by auto.
        destruct s1; try (cbn; rewrite H3; split; [reflexivity|split; [auto|discriminate]]).
        destruct (createNewPreconditioner gf ga dm m c1) as [[m2 c2] s2] eqn:E2. apply create_noted in E2 as [E2 E3]. cbn.
        split; [congruence|]. split; [intros _; congruence|]. intros _. rewrite E3. destruct (c_first c1); [reflexivity|]. destruct (H2 eq_refl) as [H5 _]. congruence. }
      destruct A as [[[m1 c1] st1] s1]. cbn in HA, HB, HC. unfold nret, nlift.
      destruct s1; try (intros [= -> -> -> ->]; split; [exact HA|exact HB]).
      destruct (c_bprec c1) as [p|]; [|intros [= -> -> -> ->]; split; [exact HA|exact HB]].
      intros (x & (y & _ & ->) & H). destruct y as [[st2 info]| |msg|]; try (injection H as -> -> -> ->; split; [exact HA|exact HB]).
      destruct (updatePreconditioner info m1 c1) as [m2 s2]. destruct s2; injection H as -> -> -> ->; try (split; [exact HA|exact HB]).
      rewrite <- HA. split; [rewrite <- plus_build; reflexivity|]. unfold unused. cbn. rewrite (HC eq_refl). discriminate.
    Qed.
    (** An application adds its time to the times of applying if it succeeds *)
    Theorem C85_application dbg nthr g dcpu dwall M c st r z a :
      apply_local_blasted dbg nthr g dcpu dwall M c st r z (Ok a) ->
      noted (a_ctx a) = (match a_status a with Fine => plus (noted c) (s0, s0, dcpu, dwall) | _ => noted c end) /\ c_first (a_ctx a) = c_first c.
    Proof.
      unfold apply_local_blasted, nret, nlift. destruct (c_bprec c) as [p|]; [|intros [= ->]; split; reflexivity].
      destruct (_ && _); [intros [= ->]; split; reflexivity|]. intros (x & (y & _ & ->) & H).
      destruct y as [[st2 z2]| |msg|]; injection H as ->; cbn [a_ctx a_status status_of]; split; try reflexivity. rewrite <- plus_apply. reflexivity.
    Qed.
    (** ... and so does a relaxation *)
    Theorem C85_relaxation dbg nthr g dcpu dwall rtol abstol dtol it zero M c st rhs x a k :
      relax_local_blasted sabs slt dbg nthr g dcpu dwall rtol abstol dtol it zero M c st rhs x (Ok (a, k)) ->
      noted (a_ctx a) = (match a_status a with Fine => plus (noted c) (s0, s0, dcpu, dwall) | _ => noted c end) /\ c_first (a_ctx a) = c_first c.
    Proof.
      unfold relax_local_blasted, nret, nlift. destruct (c_bprec c) as [p|]; [|intros [= -> ->]; split; reflexivity].
      cbv zeta. destruct (_ && _); [intros [= -> ->]; split; reflexivity|]. intros (y & (y' & _ & ->) & H).
      destruct y' as [x2| |msg|]; injection H as -> ->; cbn [a_ctx a_status status_of]; split; try reflexivity. rewrite <- plus_apply. reflexivity.
    Qed.
  End Objects.

  (** ** Whole histories *)
  Context {I : Type}.
  Local Notation life := (life F I). Local Notation op := (op F I).
  Implicit Types (L : life) (x : op) (xs : list op).

  Definition noted_at (nodes : list (option ctx)) (a : nat) : times F := match nodes !! a with Some (Some c) => noted c | _ => no_time end.
  Fixpoint total (nodes : list (option ctx)) (l : list nat) : times F :=
    match l with [] => no_time | a :: l => plus (noted_at nodes a) (total nodes l) end.
  Definition balanced (owner : nat -> nat) L (ls : list (list nat)) (t : nat -> times F) : Prop :=
    (forall k, total (m_nodes (l_mem L)) (default [] (ls !! k)) = t k) /\
    forall a c, m_nodes (l_mem L) !! a = Some (Some c) -> unused c.

  Lemma plus_comm (t u : times F) : plus t u = plus u t.
  Proof. destruct t as [[[? ?] ?] ?], u as [[[? ?] ?] ?]. unfold plus. by_field. Qed.
  Lemma plus_assoc (t u v : times F) : plus t (plus u v) = plus (plus t u) v.
  Proof. destruct t as [[[? ?] ?] ?], u as [[[? ?] ?] ?], v as [[[? ?] ?] ?]. unfold plus. by_field. Qed.
  Lemma plus_none (t : times F) : plus no_time t = t.
  Proof. destruct t as [[[? ?] ?] ?]. unfold plus, no_time. by_field. Qed.

  Lemma total_same nodes nodes' l : (forall a, a ∈ l -> noted_at nodes' a = noted_at nodes a) -> total nodes' l = total nodes l.
  Proof.
    induction l as [|a l IH]; intros H; [reflexivity|]. cbn [total]. rewrite H by left. rewrite IH; [reflexivity|]. intros b Hb. apply H. right. exact Hb.
  Qed.
  Lemma total_app nodes l l' : total nodes (l ++ l') = plus (total nodes l) (total nodes l').
  Proof. induction l as [|a l IH]; cbn [total app]; [rewrite plus_none; reflexivity|]. rewrite IH, plus_assoc. reflexivity. Qed.
  Lemma total_none nodes l : (forall a, a ∈ l -> noted_at nodes a = no_time) -> total nodes l = no_time.
  Proof.
    induction l as [|a l IH]; intros H; [reflexivity|]. cbn [total]. rewrite H by left. rewrite plus_none. apply IH. intros b Hb. apply H. right. exact Hb.
  Qed.
  (** one context of the list gets time [u] more *)
  Lemma total_more nodes nodes' l a u : NoDup l -> a ∈ l -> noted_at nodes' a = plus (noted_at nodes a) u ->
    (forall b, b <> a -> noted_at nodes' b = noted_at nodes b) -> total nodes' l = plus (total nodes l) u.
  Proof.
    intros Hn Ha Hu Ho. induction l as [|b l IH]; [apply elem_of_nil in Ha as []|]. apply NoDup_cons in Hn as [Hb Hn]. cbn [total].
    destruct (decide (a = b)) as [<- |Hne].
    - rewrite Hu, (total_same nodes nodes' l) by (intros b' Hb'; apply Ho; intros ->; contradiction).
      rewrite <- !plus_assoc, (plus_comm u). reflexivity.
    - apply elem_of_cons in Ha as [Ha|Ha]; [congruence|]. rewrite (Ho b), (IH Hn Ha), plus_assoc by congruence. reflexivity.
  Qed.

  Lemma list_unique (m : @mem F I) d l l' : is_list m d l -> is_list m d l' -> l = l'.
  Proof.
    intros (H1 & _) (H2 & _). revert l' H2. induction H1 as [|a c l Ea H1 IH]; intros l' H2; inversion H2 as [|a' c' l'' Ea' H2']; subst; [reflexivity|].
    f_equal. apply IH. rewrite Ea in Ea'. injection Ea' as <-. exact H2'.
  Qed.
  Lemma lists_unique (m : @mem F I) ds ls ls' : Forall2 (is_list m) ds ls -> Forall2 (is_list m) ds ls' -> ls = ls'.
  Proof.
    intros H. revert ls'. induction H as [|d l ds ls H1 H2 IH]; intros ls' H'; inversion H' as [|? l' ? ls'' H1' H2']; subst; [reflexivity|].
    f_equal; [eapply list_unique; eassumption|apply IH, H2'].
  Qed.
  Lemma linked_kept (nodes nodes' : list (option ctx)) p l : linked nodes p l ->
    (forall a c, nodes !! a = Some (Some c) -> exists c', nodes' !! a = Some (Some c') /\ c_next c' = c_next c) -> linked nodes' p l.
  Proof.
    intros H Hk. induction H as [|a c l Ea H IH]; [constructor|]. destruct (Hk _ _ Ea) as (c' & Ea' & En). econstructor; [exact Ea'|]. rewrite En. exact IH.
  Qed.

  (** [c'] at [a], with the same successor: the lists are as before *)
  Lemma lists_put (m : @mem F I) (infos : list (option (list I))) facts ds ls a c c' : Forall2 (is_list m) ds ls -> m_nodes m !! a = Some (Some c) -> c_next c' = c_next c ->
    Forall2 (is_list (Mem (<[a := Some c']> (m_nodes m)) infos facts)) ds ls.
  Proof.
    intros H Ha En. eapply Forall2_impl; [exact H|]. intros d l (H1 & H2 & H3). split; [|auto]. cbn [m_nodes]. eapply linked_kept; [exact H1|].
    intros b cb Hb. destruct (decide (a = b)) as [<- |Hne].
    - exists c'. rewrite list_lookup_insert by (eapply lookup_lt_Some, Ha). rewrite Ha in Hb. injection Hb as <-. auto.
    - exists cb. rewrite list_lookup_insert_ne by exact Hne. auto.
  Qed.
  Lemma noted_put (nodes : list (option ctx)) a c c' b : nodes !! a = Some (Some c) ->
    noted_at (<[a := Some c']> nodes) b = if decide (b = a) then noted c' else noted_at nodes b.
  Proof.
    intros Ha. unfold noted_at. destruct (decide (b = a)) as [-> |Hne]; [rewrite list_lookup_insert by (eapply lookup_lt_Some, Ha); reflexivity|].
    rewrite list_lookup_insert_ne by congruence. reflexivity.
  Qed.
  (** the context of a shell configured for list [j] gets time [u] more *)
  Lemma balance_more owner L ls t id a r c c' u infos facts ds shs ps os dn fl : inv owner L ls -> balanced owner L ls t -> (id, a, r) ∈ l_shells L ->
    m_nodes (l_mem L) !! a = Some (Some c) -> noted c' = plus (noted c) u -> unused c' ->
    balanced owner (Life (Mem (<[a := Some c']> (m_nodes (l_mem L))) infos facts) ds shs ps os dn fl) ls
      (fun k => if decide (owner id = k) then plus (t k) u else t k).
  Proof.
    intros H [B1 B2] Hs Hc Hu Hun. destruct (i_own _ _ _ H _ _ _ Hs) as (l & El & Ha). split; cbn [l_mem m_nodes].
    - intros k. destruct (decide (owner id = k)) as [<- |Hne].
      + rewrite <- B1. rewrite El. unfold from_option, Datatypes.id. destruct (Forall2_lookup_r _ _ _ _ _ (i_lists _ _ _ H) El) as (d & _ & (_ & Hn & _)).
        apply (total_more _ _ l a u Hn Ha).
        * rewrite (noted_put _ _ _ _ _ Hc), decide_True by reflexivity. unfold noted_at. rewrite Hc. exact Hu.
        * intros b Hb. rewrite (noted_put _ _ _ _ _ Hc), decide_False by exact Hb. reflexivity.
      + rewrite <- B1. apply total_same. intros b Hb. rewrite (noted_put _ _ _ _ _ Hc). destruct (decide (b = a)) as [-> |Hba]; [|reflexivity]. exfalso. apply Hne.
        destruct (ls !! k) as [l'|] eqn:El'; [|apply elem_of_nil in Hb as []]. apply (i_apart _ _ _ H _ _ _ _ _ El El' Ha Hb).
    - intros b cb Hb. destruct (decide (a = b)) as [<- |Hne]; [rewrite list_lookup_insert in Hb by (eapply lookup_lt_Some, Hc); injection Hb as <-; exact Hun|].
      rewrite list_lookup_insert_ne in Hb by exact Hne. eapply B2, Hb.
  Qed.
  Lemma balance_same owner L ls t id a r c c' infos facts ds shs ps os dn fl : inv owner L ls -> balanced owner L ls t -> (id, a, r) ∈ l_shells L ->
    m_nodes (l_mem L) !! a = Some (Some c) -> noted c' = noted c -> unused c' ->
    balanced owner (Life (Mem (<[a := Some c']> (m_nodes (l_mem L))) infos facts) ds shs ps os dn fl) ls t.
  Proof.
    intros H B Hs Hc Hu Hun. destruct (balance_more owner L ls t id a r c c' no_time infos facts ds shs ps os dn fl H B Hs Hc) as [B1 B2].
    - rewrite plus_comm, plus_none. exact Hu.
    - exact Hun.
    - split; [|exact B2]. intros k. rewrite B1. destruct (decide _); [rewrite plus_comm; apply plus_none|reflexivity].
  Qed.

  Lemma destroy_loop_only n : forall (m : @mem F I) p sz m' sz', destroy_loop n m p sz = Ok (m', sz') ->
    forall a c, m_nodes m' !! a = Some (Some c) -> m_nodes m !! a = Some (Some c).
  Proof.
    induction n as [|n IH]; intros m p sz m' sz' E a c Ha; (destruct p as [q|]; [|injection E as <- <-; exact Ha]); cbn [destroy_loop] in E; [discriminate E|].
    destruct (deref (m_nodes m) (Some q)) as [c0| | |]; cbn [bind] in E; try discriminate E.
    destruct (free (m_infos m) (c_infolist c0)) as [infos| | |]; cbn [bind] in E; try discriminate E.
    destruct (free (m_nodes m) (Some q)) as [nodes| | |] eqn:Ef; cbn [bind] in E; try discriminate E.
    pose proof (IH _ _ _ _ _ E a c Ha) as G. cbn [m_nodes] in G. cbn in Ef. destruct (m_nodes m !! q) as [[y|]|] eqn:Eq; try discriminate Ef. injection Ef as <-.
    destruct (decide (q = a)) as [<- |Hne]; [rewrite list_lookup_insert in G by (eapply lookup_lt_Some, Eq); discriminate G|].
    rewrite list_lookup_insert_ne in G by exact Hne. exact G.
  Qed.

  Lemma step_balanced owner L ls t x : inv owner L ls -> balanced owner L ls t -> allowed owner L x ->
    exists L' s ls', life_step x L = Ok (L', s) /\ inv owner L' ls' /\ balanced owner L' ls' (fun k => charge owner k x s (t k)).
  Proof.
    intros H B Hx. destruct (step_inv owner L ls x H Hx) as (L' & s & ls' & E & H'). exists L', s, ls'. split; [exact E|]. split; [exact H'|].
    pose proof (i_lists _ _ _ H) as HL. pose proof (i_lists _ _ _ H') as HL'.
    destruct x as [|k ksp g|id gf ga dm o info dcpu dwall|id dcpu dwall|id|k|k]; cbn [life_step allowed] in *.
    - injection E as <- <-. cbn [charge].
      assert (ls' = (ls ++ [[]])%list) as -> by (eapply lists_unique; [exact HL'|apply (i_lists _ _ _ (inv_new owner L ls H))]).
      destruct B as [B1 B2]. split; [|exact B2]. intros k. rewrite <- B1. cbn [l_mem]. f_equal.
      destruct (decide (k < length ls)) as [Hlt|Hge]; [rewrite lookup_app_l by exact Hlt; reflexivity|]. rewrite (lookup_ge_None_2 ls) by lia.
      rewrite lookup_app_r by lia. destruct (k - length ls) as [|[|?]]; reflexivity.
    - destruct Hx as (Hk & Hloc & _). pose proof (Forall2_length _ _ _ HL) as Hlen.
      destruct (lookup_lt_is_Some_2 (l_lists L) k Hk) as [d Ed]. destruct (Forall2_lookup_l _ _ _ _ _ HL Ed) as (l & El & Hl).
      unfold life_configure, get in E. rewrite Ed in E. cbn [bind] in E.
      destruct (nested_spec g ksp Hloc (World (l_mem L) d (l_shells L))) as (w & Ew & new & H1 & _ & H3 & (_ & H4') & H5 & _).
      unfold setup_blasted_stack in E. cbv zeta in E. rewrite Ew in E. injection E as <- <-. cbn [w_mem w_list] in *. specialize (H1 l Hl).
      assert (forall a, a ∈ map fst new -> m_nodes (l_mem L) !! a = None /\ noted_at (m_nodes (w_mem w)) a = no_time /\
        forall c, m_nodes (w_mem w) !! a = Some (Some c) -> unused c) as Hnew.
      { intros a Ha. clear -Ha H3. induction H3 as [|b [id bs] l' sh (Hb & c & f & Hc & _ & Hfr) HF IH]; [apply elem_of_nil in Ha as []|].
        apply elem_of_cons in Ha as [-> |Ha]; [|auto]. split; [exact Hb|]. unfold noted_at. rewrite Hc. destruct Hfr as (_ & _ & _ & _ & _ & G1 & G2 & G3 & G4).
        assert (noted c = no_time) as G by (unfold noted, no_time; congruence). split; [exact G|]. intros c' [= <-] _. exact G. }
      assert (forall a l0 k0, ls !! k0 = Some l0 -> a ∈ l0 -> a < length (m_nodes (l_mem L))) as Hold.
      { intros a l0 k0 E0 Ha. destruct (Forall2_lookup_r _ _ _ _ _ HL E0) as (d0 & _ & Hl0 & _). destruct (linked_lt _ _ _ Hl0 a Ha) as [y Hy]. eapply lookup_lt_Some, Hy. }
      assert (forall k0, total (m_nodes (w_mem w)) (default [] (ls !! k0)) = t k0) as Hkept.
      { intros k0. destruct B as [B1 _]. rewrite <- B1. apply total_same. intros a Ha. destruct (ls !! k0) as [l0|] eqn:E0; [|apply elem_of_nil in Ha as []].
        unfold noted_at. rewrite H5; [reflexivity|]. eapply Hold; eassumption. }
      assert (ls' = <[k := (reverse (map fst new) ++ l)%list]> ls) as ->.
      { eapply lists_unique; [exact HL'|]. cbn [l_mem l_lists]. apply Forall2_same_length_lookup_2; [rewrite !insert_length; exact Hlen|].
        intros k0 d0 l0 E0 E1. destruct (decide (k = k0)) as [<- |Hne].
        - rewrite list_lookup_insert in E0 by lia. rewrite list_lookup_insert in E1 by lia. injection E0 as <-. injection E1 as <-. exact H1.
        - rewrite list_lookup_insert_ne in E0 by exact Hne. rewrite list_lookup_insert_ne in E1 by exact Hne.
          destruct (Forall2_lookup_lr _ _ _ _ _ _ HL E0 E1) as (G1 & G2 & G3). split; [|auto]. eapply linked_mono; [exact G1|]. intros a Ha. apply H5. eapply Hold; eassumption. }
      cbn [charge]. split; cbn [l_mem].
      + intros k0. rewrite <- (Hkept k0). destruct (decide (k = k0)) as [<- |Hne]; [|rewrite list_lookup_insert_ne by exact Hne; reflexivity].
        rewrite list_lookup_insert by lia. rewrite El. unfold from_option, Datatypes.id. rewrite total_app, total_none, plus_none; [reflexivity|]. intros a Ha. rewrite elem_of_reverse in Ha. apply Hnew, Ha.
      + intros a c Hc. destruct (decide (a < length (m_nodes (l_mem L)))) as [Hlt|Hge]; [rewrite H5 in Hc by exact Hlt; eapply (proj2 B), Hc|].
        assert (a ∈ map fst new) as Ha by (apply H4'; split; [lia|eapply lookup_lt_Some, Hc]). apply (proj2 (proj2 (Hnew a Ha))), Hc.
    - unfold life_setup in E. destruct (context_of id L) as [a|] eqn:Ectx; [|injection E as <- <-; rewrite (lists_unique _ _ _ _ HL' HL); exact B].
      apply context_Some in Ectx as [r Hs]. destruct (shell_live _ _ _ _ _ _ H Hs) as [c Hc]. simpl deref in E. rewrite Hc in E. cbn [bind] in E.
      destruct (get (l_ptr L) a) as [p| | |]; cbn [bind] in E; try discriminate E.
      destruct (compute_preconditioner_blasted gf ga dm o info dcpu dwall (l_mem L) c) as [[m' c'] s'] eqn:Ec.
      destruct (i_own _ _ _ H _ _ _ Hs) as (l & El & Ha). destruct (i_factory _ _ _ H _ _ _ _ El Ha Hc) as [Hdef _].
      destruct (i_shell _ _ _ H _ _ _ _ Hs Hc) as (_ & S2 & _).
      assert (c_first c = true -> c_bprec c <> None) as Hb by (intros Ef Eb; apply Hx, S2; assumption).
      destruct (compute_cases _ _ _ _ _ _ _ _ _ _ _ _ Hdef (i_ready _ _ _ H _ _ Hc) Hb Ec) as (_ & G1 & _ & G3 & _).
      destruct (compute_noted _ _ _ _ _ _ _ _ _ _ _ _ (proj2 B _ _ Hc) Ec) as [N1 N2].
      match type of E with bind ?A _ = _ => destruct A as [[os p']| | |] end; cbn [bind] in E; try discriminate E. rewrite G1 in E.
      assert (ls' = ls) as ->.
      { eapply lists_unique; [exact HL'|]. destruct s'; [destruct (alive os p'); [|discriminate E]| | |discriminate E]; injection E as <- <-; (eapply lists_put; [exact HL|exact Hc|exact G3]). }
      destruct s'; [destruct (alive os p'); [|discriminate E]| | |discriminate E]; injection E as <- <-; cbn [charge].
      + eapply balance_more; try eassumption. rewrite <- plus_build. exact N1.
      + eapply balance_same; eassumption.
      + eapply balance_same; eassumption.
    - unfold life_apply in E. destruct (context_of id L) as [a|] eqn:Ectx; [|injection E as <- <-; rewrite (lists_unique _ _ _ _ HL' HL); exact B].
      case_bool_decide as Hd; [|injection E as <- <-; rewrite (lists_unique _ _ _ _ HL' HL); exact B].
      apply context_Some in Ectx as [r Hs]. destruct (shell_live _ _ _ _ _ _ H Hs) as [c Hc]. simpl deref in E. rewrite Hc in E. cbn [bind] in E.
      destruct (get (l_ptr L) a) as [p| | |]; cbn [bind] in E; try discriminate. destruct (alive (l_objs L) p); [|discriminate]. injection E as <- <-.
      assert (ls' = ls) as -> by (eapply lists_unique; [exact HL'|]; eapply lists_put; [exact HL|exact Hc|reflexivity]).
      cbn [charge]. eapply balance_more; try eassumption; [rewrite <- plus_apply; reflexivity|].
      intros Ef. exfalso. destruct (i_shell _ _ _ H _ _ _ _ Hs Hc) as (_ & _ & S3). destruct (i_ready _ _ _ H _ _ Hc) as [R1 _].
      apply (S3 Hd), (R1 Ef).
    - unfold life_close in E. destruct (context_of id L) as [a|] eqn:Ectx; [|injection E as <- <-; rewrite (lists_unique _ _ _ _ HL' HL); exact B].
      destruct (deref _ _) as [c| | |]; cbn [bind] in E; try discriminate. destruct (get _ _) as [p| | |]; cbn [bind] in E; try discriminate.
      destruct (free _ _) as [os| | |]; cbn [bind] in E; try discriminate. injection E as <- <-. rewrite (lists_unique _ _ _ _ HL' HL). exact B.
    - destruct (lookup_lt_is_Some_2 (l_lists L) k Hx) as [d Ed]. unfold life_totals, get in E. rewrite Ed in E. cbn [bind] in E.
      destruct (inv_totals owner L ls k H Hx) as (_ & _ & _ & _ & _).
      destruct (computeTotalTimes (l_mem L) d) as [d'| | |] eqn:Et; cbn [bind] in E; try discriminate E. injection E as <- <-.
      assert (d_ctxlist d' = d_ctxlist d /\ d_size d' = d_size d) as [D1 D2].
      { unfold computeTotalTimes in Et. destruct (total_loop _ _ _ _) as [[[[? ?] ?] ?]| | |]; cbn [bind] in Et; try discriminate Et. injection Et as <-. auto. }
      assert (ls' = ls) as ->; [|exact B]. eapply lists_unique; [exact HL'|]. cbn [l_mem l_lists].
      apply Forall2_same_length_lookup_2; [rewrite insert_length; apply (Forall2_length _ _ _ HL)|]. intros k0 d0 l0 E0 E1. destruct (decide (k = k0)) as [<- |Hne].
      + rewrite list_lookup_insert in E0 by exact Hx. injection E0 as <-. destruct (Forall2_lookup_lr _ _ _ _ _ _ HL Ed E1) as (G1 & G2 & G3).
        split; [rewrite D1; exact G1|]. split; [exact G2|congruence].
      + rewrite list_lookup_insert_ne in E0 by exact Hne. exact (Forall2_lookup_lr _ _ _ _ _ _ HL E0 E1).
    - destruct Hx as [Hk Hsh]. destruct (inv_destroy owner L ls k H Hk) as (L1 & s1 & ls1 & E1 & H1 & Hls).
      { intros y Hy. apply Hsh. apply elem_of_list_fmap. eauto. }
      rewrite E in E1. injection E1 as <- <-. assert (ls' = ls1) as -> by (eapply lists_unique; [exact HL'|apply (i_lists _ _ _ H1)]).
      pose proof (Forall2_length _ _ _ HL) as Hlen. pose proof (Forall2_length _ _ _ HL') as Hlen'.
      destruct (lookup_lt_is_Some_2 (l_lists L) k Hk) as [d Ed]. destruct (Forall2_lookup_l _ _ _ _ _ HL Ed) as (l & El & Hl).
      assert (length (l_lists L') = length (l_lists L) /\ forall a c, m_nodes (l_mem L') !! a = Some (Some c) -> m_nodes (l_mem L) !! a = Some (Some c)) as [El' Hn].
      { unfold life_destroy, get in E. rewrite Ed in E. cbn [bind] in E. destruct (destroyBlastedDataList (l_mem L) d) as [[m' d']| | |] eqn:E48; cbn [bind] in E; try discriminate E.
        injection E as <- <-. cbn [l_lists l_mem]. rewrite insert_length. split; [reflexivity|]. unfold destroyBlastedDataList in E48.
        destruct (if d_default d then _ else _) as [fs| | |]; cbn [bind] in E48; try discriminate E48.
        destruct (destroy_loop _ _ _ _) as [[m2 sz]| | |] eqn:E2; cbn [bind] in E48; try discriminate E48. destruct (Z.eqb sz 0); [|discriminate E48]. injection E48 as <- <-.
        apply (destroy_loop_only _ _ _ _ _ _ E2). }
      split; [|intros a c Hc; eapply (proj2 B), Hn, Hc]. intros k0. cbn [charge].
      replace (match s with Fine | _ => if decide (k = k0) then no_time else t k0 end) with (if decide (k = k0) then no_time else t k0) by (destruct s; reflexivity).
      destruct (ls1 !! k0) as [l0|] eqn:E0; unfold from_option, Datatypes.id.
      + destruct (Hls _ _ E0) as [[-> ->]|[Hne E0']]; [rewrite decide_True by reflexivity; reflexivity|]. rewrite decide_False by congruence.
        rewrite <- (proj1 B k0), E0'. unfold from_option, Datatypes.id. apply total_same. intros a Ha. destruct (Forall2_lookup_r _ _ _ _ _ HL' E0) as (d0 & _ & Hl0 & _).
        destruct (linked_lt _ _ _ Hl0 a Ha) as [c Hc]. unfold noted_at. rewrite Hc, (Hn _ _ Hc). reflexivity.
      + rewrite <- (proj1 B k0). apply lookup_ge_None_1 in E0. rewrite (lookup_ge_None_2 ls) by lia. destruct (decide _); reflexivity.
  Qed.

  Lemma run_balanced owner xs : forall L ls t, inv owner L ls -> balanced owner L ls t -> follows owner xs L ->
    exists L' ls', life_run xs L = Ok L' /\ inv owner L' ls' /\ balanced owner L' ls' (fun k => account owner k xs L (t k)).
  Proof.
    induction xs as [|x xs IH]; intros L ls t H B Hf; [exists L, ls; auto|]. destruct Hf as [Hx Hf].
    destruct (step_balanced _ _ _ _ _ H B Hx) as (L1 & s & ls1 & E & H1 & B1). cbn [life_run account]. rewrite E. cbn [bind].
    destruct (IH L1 ls1 _ H1 B1 (Hf _ _ E)) as (L2 & ls2 & E2 & H2 & B2). exists L2, ls2. auto.
  Qed.
  Lemma fold_sums (cs : list ctx) f : fold_left sadd (map f cs) s0 = foldr (fun c (a : F) => (f c + a)%s) s0 cs.
  Proof.
    assert (forall a, fold_left sadd (map f cs) a = (a + foldr (fun c b => (f c + b)%s) s0 cs)%s) as G; [|rewrite G; ring].
    induction cs as [|c cs IH]; intros a; cbn; [ring|]. rewrite IH. ring.
  Qed.

  (** After any history that keeps the rules, of any length and with any number of lists, stacks and shells, computing the totals of a list
      succeeds, and the times then found in the list are those of the successful calls to the shells configured for the list, since it was
      made or last destroyed: also of shells already closed. Calls which failed, and the shells of other lists, do not count. *)
  Theorem C85_totals owner xs L k : follows owner xs life_start -> life_run xs life_start = Ok L -> k < length (l_lists L) ->
    exists L' d, life_step (Totals k) L = Ok (L', Fine) /\ l_lists L' !! k = Some d /\ reported d = account owner k xs life_start no_time.
  Proof.
    intros Hf E Hk. destruct (run_balanced owner xs _ _ (fun _ => no_time) (inv_start owner)) as (L1 & ls & E1 & H & B); [|exact Hf|].
    { split; [intros k0; rewrite lookup_nil; reflexivity|]. intros a c Hc. cbn in Hc. rewrite lookup_nil in Hc. discriminate. }
    rewrite E in E1. injection E1 as <-. rewrite <- (proj1 B k). clear B Hf E.
    destruct (lookup_lt_is_Some_2 (l_lists L) k Hk) as [d Ed]. destruct (Forall2_lookup_l _ _ _ _ _ (i_lists _ _ _ H) Ed) as (l & El & Hl).
    assert (exists cs, Forall2 (fun a c => m_nodes (l_mem L) !! a = Some (Some c)) l cs) as [cs Hcs].
    { destruct Hl as (Hl & _ & _). clear -Hl. induction Hl as [|a c l E Hl [cs IH]]; [exists []; constructor|exists (c :: cs); constructor; assumption]. }
    destruct (C50_totals _ _ _ _ Hl Hcs) as (d' & E & _ & _ & _ & T1 & T2 & T3 & T4).
    cbn [life_step]. unfold life_totals, get. rewrite Ed. cbn [bind]. rewrite E. cbn [bind]. eexists _, d'. split; [reflexivity|]. cbn [l_lists].
    split; [apply list_lookup_insert, Hk|]. rewrite El. unfold from_option, Datatypes.id. unfold reported. rewrite T1, T2, T3, T4, !fold_sums. clear -Hcs R.
    induction Hcs as [|a c l cs Hc HF IH]; [reflexivity|]. cbn [total foldr]. rewrite <- IH. unfold noted_at. rewrite Hc. reflexivity.
  Qed.
End C85.

(** Times in whole ticks. The history of C75 with times: set-ups and applications which succeed and fail, a list used again after it was
    destroyed, and shells closed before the totals are asked for *)
#[local] Instance Z_ops : SOps Z := {| s0 := 0%Z; s1 := 1%Z; sadd := Z.add; ssub := Z.sub; smul := Z.mul; sdiv := Z.div; sopp := Z.opp |}.
#[local] Instance Z_ring : CRing Z.
Proof. constructor. constructor; cbn; intros; ring. Qed.
Definition C85_g (n : nat) : @ctx Z := Ctx None None 77 "rubbish" SGS true 7 7 7 "rubbish" "rubbish" true None false 9%Z 9%Z 9%Z 9%Z None.
Definition C85_build (id : nat) (dm : bool) (o : options) (cpu wall : Z) : op Z unit := SetUp id INIT_F_NONE INIT_A_NONE dm o tt cpu wall.
Definition C85_history : list (op Z unit) :=
  [NewList; NewList; Configure 0 C75_mg C85_g; C85_build 1 false C62_options 10 11; C85_build 2 false C62_options 20 21; C85_build 3 true C62_options 30 31; Apply 1 5%Z 6%Z; Apply 3 7%Z 7%Z;
   Configure 1 (KShell 14 true false 1) C85_g; C85_build 14 false C62_options 40 41; Close 14; Totals 1; Destroy 1; Configure 1 (KShell 14 true false 1) C85_g; C85_build 14 false C62_options 50 51;
   C85_build 1 false C62_options 60 61; Apply 14 3%Z 4%Z; Apply 14 3%Z 4%Z; Close 1; Close 2].
Example C85_case : follows C75_owner C85_history life_start /\
  exists L, life_run C85_history life_start = Ok L /\ length (l_lists L) = 2 /\
    account C75_owner 0 C85_history life_start no_time = (90, 93, 5, 6)%Z /\ account C75_owner 1 C85_history life_start no_time = (50, 51, 6, 8)%Z.
Proof.
  split; [|eexists; split; [vm_compute; reflexivity|]; split; [reflexivity|]; split; vm_compute; reflexivity].
  unfold C85_history. repeat (cbn [follows]; split; [C75_allowed|intros ? ? E; vm_compute in E; injection E as <- <-]). exact Logic.I.
Qed.
(** a new context is not used; every call ends with some outcome, so that the single-call theorems speak of something *)
Example C85_call_case (g : @ctx Z) : unused (newBlastedDataContext g) /\
  exists c, apply_local_blasted false 1 (Fresh (fun _ _ => 0%Z) (fun _ _ => 0) (fun _ => 0%Z)) 3%Z 4%Z (SR [0; 0] [] [] [0] [0] 1 0 0)
    (Ctx (Some (PNone 1)) None 1 "none" NO_PREC false 1 1 1 "" "" false None true 1%Z 2%Z 3%Z 4%Z None)
    (p_new {| rtol := 0%Z; atol := 0%Z; dtol := 0%Z; ctol := false; maxits := 1 |}) [5]%Z [0]%Z (Ok (After c
    (p_new {| rtol := 0%Z; atol := 0%Z; dtol := 0%Z; ctol := false; maxits := 1 |}) (Some [5]%Z) false Fine)) /\ noted c = (1, 2, 6, 8)%Z.
Proof.
  split; [intros _; reflexivity|]. eexists. split.
  2:{ instantiate (1 := Ctx _ _ _ _ _ _ _ _ _ _ _ _ _ _ 1%Z 2%Z 6%Z 8%Z _). reflexivity. }
  set (st := p_new _). unfold apply_local_blasted. cbn [c_bprec andb]. exists (Ok (inl (st, [5%Z]))). split; [|reflexivity].
  exists (Ok (st, [5%Z])). split; [|reflexivity]. exists (Ok [5%Z]). split; [|reflexivity]. exists [0]. split; [reflexivity|vm_compute; reflexivity].
Qed.

Print Assumptions C85_set_up.
Print Assumptions C85_application.
Print Assumptions C85_relaxation.
Print Assumptions C85_totals.
