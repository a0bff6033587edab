(** * PropLife: whole histories of calls through PETSc (C75) *)
From Coq Require Import ZArith.
From Verif Require Import Base Alg SRMatrix IluApply IluFactor Factory Petsc PropPetscList PropPetscSetup Life LifeFacts.
Local Open Scope string_scope.

Section C75.
  Context {F : Type} {O : SOps F} {I : Type}.
  Local Notation life := (life F I). Local Notation op := (op F I).
  Implicit Types (L : life) (x : op) (xs : list op).

  (** ** Specification *)
  (** the shells which exist *)
  Definition existing L : list nat := map (fun s => s.1.1) (l_shells L).
  (** The rules of include/blasted_petsc.h:93-111 and 133-140. A stack is configured once, each of its shells for one list ([owner]), with
      local solvers only. A list is destroyed after the shells configured for it. A shell whose set-up failed is not set up again. *)
  Definition allowed (owner : nat -> nat) L x : Prop :=
    match x with
    | Configure k ksp _ => k < length (l_lists L) /\ local_stack ksp = true /\ NoDup (map fst (shells ksp)) /\
        forall id, id ∈ map fst (shells ksp) -> owner id = k /\ id ∉ existing L
    | SetUp id _ _ _ _ _ _ _ => id ∉ l_failed L
    | Totals k => k < length (l_lists L)
    | Destroy k => k < length (l_lists L) /\ forall id, id ∈ existing L -> owner id <> k
    | NewList | Apply _ _ _ | Close _ => True
    end.
  Fixpoint follows (owner : nat -> nat) xs L : Prop :=
    match xs with
    | [] => True
    | x :: xs => allowed owner L x /\ forall L' s, life_step x L = Ok (L', s) -> follows owner xs L'
    end.
  (** the shell [id] exists and [p] is its preconditioner *)
  Definition preconditioner_of L (id p : nat) : Prop := exists a, context_of id L = Some a /\ l_ptr L !! a = Some (Some p).
  (** the context at [a] is in list [k] *)
  Definition in_list L (k a : nat) : Prop := exists d l, l_lists L !! k = Some d /\ is_list (l_mem L) d l /\ a ∈ l.

  Lemma step_inv owner L ls x : inv owner L ls -> allowed owner L x -> exists L' s ls', life_step x L = Ok (L', s) /\ inv owner L' ls'.
  Proof.
    intros H Hx. destruct x as [|k ksp g|id gf ga dm o info dcpu dwall|id dcpu dwall|id|k|k]; cbn [life_step allowed] in *.
    - eexists _, _, _. split; [reflexivity|]. apply inv_new, H.
    - destruct Hx as (H1 & H2 & H3 & H4). destruct (inv_configure owner L ls k ksp g H H1 H2 H3 H4) as (L' & ls' & E & G). eauto.
    - apply (inv_setup owner L ls), Hx. exact H.
    - apply (inv_apply owner L ls), H.
    - apply (inv_close owner L ls), H.
    - apply (inv_totals owner L ls k); assumption.
    - destruct Hx as [H1 H2]. destruct (inv_destroy owner L ls k H H1) as (L' & s & ls' & E & G & _); [|eauto].
      intros s Hs. apply H2. apply elem_of_list_fmap. eauto.
  Qed.
  Lemma run_inv owner xs : forall L ls, inv owner L ls -> follows owner xs L -> exists L' ls', life_run xs L = Ok L' /\ inv owner L' ls'.
  Proof.
    induction xs as [|x xs IH]; intros L ls H Hf; [exists L, ls; auto|]. destruct Hf as [Hx Hf].
    destruct (step_inv _ _ _ _ H Hx) as (L1 & s & ls1 & E & H1). cbn [life_run]. rewrite E. cbn [bind]. apply (IH L1 ls1 H1), (Hf _ _ E).
  Qed.

  (** ** C75 *)
  (** Whatever a program that keeps the rules does, nothing is used after it was deleted, nothing is deleted twice, no null pointer is
      followed and no exception is thrown *)
  Theorem C75_no_invalid_use owner xs : follows owner xs life_start -> exists L, life_run xs life_start = Ok L.
  Proof. intros H. destruct (run_inv owner xs _ _ (inv_start owner) H) as (L & ls & E & _). eauto. Qed.

  (** At any time every preconditioner object is that of one existing shell, every context is in one of the lists, and every diagnostics
      object belongs to one context: nothing is lost *)
  Theorem C75_owned owner xs L : follows owner xs life_start -> life_run xs life_start = Ok L ->
    (forall p, live (l_objs L) p -> exists id, id ∈ existing L /\ forall id', preconditioner_of L id' p <-> id' = id) /\
    (forall a, live (m_nodes (l_mem L)) a -> exists k, forall k', in_list L k' a <-> k' = k) /\
    (forall i, live (m_infos (l_mem L)) i -> exists a, live (m_nodes (l_mem L)) a /\
       forall a' c, m_nodes (l_mem L) !! a' = Some (Some c) -> (c_infolist c = Some i <-> a' = a)).
  Proof.
    intros Hf E. destruct (run_inv owner xs _ _ (inv_start owner) Hf) as (L1 & ls & E1 & H). rewrite E in E1. injection E1 as <-.
    assert (forall id a r, (id, a, r) ∈ l_shells L -> context_of id L = Some a) as Hctx.
    { intros id a r Hs. destruct (context_of id L) as [a'|] eqn:Ec; [|exfalso; eapply context_None; eassumption].
      apply context_Some in Ec as [r' Hs']. f_equal. destruct (same_id _ _ _ _ _ _ (i_ids _ _ _ H) Hs Hs') as [-> _]. reflexivity. }
    assert (forall d l l', is_list (l_mem L) d l -> is_list (l_mem L) d l' -> l = l') as Huniq.
    { intros d l l' (H1 & _) (H2 & _). revert l' H2. induction H1 as [|a c l Ea H1 IH]; intros l' H2; inversion H2 as [|a' c' l'' Ea' H2']; subst; [reflexivity|].
      f_equal. apply IH. rewrite Ea in Ea'. injection Ea' as <-. exact H2'. }
    split; [|split].
    - intros p Hp. destruct (i_obj _ _ _ H p Hp) as (id & a & r & Hs & Hptr). exists id. split; [apply elem_of_list_fmap; exists (id, a, r); auto|].
      intros id'. split; [|intros ->; exists a; eauto]. intros (a' & Ec & Hp'). pose proof (i_inj _ _ _ H _ _ _ Hptr Hp') as <-. apply context_Some in Ec as [r' Hs'].
      destruct (same_addr _ _ _ _ _ _ (i_addr _ _ _ H) Hs Hs') as [-> _]. reflexivity.
    - intros a Ha. destruct (i_all _ _ _ H a Ha) as (k & l & El & Hl). exists k.
      destruct (Forall2_lookup_r _ _ _ _ _ (i_lists _ _ _ H) El) as (d & Ed & Hd). intros k'. split; [|intros ->; exists d, l; auto].
      intros (d' & l' & Ed' & Hd' & Hl'). destruct (Forall2_lookup_l _ _ _ _ _ (i_lists _ _ _ H) Ed') as (l2 & El2 & Hd2).
      rewrite (Huniq _ _ _ Hd' Hd2) in Hl'. apply (i_apart _ _ _ H _ _ _ _ _ El2 El Hl' Hl).
    - intros i Hi. destruct (i_info_all _ _ _ H i Hi) as (a & c & Hc & Ei). exists a. split; [exists c; exact Hc|]. intros a' c' Hc'. split.
      + intros Ei'. apply (i_info_inj _ _ _ H _ _ _ _ _ Hc' Hc Ei' Ei).
      + intros ->. congruence.
  Qed.

  (** When all shells are closed and all lists are empty nothing is left *)
  Theorem C75_nothing_left owner xs L : follows owner xs life_start -> life_run xs life_start = Ok L ->
    existing L = [] -> Forall (fun d => d_size d = 0%Z) (l_lists L) ->
    (forall p, ~ live (l_objs L) p) /\ (forall a, ~ live (m_nodes (l_mem L)) a) /\ (forall i, ~ live (m_infos (l_mem L)) i).
  Proof.
    intros Hf E Hs Hd. destruct (C75_owned owner xs L Hf E) as (H1 & H2 & H3).
    assert (forall a, ~ live (m_nodes (l_mem L)) a) as Hn.
    { intros a Ha. destruct (H2 a Ha) as (k & Hk). destruct (proj2 (Hk k) eq_refl) as (d & l & Ed & (_ & _ & Hsz) & Hl). rewrite Forall_lookup in Hd. rewrite (Hd _ _ Ed) in Hsz.
      destruct l; [apply elem_of_nil in Hl as []|discriminate]. }
    split; [|split; [exact Hn|]].
    - intros p Hp. destruct (H1 p Hp) as (id & Hid & _). rewrite Hs in Hid. apply elem_of_nil in Hid as [].
    - intros i Hi. destruct (H3 i Hi) as (a & Ha & _). apply (Hn a Ha).
  Qed.
  (** Closing a shell and destroying a list do what they say: the shell no longer exists, the list is empty *)
  Theorem C75_end owner xs L : follows owner xs life_start -> life_run xs life_start = Ok L ->
    (forall id, exists L', life_step (Close id) L = Ok (L', Fine) /\ id ∉ existing L' /\ (forall j, j ∈ existing L -> j <> id -> j ∈ existing L') /\ l_lists L' = l_lists L) /\
    (forall k, allowed owner L (Destroy k) -> exists L' d, life_step (Destroy k) L = Ok (L', Fine) /\ l_lists L' = <[k := d]> (l_lists L) /\ d_size d = 0%Z /\ l_shells L' = l_shells L).
  Proof.
    intros Hf E. destruct (run_inv owner xs _ _ (inv_start owner) Hf) as (L1 & ls & E1 & H). rewrite E in E1. injection E1 as <-. split.
    - intros id. destruct (inv_close owner L ls id H) as (L' & s & ls' & Ec & _). cbn [life_step]. unfold life_close in *.
      destruct (context_of id L) as [a|] eqn:Ectx.
      + destruct (deref _ _) as [c| | |]; cbn [bind] in *; try discriminate. destruct (get (l_ptr L) a) as [p| | |]; cbn [bind] in *; try discriminate.
        destruct (free _ _) as [objs| | |]; cbn [bind] in *; try discriminate. eexists. split; [reflexivity|]. unfold existing. cbn [l_shells l_lists]. split; [|split; [|reflexivity]].
        * intros Hi. apply elem_of_list_fmap in Hi as (y & -> & Hy). apply elem_of_list_filter in Hy as [Hy _]. apply Hy. reflexivity.
        * intros j Hj Hne. apply elem_of_list_fmap in Hj as (y & -> & Hy). apply elem_of_list_fmap. exists y. split; [reflexivity|]. apply elem_of_list_filter. auto.
      + eexists. split; [reflexivity|]. split; [|auto]. intros Hi. apply elem_of_list_fmap in Hi as ([[id' a] r] & Eid & Hy). cbn in Eid. subst id'. eapply context_None; eassumption.
    - intros k [Hk Hsh]. destruct (inv_destroy owner L ls k H Hk) as (L' & s & ls' & Ed & H' & Hls).
      { intros s Hs. apply Hsh. apply elem_of_list_fmap. eauto. }
      cbn [life_step]. pose proof Ed as Ed'. unfold life_destroy in Ed'. destruct (get (l_lists L) k) as [d| | |]; cbn [bind] in Ed'; try discriminate.
      destruct (destroyBlastedDataList (l_mem L) d) as [[m' d']| | |] eqn:E48; cbn [bind] in Ed'; try discriminate. injection Ed' as EL Es. subst s.
      exists L', d'. split; [exact Ed|]. rewrite <- EL. cbn [l_lists l_shells]. split; [reflexivity|]. split; [|reflexivity].
      unfold destroyBlastedDataList in E48. destruct (if d_default d then _ else _) as [fs| | |]; cbn [bind] in E48; try discriminate.
      destruct (destroy_loop _ _ _ _) as [[m2 sz]| | |]; cbn [bind] in E48; try discriminate. destruct (Z.eqb sz 0) eqn:Ez; [|discriminate]. apply Z.eqb_eq in Ez. injection E48 as <- <-. exact Ez.
  Qed.

  (** The order matters, and breaking it does more than leak memory: once a list is destroyed, closing any shell configured for it is a
      use after free, and so is applying one that was set up *)
  Theorem C75_order_refuted owner xs L k : follows owner xs life_start -> life_run xs life_start = Ok L -> k < length (l_lists L) ->
    exists L', life_step (Destroy k) L = Ok (L', Fine) /\
      forall id, id ∈ existing L -> owner id = k ->
        life_step (Close id) L' = UB /\ (id ∈ l_done L -> forall dcpu dwall, life_step (Apply id dcpu dwall) L' = UB).
  Proof.
    intros Hf E Hk. destruct (run_inv owner xs _ _ (inv_start owner) Hf) as (L1 & ls & E1 & H). rewrite E in E1. injection E1 as <-.
    (* forget the shells of the list: the list can be destroyed, and its shells are not looked at *)
    set (L0 := Life (l_mem L) (l_lists L) [] (l_ptr L) (replicate (length (l_objs L)) None) [] []).
    assert (inv owner L0 ls) as H0.
    { destruct H. constructor; cbn [l_mem l_lists l_shells l_ptr l_objs l_done l_failed L0]; try assumption.
      - intros a p Hp. rewrite replicate_length. eauto.
      - intros p [y Hy]. apply lookup_replicate in Hy as [Hy _]. discriminate.
      - constructor.
      - constructor.
      - intros id a r Hs. apply elem_of_nil in Hs as [].
      - intros id a r c Hs. apply elem_of_nil in Hs as [].
      - intros id [Hs|Hs]; apply elem_of_nil in Hs as []. }
    destruct (inv_destroy owner L0 ls k H0 Hk) as (L2 & s & ls2 & Ed & H2 & Hls).
    { intros s Hs. apply elem_of_nil in Hs as []. }
    unfold life_destroy in Ed. cbn [l_mem l_lists L0] in Ed. cbn [life_step]. unfold life_destroy.
    destruct (get (l_lists L) k) as [d| | |]; cbn [bind] in *; try discriminate. destruct (destroyBlastedDataList (l_mem L) d) as [[m' d']| | |]; cbn [bind] in *; try discriminate.
    injection Ed as <- <-. eexists. split; [reflexivity|]. intros id Hid Ho.
    apply elem_of_list_fmap in Hid as ([[id' a] r] & Eid & Hs). cbn in Eid. subst id'.
    set (L' := Life m' (<[k := d']> (l_lists L)) (l_shells L) (l_ptr L) (l_objs L) (l_done L) (l_failed L)).
    assert (context_of id L' = Some a) as Hctx.
    { change (context_of id L') with (context_of id L). destruct (context_of id L) as [a'|] eqn:Ec; [|exfalso; eapply context_None; eassumption].
      apply context_Some in Ec as [r' Hs']. f_equal. destruct (same_id _ _ _ _ _ _ (i_ids _ _ _ H) Hs Hs') as [-> _]. reflexivity. }
    assert (deref (m_nodes m') (Some a) = UB) as Hdead.
    { cbn [deref]. destruct (m_nodes m' !! a) as [[c|]|] eqn:Ea; try reflexivity. exfalso.
      destruct (i_all _ _ _ H2 a) as (j & l & Ej & Hl); [exists c; exact Ea|]. destruct (Hls _ _ Ej) as [[-> ->]|[Hne Ej']]; [apply elem_of_nil in Hl as []|].
      destruct (i_own _ _ _ H _ _ _ Hs) as (l1 & El1 & Hl1). apply Hne. rewrite (i_apart _ _ _ H _ _ _ _ _ Ej' El1 Hl Hl1). exact Ho. }
    split.
    - unfold life_close. rewrite Hctx. cbn [l_mem L']. rewrite Hdead. reflexivity.
    - intros Hd dcpu dwall. unfold life_apply. rewrite Hctx. rewrite bool_decide_eq_true_2 by exact Hd. cbn [l_mem L']. rewrite Hdead. reflexivity.
  Qed.

  (** Configuring a shell again without closing it first loses the preconditioner it had: the object still exists, but no shell has it *)
  Theorem C75_twice_refuted owner xs L id p k block bs g : follows owner xs life_start -> life_run xs life_start = Ok L ->
    preconditioner_of L id p -> live (l_objs L) p -> k < length (l_lists L) ->
    exists L', life_step (Configure k (KShell id true block bs) g) L = Ok (L', Fine) /\ live (l_objs L') p /\ forall id', ~ preconditioner_of L' id' p.
  Proof.
    intros Hf E Hpre Hp Hk. destruct (C75_owned owner xs L Hf E) as (Hown & _ & _).
    destruct (run_inv owner xs _ _ (inv_start owner) Hf) as (L1 & ls & E1 & H). rewrite E in E1. injection E1 as <-.
    destruct (lookup_lt_is_Some_2 (l_lists L) k Hk) as [d Ed]. cbn [life_step]. unfold life_configure, get. rewrite Ed. cbn [bind].
    destruct (nested_spec g (KShell id true block bs) eq_refl (World (l_mem L) d (l_shells L))) as (w & Ew & new & _ & H2 & H3 & _).
    unfold setup_blasted_stack. cbv zeta. rewrite Ew. cbn [shells w_mem w_shells] in *. inversion H3 as [|a ? l ? Hnew H3' Ea]; subst. inversion H3'; subst.
    destruct new as [|[a' r] [|? ?]]; try discriminate. cbn in Ea. injection Ea as ->. destruct Hnew as [Hnew _]. cbn [zip_with] in H2.
    eexists. split; [reflexivity|]. split; [exact Hp|]. intros id' (b & Hc & Hb). cbn [l_ptr] in Hb.
    apply lookup_app_Some in Hb as [Hb|[_ Hb]]; [|apply lookup_replicate in Hb as [Hb _]; discriminate].
    unfold context_of in Hc. cbn [l_shells] in Hc. rewrite H2, filter_app in Hc. destruct (decide (id' = id)) as [-> |Hne].
    - rewrite filter_cons_True in Hc by reflexivity. rewrite filter_nil, last_snoc in Hc. injection Hc as ->.
      apply lookup_lt_Some in Hb. rewrite (i_len _ _ _ H) in Hb. apply lookup_ge_None_1 in Hnew. lia.
    - rewrite filter_cons_False in Hc by (cbn; congruence). rewrite filter_nil, app_nil_r in Hc. destruct (Hown p Hp) as (id1 & _ & Hid).
      assert (preconditioner_of L id' p) as G by (exists b; auto). apply Hne. rewrite (proj1 (Hid id') G). symmetry. apply Hid, Hpre.
  Qed.
End C75.

(** Two lists; a multigrid solver with two smoothers and a single shell; set-ups that succeed, fail and are repeated; one list is destroyed
    and used again *)
Definition C75_g (n : nat) : @ctx unit := Ctx None None 77 "rubbish" SGS true 7 7 7 "rubbish" "rubbish" true None false tt tt tt tt None.
Definition C75_set_up (id : nat) (dm : bool) (o : options) : op unit unit := SetUp id INIT_F_NONE INIT_A_NONE dm o tt tt tt.
Definition C75_bad : options := Options None None None None None None None.
Definition C75_mg : solver := KMultigrid (KShell 3 true false 1) [KShell 1 true true 4; KInner (KShell 2 true true 5)].
Definition C75_history : list (op unit unit) :=
  [NewList; NewList; Configure 0 C75_mg C75_g; C75_set_up 1 false C62_options; C75_set_up 2 false C62_options; C75_set_up 3 true C62_options; Apply 1 tt tt; Apply 3 tt tt;
   Configure 1 (KShell 14 true false 1) C75_g; C75_set_up 14 false C75_bad; Close 14; Totals 1; Destroy 1; Configure 1 (KShell 14 true false 1) C75_g; C75_set_up 14 false C62_options;
   C75_set_up 1 false C62_options; Apply 14 tt tt; Close 1; Close 2; Close 3; Totals 0; Destroy 0; Apply 14 tt tt; Close 14; Destroy 1].
Definition C75_owner (id : nat) : nat := if decide (id < 10) then 0 else 1.
Local Existing Instance unit_ops.
Ltac C75_allowed :=
  cbn [allowed C75_set_up];
  lazymatch goal with
  | |- True => exact Logic.I
  | |- _ /\ _ /\ _ /\ _ => split; [apply (bool_decide_unpack _); vm_compute; exact Logic.I|]; split; [reflexivity|]; split; [apply (bool_decide_unpack _); vm_compute; exact Logic.I|];
      cbn; intros id Hid; rewrite !elem_of_cons, elem_of_nil in Hid; repeat (destruct Hid as [-> |Hid]; [split; [reflexivity|apply (bool_decide_unpack _); vm_compute; exact Logic.I]|]); destruct Hid
  | |- _ /\ _ => split; [apply (bool_decide_unpack _); vm_compute; exact Logic.I|];
      cbn; intros id Hid; rewrite ?elem_of_cons, elem_of_nil in Hid; repeat (destruct Hid as [-> |Hid]; [vm_compute; discriminate|]); destruct Hid
  | |- _ => apply (bool_decide_unpack _); vm_compute; exact Logic.I
  end.
Example C75_case : follows C75_owner C75_history life_start /\
  exists L, life_run C75_history life_start = Ok L /\ existing L = [] /\ Forall (fun d => d_size d = 0%Z) (l_lists L) /\
    length (m_nodes (l_mem L)) = 5 /\ length (l_objs L) = 3 /\ length (m_infos (l_mem L)) = 3.
Proof.
  split; [|eexists; split; [vm_compute; reflexivity|]; split; [reflexivity|]; split; [repeat constructor|repeat split; reflexivity]].
  unfold C75_history. repeat (cbn [follows]; split; [C75_allowed|intros ? ? E; vm_compute in E; injection E as <- <-]). exact Logic.I.
Qed.
(** Destroying the list first, and configuring a shell twice *)
Example C75_wrong_cases :
  life_run [NewList; Configure 0 (KShell 14 true false 1) C75_g; C75_set_up 14 false C62_options; Destroy 0; Close 14] life_start = UB /\
  (exists L, life_run [NewList; Configure 0 (KShell 14 true false 1) C75_g; C75_set_up 14 false C62_options; Configure 0 (KShell 14 true false 1) C75_g;
     C75_set_up 14 false C62_options; Close 14; Destroy 0] life_start = Ok L /\ existing L = [] /\ l_objs L = [Some tt; None]).
Proof. split; [vm_compute; reflexivity|]. eexists. split; [vm_compute; reflexivity|]. split; reflexivity. Qed.

Print Assumptions C75_no_invalid_use.
Print Assumptions C75_owned.
Print Assumptions C75_nothing_left.
Print Assumptions C75_end.
Print Assumptions C75_order_refuted.
Print Assumptions C75_twice_refuted.
