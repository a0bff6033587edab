(** * PropPetscList: the list of contexts, the solver stack and the total times (C48, C49, C50, C63) *)
From Coq Require Import ZArith.
From Verif Require Import Base Alg SRMatrix IluApply IluFactor Factory Petsc.
Local Open Scope string_scope.

Section Lists.
  Context {F : Type} {O : SOps F} {I : Type}.
  Local Notation ctx := (@ctx F). Local Notation mem := (@mem F I). Local Notation dlist := (@dlist F). Local Notation world := (@world F I).
  Implicit Types (c : ctx) (m : mem) (d : dlist) (w : world).

  (** ** Specification *)
  (** Following the links from [p] leads through the addresses [l] *)
  Inductive linked (nodes : list (option ctx)) : option nat -> list nat -> Prop :=
  | linked_nil : linked nodes None []
  | linked_cons a c l : nodes !! a = Some (Some c) -> linked nodes (c_next c) l -> linked nodes (Some a) (a :: l).
  (** [d] is a list of the contexts at [l], each once, and knows their number *)
  Definition is_list m d (l : list nat) : Prop := linked (m_nodes m) (d_ctxlist d) l /\ NoDup l /\ d_size d = Z.of_nat (length l).
  (** the context at [a] is [c], apart from its link *)
  Definition holds m (a : nat) c : Prop := exists n, m_nodes m !! a = Some (Some (set_next c n)).
  (** an object of kind [A] lives at [a] *)
  Definition live {A} (l : list (option A)) (a : nat) : Prop := exists x, l !! a = Some (Some x).
  (** the diagnostics of the contexts at [l] are separate live objects *)
  Definition infos_of m (l : list nat) (is_ : list nat) : Prop :=
    exists cs, Forall2 (fun a c => m_nodes m !! a = Some (Some c)) l cs /\ is_ = omap c_infolist cs /\ NoDup is_ /\ forall i, i ∈ is_ -> live (m_infos m) i.

  Lemma linked_lt nodes p l : linked nodes p l -> forall a, a ∈ l -> live nodes a.
  Proof. induction 1 as [|a c l E H IH]; intros b Hb; [apply elem_of_nil in Hb as []|]. apply elem_of_cons in Hb as [-> | Hb]; [exists c; exact E|auto]. Qed.
  Lemma linked_mono nodes nodes' p l : linked nodes p l -> (forall a, a ∈ l -> nodes' !! a = nodes !! a) -> linked nodes' p l.
  Proof.
    induction 1 as [|a c l E H IH]; intros Hs; [constructor|]. econstructor; [rewrite Hs by (constructor); exact E|]. apply IH. intros b Hb. apply Hs. constructor. exact Hb.
  Qed.
  Lemma linked_length nodes p l : linked nodes p l -> NoDup l -> length l <= length nodes.
  Proof.
    intros H Hn. rewrite <- (seq_length (length nodes) 0). apply submseteq_length, NoDup_submseteq; [exact Hn|].
    intros a Ha. destruct (linked_lt _ _ _ H a Ha) as [x Hx]. apply elem_of_seq. apply lookup_lt_Some in Hx. lia.
  Qed.
  (** exactly the objects at [l] have been deleted *)
  Definition deleted {A} (before after : list (option A)) (l : list nat) : Prop :=
    forall a, after !! a = if decide (a ∈ l) then Some None else before !! a.

  Lemma free_spec {A} (l : list (option A)) a : live l a -> free l (Some a) = Ok (<[a := None]> l) /\ deleted l (<[a := None]> l) [a].
  Proof.
    intros [x Hx]. split; [simpl; rewrite Hx; reflexivity|]. intros b. destruct (decide (b ∈ [a])) as [Hb|Hb].
    - apply elem_of_list_singleton in Hb as ->. apply list_lookup_insert. eapply lookup_lt_Some, Hx.
    - apply list_lookup_insert_ne. intros ->. apply Hb, elem_of_list_singleton. reflexivity.
  Qed.
  Lemma deleted_app {A} (x y z : list (option A)) l l' : deleted x y l -> deleted y z l' -> deleted x z (l ++ l')%list.
  Proof.
    intros H H' a. rewrite H', H. destruct (decide (a ∈ l')), (decide (a ∈ l)), (decide (a ∈ l ++ l')%list) as [Hc|Hc]; try reflexivity; exfalso;
      rewrite elem_of_app in Hc; tauto.
  Qed.
  Lemma deleted_nil {A} (x : list (option A)) : deleted x x [].
  Proof. intros a. rewrite decide_False by apply not_elem_of_nil. reflexivity. Qed.

  Lemma destroy_loop_spec n : forall m p l is_ sz, linked (m_nodes m) p l -> NoDup l -> length l <= n -> infos_of m l is_ ->
    exists m', destroy_loop n m p sz = Ok (m', (sz - Z.of_nat (length l))%Z) /\
      deleted (m_nodes m) (m_nodes m') l /\ deleted (m_infos m) (m_infos m') is_ /\ m_facts m' = m_facts m.
  Proof.
    induction n as [|n IH]; intros m p l is_ sz Hl Hn Hlen (cs & HF & -> & Hni & Hlive).
    - destruct Hl as [|a c l E H]; [|simpl in Hlen; lia]. inversion HF; subst. exists m. simpl. rewrite Z.sub_0_r. auto using deleted_nil.
    - destruct Hl as [|a c l E H].
      + inversion HF; subst. exists m. simpl. rewrite Z.sub_0_r. auto using deleted_nil.
      + inversion HF as [|? c' ? cs' E' HF']; subst. rewrite E in E'. injection E' as <-. simpl in Hlen. apply NoDup_cons in Hn as [Ha Hn].
        simpl. rewrite E. cbn [bind].
        assert (exists infos, free (m_infos m) (c_infolist c) = Ok infos /\ deleted (m_infos m) infos (option_list (c_infolist c))) as (infos & Ei & Hdi).
        { destruct (c_infolist c) as [i|] eqn:Ec; [|exists (m_infos m); simpl; auto using deleted_nil].
          destruct (free_spec (m_infos m) i) as [E1 E2]; [apply Hlive; simpl; rewrite Ec; left|]. eauto. }
        rewrite Ei. cbn [bind].
        destruct (free_spec (m_nodes m) a) as [_ Hdn]; [exists c; exact E|].
        destruct (IH (Mem (<[a := None]> (m_nodes m)) infos (m_facts m)) (c_next c) l (omap c_infolist cs') (sz - 1)%Z) as (m' & E1 & E2 & E3 & E4).
        * eapply linked_mono; [exact H|]. intros b Hb. apply list_lookup_insert_ne. intros ->. contradiction.
        * exact Hn.
        * lia.
        * exists cs'. simpl in *.
          assert (forall i, c_infolist c = Some i -> i ∉ omap c_infolist cs') as Hnot.
          { intros i Hi. rewrite Hi in Hni. apply NoDup_cons in Hni as [Hni _]. exact Hni. }
          assert (NoDup (omap c_infolist cs')) as Hni'.
          { destruct (c_infolist c); [apply NoDup_cons in Hni as [_ Hni]|]; exact Hni. }
          split; [|split; [reflexivity|split; [exact Hni'|]]].
          -- clear -HF' Ha. assert (forall b, b ∈ l -> b <> a) as Hne by (intros b Hb ->; contradiction). clear Ha. induction HF' as [|b c' l cs' Hb HF IH]; constructor.
             ++ rewrite list_lookup_insert_ne; [exact Hb|]. intros ->. apply (Hne b); [left|reflexivity].
             ++ apply IH. intros b' Hb'. apply Hne. right. exact Hb'.
          -- intros i Hi. destruct (Hlive i) as [x Hx]; [destruct (c_infolist c); [right|]; exact Hi|]. exists x. rewrite Hdi.
             rewrite decide_False; [exact Hx|]. destruct (c_infolist c) as [i'|] eqn:Ec; simpl; [|apply not_elem_of_nil].
             intros Hc. apply elem_of_list_singleton in Hc as ->. apply (Hnot i' eq_refl), Hi.
        * exists m'. split; [rewrite E1; f_equal; f_equal; lia|]. split; [apply (deleted_app _ _ _ [a] l Hdn E2)|]. split; [|exact E4].
          simpl. destruct (c_infolist c) as [i|]; simpl in *; [apply (deleted_app _ _ _ [i] _ Hdi E3)|].
          intros b. rewrite E3, Hdi. rewrite (decide_False (P := b ∈ [])) by apply not_elem_of_nil. reflexivity.
  Qed.

  (** ** C48 *)
  (** a new list is empty *)
  Theorem C48_new m : is_list m newBlastedDataList [].
  Proof. split; [constructor|]. split; [constructor|reflexivity]. Qed.
  (** ... with all totals zero and no factory; a new context points to nothing, is not set up and has all times zero, whatever the memory held *)
  Theorem C48_new_values (g : ctx) :
    let d := newBlastedDataList : dlist in let c := newBlastedDataContext g in
    d_fcpu d = s0 /\ d_fwall d = s0 /\ d_acpu d = s0 /\ d_awall d = s0 /\ d_factory d = None /\ d_default d = false /\
    c_bprec c = None /\ c_infolist c = None /\ c_first c = false /\ c_next c = None /\ c_fcpu c = s0 /\ c_fwall c = s0 /\ c_acpu c = s0 /\ c_awall c = s0.
  Proof. cbn. auto 20. Qed.
  (** appending puts a context in front; the others, and all other memory, are unchanged *)
  Theorem C48_append m d l bd m' d' : is_list m d l -> appendBlastedDataContext m d bd = (m', d') ->
    exists a, is_list m' d' (a :: l) /\ holds m' a bd /\ m_nodes m !! a = None /\
      (forall b, b < length (m_nodes m) -> m_nodes m' !! b = m_nodes m !! b) /\ m_infos m' = m_infos m /\ m_facts m' = m_facts m /\
      d_factory d' = d_factory d /\ d_default d' = d_default d.
  Proof.
    intros (Hl & Hn & Hs). unfold appendBlastedDataContext. intros [= <- <-]. exists (length (m_nodes m)).
    assert (forall b, b < length (m_nodes m) -> (m_nodes m ++ [Some (set_next bd (d_ctxlist d))])%list !! b = m_nodes m !! b) as Hb by (intros b Hb; apply lookup_app_l, Hb).
    assert (forall b, b ∈ l -> b < length (m_nodes m)) as Hlt by (intros b Hb'; destruct (linked_lt _ _ _ Hl b Hb') as [x Hx]; eapply lookup_lt_Some, Hx).
    split; [|split; [|split; [|split; [exact Hb|auto]]]].
    - split; [|split].
      + simpl. econstructor; [apply list_lookup_middle; reflexivity|]. simpl. eapply linked_mono; [exact Hl|]. intros b Hb'. apply Hb, Hlt, Hb'.
      + apply NoDup_cons. split; [|exact Hn]. intros Hc. apply Hlt in Hc. lia.
      + simpl. rewrite Hs. lia.
    - eexists. simpl. apply list_lookup_middle. reflexivity.
    - apply lookup_ge_None_2. lia.
  Qed.
  Fixpoint append_all (bds : list ctx) m d : mem * dlist :=
    match bds with [] => (m, d) | bd :: bds => let '(m, d) := appendBlastedDataContext m d bd in append_all bds m d end.
  (** any number of appends: as many contexts, last in first *)
  Theorem C48_appends bds : forall m d l m' d', is_list m d l -> append_all bds m d = (m', d') ->
    exists l', is_list m' d' (l' ++ l)%list /\ d_size d' = (d_size d + Z.of_nat (length bds))%Z /\ Forall2 (holds m') l' (reverse bds) /\
      (forall b, b < length (m_nodes m) -> m_nodes m' !! b = m_nodes m !! b) /\ (forall a, a ∈ l' -> m_nodes m !! a = None) /\
      m_infos m' = m_infos m /\ m_facts m' = m_facts m /\ d_factory d' = d_factory d /\ d_default d' = d_default d.
  Proof.
    induction bds as [|bd bds IH]; intros m d l m' d' Hl.
    - intros [= <- <-]. exists []. simpl. rewrite Z.add_0_r. split; [exact Hl|]. split; [reflexivity|]. split; [constructor|]. split; [auto|]. split; [intros a Ha; apply elem_of_nil in Ha as []|auto].
    - cbn [append_all]. destruct (appendBlastedDataContext m d bd) as [m1 d1] eqn:E. intros E'.
      pose proof Hl as (_ & _ & Hsz).
      destruct (C48_append _ _ _ _ _ _ Hl E) as (a & H1 & (nx & H2) & H3 & H4 & H5 & H6 & H7 & H8).
      pose proof H1 as (_ & _ & Hsz1).
      destruct (IH _ _ _ _ _ H1 E') as (l' & G1 & G2 & G3 & G4 & G5 & G6 & G7 & G8 & G9).
      exists (l' ++ [a])%list. rewrite <- app_assoc. split; [exact G1|]. split; [rewrite G2, Hsz1, Hsz; simpl; lia|].
      assert (a < length (m_nodes m1)) as Ha1 by (eapply lookup_lt_Some, H2).
      assert (length (m_nodes m) <= a) as Ha by (apply lookup_ge_None_1, H3).
      assert (length (m_nodes m) <= length (m_nodes m1)) as Hlen by lia.
      split; [rewrite reverse_cons; apply Forall2_app; [exact G3|constructor; [|constructor]]|].
      { exists nx. rewrite G4 by exact Ha1. exact H2. }
      split; [intros b Hb; rewrite G4 by lia; apply H4, Hb|]. split; [|rewrite G6, G7, G8, G9; auto].
      intros b Hb. apply elem_of_app in Hb as [Hb|Hb].
      + apply lookup_ge_None_2. apply G5, lookup_ge_None_1 in Hb. lia.
      + apply elem_of_list_singleton in Hb as ->. exact H3.
  Qed.
  (** Destroying a list deletes its contexts and their diagnostics, each once, and nothing else, except the default factory; the list is empty *)
  Theorem C48_destroy m d l is_ : is_list m d l -> infos_of m l is_ ->
    (d_default d = true -> exists f, d_factory d = Some f /\ live (m_facts m) f) ->
    exists m' d', destroyBlastedDataList m d = Ok (m', d') /\ is_list m' d' [] /\
      deleted (m_nodes m) (m_nodes m') l /\ deleted (m_infos m) (m_infos m') is_ /\
      deleted (m_facts m) (m_facts m') (if d_default d then option_list (d_factory d) else []) /\ d_default d' = false.
  Proof.
    intros (Hl & Hn & Hs) Hi Hf. unfold destroyBlastedDataList.
    assert (exists facts, (if d_default d then free (m_facts m) (d_factory d) else Ok (m_facts m)) = Ok facts /\
      deleted (m_facts m) facts (if d_default d then option_list (d_factory d) else [])) as (facts & E & Hd).
    { destruct (d_default d); [|exists (m_facts m); auto using deleted_nil]. destruct (Hf eq_refl) as (f & -> & Hlive). destruct (free_spec _ _ Hlive) as [E1 E2]. eauto. }
    rewrite E. cbn [bind].
    destruct (destroy_loop_spec (length (m_nodes m)) (Mem (m_nodes m) (m_infos m) facts) (d_ctxlist d) l is_ (d_size d)) as (m' & E1 & E2 & E3 & E4); try assumption.
    { apply (linked_length _ _ _ Hl Hn). }
    rewrite E1. cbn [bind]. rewrite Hs, Z.sub_diag. cbn.
    eexists _, _. split; [reflexivity|]. split; [split; [constructor|split; [constructor|reflexivity]]|]. simpl in *. rewrite E4. auto.
  Qed.
  (** Destroying it again is harmless *)
  Theorem C48_twice m d : is_list m d [] -> d_default d = false -> exists d', destroyBlastedDataList m d = Ok (m, d') /\ is_list m d' [].
  Proof.
    intros (Hl & _ & Hs) Hd. unfold destroyBlastedDataList. rewrite Hd. cbn [bind]. inversion Hl as [E|]. rewrite Hs.
    exists (DList None 0 (d_factory d) false (d_fcpu d) (d_fwall d) (d_acpu d) (d_awall d)). split; [|split; [constructor|split; [constructor|reflexivity]]].
    destruct m as [nodes infos facts]. cbn [m_nodes m_infos m_facts]. destruct (length nodes); cbn; reflexivity.
  Qed.
  (** The whole life of a list, of contexts whose diagnostics are separate objects *)
  Theorem C48_life bds m m' d' : append_all bds m newBlastedDataList = (m', d') ->
    NoDup (omap c_infolist bds) -> (forall i, i ∈ omap c_infolist bds -> live (m_infos m) i) ->
    d_size d' = Z.of_nat (length bds) /\
    exists m'' d'', destroyBlastedDataList m' d' = Ok (m'', d'') /\ d_size d'' = 0%Z /\ d_ctxlist d'' = None /\
      (forall b, b < length (m_nodes m) -> m_nodes m'' !! b = m_nodes m !! b) /\
      (forall b, length (m_nodes m) <= b -> ~ live (m_nodes m'') b) /\
      deleted (m_infos m) (m_infos m'') (reverse (omap c_infolist bds)) /\ m_facts m'' = m_facts m.
  Proof.
    intros E Hn Hlive. destruct (C48_appends _ _ _ _ _ _ (C48_new m) E) as (l & H1 & H2 & H3 & H4 & H5 & H6 & H7 & H8 & H9).
    rewrite app_nil_r in H1. split; [exact H2|].
    assert (exists cs, Forall2 (fun a c => m_nodes m' !! a = Some (Some c)) l cs /\ omap c_infolist cs = omap c_infolist (reverse bds)) as (cs & Hcs & Ecs).
    { clear -H3. induction H3 as [|a c l k (nx & Ha) HF (cs & IH1 & IH2)]; [exists []; auto|]. exists (set_next c nx :: cs). split; [constructor; assumption|]. change (omap c_infolist (set_next c nx :: cs)) with (match c_infolist c with Some y => y :: omap c_infolist cs | None => omap c_infolist cs end). rewrite IH2. reflexivity. }
    assert (omap c_infolist (reverse bds) = reverse (omap c_infolist bds)) as Erev.
    { clear. induction bds as [|b bds IH]; [reflexivity|]. rewrite reverse_cons, omap_app, IH. simpl. destruct (c_infolist b); rewrite ?reverse_cons, ?app_nil_r; reflexivity. }
    destruct (C48_destroy m' d' l (reverse (omap c_infolist bds)) H1) as (m'' & d'' & G1 & (G2 & _ & G3) & G4 & G5 & G6 & _).
    { exists cs. split; [exact Hcs|]. split; [congruence|]. split; [rewrite <- (reverse_Permutation (omap c_infolist bds)) in Hn; exact Hn|].
      intros i Hi. rewrite H6. apply Hlive. rewrite reverse_Permutation in Hi. exact Hi. }
    { rewrite H9. discriminate. }
    exists m'', d''. split; [exact G1|]. split; [exact G3|]. split; [inversion G2; reflexivity|].
    assert (forall b, b ∈ l -> length (m_nodes m) <= b) as Hge by (intros b Hb; apply lookup_ge_None_1, H5, Hb).
    split; [|split; [|split]].
    - intros b Hb. rewrite G4. rewrite decide_False; [apply H4, Hb|]. intros Hc. apply Hge in Hc. lia.
    - intros b Hb [x Hx]. rewrite G4 in Hx. destruct (decide (b ∈ l)) as [Hi|Hi]; [discriminate|].
      apply Hi. assert (length (m_nodes m') = length (m_nodes m) + length bds /\ forall b, length (m_nodes m) <= b < length (m_nodes m') -> b ∈ l) as [El Hin].
      { pose proof (Forall2_length _ _ _ H3) as Ell. rewrite reverse_length in Ell.
        assert (length (m_nodes m') = length (m_nodes m) + length bds) as El.
        { clear -E. revert E. generalize newBlastedDataList. revert m m' d'. induction bds as [|b bds IH]; intros m m' d' d; [intros [= <- _]; simpl; lia|].
          cbn [append_all]. unfold appendBlastedDataContext. intros E. apply IH in E. rewrite E. simpl. rewrite app_length. simpl. lia. }
        split; [exact El|]. destruct H1 as (Hl & Hnd & _).
        assert (seq (length (m_nodes m)) (length bds) ⊆+ l) as Hsub.
        { assert (l ⊆+ seq (length (m_nodes m)) (length bds)) as Hs.
          { apply NoDup_submseteq; [exact Hnd|]. intros b' Hb'. apply elem_of_seq. split; [apply Hge, Hb'|]. destruct (linked_lt _ _ _ Hl b' Hb') as [y Hy]. apply lookup_lt_Some in Hy. lia. }
          apply submseteq_Permutation_length_le in Hs; [rewrite Hs; reflexivity|]. rewrite seq_length. lia. }
        intros b' Hb'. eapply elem_of_submseteq; [|exact Hsub]. apply elem_of_seq. lia. }
      apply Hin. split; [exact Hb|]. eapply lookup_lt_Some, Hx.
    - rewrite <- H6. exact G5.
    - rewrite <- H7. rewrite H9 in G6. apply list_eq. intros a. rewrite G6. rewrite decide_False by apply not_elem_of_nil. reflexivity.
  Qed.

  (** ** C50 *)
  Theorem C50_totals m d l cs : is_list m d l -> Forall2 (fun a c => m_nodes m !! a = Some (Some c)) l cs ->
    exists d', computeTotalTimes m d = Ok d' /\ is_list m d' l /\ d_factory d' = d_factory d /\ d_default d' = d_default d /\
      d_fcpu d' = fold_left sadd (map c_fcpu cs) s0 /\ d_fwall d' = fold_left sadd (map c_fwall cs) s0 /\
      d_acpu d' = fold_left sadd (map c_acpu cs) s0 /\ d_awall d' = fold_left sadd (map c_awall cs) s0.
  Proof.
    intros (Hl & Hn & Hs) HF. unfold computeTotalTimes.
    assert (forall n p l cs t1 t2 t3 t4, linked (m_nodes m) p l -> Forall2 (fun a c => m_nodes m !! a = Some (Some c)) l cs -> length l <= n ->
      total_loop n (m_nodes m) p (t1, t2, t3, t4) =
      Ok (fold_left sadd (map c_fcpu cs) t1, fold_left sadd (map c_fwall cs) t2, fold_left sadd (map c_acpu cs) t3, fold_left sadd (map c_awall cs) t4)) as Hloop.
    { clear. induction n as [|n IH]; intros p l cs t1 t2 t3 t4 Hl HF Hlen.
      - destruct Hl; [|simpl in Hlen; lia]. inversion HF; subst. reflexivity.
      - destruct Hl as [|a c l E H]; [inversion HF; subst; reflexivity|]. inversion HF as [|? c' ? cs' E' HF']; subst. rewrite E in E'. injection E' as <-.
        simpl. rewrite E. cbn [bind]. apply (IH _ l); [exact H|exact HF'|simpl in Hlen; lia]. }
    rewrite (Hloop _ _ l cs _ _ _ _ Hl HF) by (apply (linked_length _ _ _ Hl Hn)). cbn [bind].
    eexists. split; [reflexivity|]. split; [split; [exact Hl|split; assumption]|]. auto 10.
  Qed.
End Lists.

(** ** The solver stack *)
(** *** Specification *)
(** the shells of a stack with their block sizes, in the order in which they are set up: the smoothers before the coarse solver *)
Fixpoint shells (k : solver) : list (nat * Z) :=
  match k with
  | KShell id _ block matbs => [(id, if block then matbs else 1%Z)]
  | KDomains subs => flat_map shells subs
  | KMultigrid coarse smoothers => flat_map shells smoothers ++ shells coarse
  | KInner k => shells k
  | KOther => []
  end%list.
(** each shell's matrix is local to the process, and a process has one subdomain *)
Fixpoint local_stack (k : solver) : bool :=
  match k with
  | KShell _ local _ _ => local
  | KDomains subs => (length subs =? 1)%nat && forallb local_stack subs
  | KMultigrid coarse smoothers => forallb local_stack smoothers && local_stack coarse
  | KInner k => local_stack k
  | KOther => true
  end.
(** the number of solvers nested in a stack, at any depth *)
Fixpoint nested_solvers (k : solver) : nat :=
  match k with
  | KShell _ _ _ _ | KOther => 0
  | KDomains subs => foldr (fun k n => S (nested_solvers k) + n) 0 subs
  | KMultigrid coarse smoothers => foldr (fun k n => S (nested_solvers k) + n) 0 smoothers + S (nested_solvers coarse)
  | KInner k => S (nested_solvers k)
  end.

Section Solver_ind.
  Variable P : solver -> Prop.
  Hypothesis Hshell : forall id local block matbs, P (KShell id local block matbs).
  Hypothesis Hdomains : forall subs, Forall P subs -> P (KDomains subs).
  Hypothesis Hmg : forall coarse smoothers, P coarse -> Forall P smoothers -> P (KMultigrid coarse smoothers).
  Hypothesis Hinner : forall k, P k -> P (KInner k).
  Hypothesis Hother : P KOther.
  Fixpoint solver_rec' (k : solver) : P k :=
    let all := fix all (ks : list solver) : Forall P ks := match ks with [] => Forall_nil_2 P | k :: ks => Forall_cons_2 P k ks (solver_rec' k) (all ks) end in
    match k with
    | KShell id local block matbs => Hshell id local block matbs
    | KDomains subs => Hdomains subs (all subs)
    | KMultigrid coarse smoothers => Hmg coarse smoothers (solver_rec' coarse) (all smoothers)
    | KInner k => Hinner k (solver_rec' k)
    | KOther => Hother
    end.
End Solver_ind.

Section Stack.
  Context {F : Type} {O : SOps F} {I : Type}.
  Local Notation ctx := (@ctx F). Local Notation mem := (@mem F I). Local Notation dlist := (@dlist F). Local Notation world := (@world F I).
  Implicit Types (c : ctx) (m : mem) (d : dlist) (w : world).

  (** [c] is a context not yet set up, for block size [bs], with the factory at [f] *)
  Definition fresh_context c (bs : Z) (f : option nat) : Prop :=
    c_bs c = bs /\ c_factory c = f /\ c_bprec c = None /\ c_infolist c = None /\ c_first c = false /\
    c_fcpu c = s0 /\ c_fwall c = s0 /\ c_acpu c = s0 /\ c_awall c = s0.
  (** The shells [sh], in this order, were given new contexts; these were put in front of the list, the last first. [n] default
      factories were made, and the last of them, if any, is the list's. Each context's factory satisfies [fac]. All else is as before. *)
  Definition given (sh : list (nat * Z)) (n : nat) (fac : option nat -> Prop) (w w' : world) : Prop :=
    exists new : list (nat * bool),
      (forall l, is_list (w_mem w) (w_list w) l -> is_list (w_mem w') (w_list w') (reverse (map fst new) ++ l)%list) /\
      w_shells w' = (w_shells w ++ zip_with (fun '(id, _) '(a, r) => (id, a, r)) sh new)%list /\
      Forall2 (fun a '(_, bs) => m_nodes (w_mem w) !! a = None /\ exists c f, m_nodes (w_mem w') !! a = Some (Some c) /\ fac f /\ fresh_context c bs f) (map fst new) sh /\
      (length (m_nodes (w_mem w)) <= length (m_nodes (w_mem w')) /\
        forall a, length (m_nodes (w_mem w)) <= a < length (m_nodes (w_mem w')) -> a ∈ map fst new) /\
      (forall a, a < length (m_nodes (w_mem w)) -> m_nodes (w_mem w') !! a = m_nodes (w_mem w) !! a) /\
      m_infos (w_mem w') = m_infos (w_mem w) /\ m_facts (w_mem w') = (m_facts (w_mem w) ++ replicate n (Some Default))%list /\
      (n = 0 -> d_factory (w_list w') = d_factory (w_list w) /\ d_default (w_list w') = d_default (w_list w)) /\
      (n <> 0 -> d_factory (w_list w') = Some (length (m_facts (w_mem w)) + n - 1) /\ d_default (w_list w') = true).
  (** the factory is one of the [n] made since *)
  Definition made_since (w : world) (n : nat) (f : option nat) : Prop := exists f', f = Some f' /\ length (m_facts (w_mem w)) <= f' < length (m_facts (w_mem w)) + n.

  Lemma given_nil fac w : given [] 0 fac w w.
  Proof.
    exists []. simpl. split; [auto|]. rewrite app_nil_r. split; [reflexivity|]. split; [constructor|]. split; [split; [|intros a Ha; exfalso]; lia|]. rewrite app_nil_r.
    do 3 (split; [auto; fail|]). split; [auto|lia].
  Qed.
  Lemma given_app sh sh' n n' w w1 w2 : given sh n (made_since w n) w w1 -> given sh' n' (made_since w1 n') w1 w2 ->
    given (sh ++ sh')%list (n + n') (made_since w (n + n')) w w2.
  Proof.
    intros (new & H1 & H2 & H3 & (H4 & H4') & H5 & H6 & H7 & H8 & H9) (new' & G1 & G2 & G3 & (G4 & G4') & G5 & G6 & G7 & G8 & G9).
    assert (length (m_facts (w_mem w1)) = length (m_facts (w_mem w)) + n) as Hlf by (rewrite H7, app_length, replicate_length; reflexivity).
    exists (new ++ new')%list. rewrite map_app, reverse_app.
    split; [intros l Hl; rewrite <- app_assoc; apply G1, H1, Hl|].
    split. { rewrite G2, H2, <- app_assoc. f_equal. rewrite zip_with_app; [reflexivity|]. apply Forall2_length in H3. rewrite map_length in H3. lia. }
    split.
    { apply Forall2_app.
      - eapply Forall2_impl; [exact H3|]. intros a [id bs] (Ha & c & f & Hc & (f' & -> & Hf) & Hfr). split; [exact Ha|]. exists c, (Some f'). rewrite G5 by (eapply lookup_lt_Some, Hc).
        split; [exact Hc|]. split; [exists f'; split; [reflexivity|lia]|exact Hfr].
      - eapply Forall2_impl; [exact G3|]. intros a [id bs] (Ha & c & f & Hc & (f' & -> & Hf) & Hfr). split; [apply lookup_ge_None; apply lookup_ge_None in Ha; lia|].
        exists c, (Some f'). split; [exact Hc|]. split; [exists f'; split; [reflexivity|lia]|exact Hfr]. }
    split. { split; [lia|]. intros a Ha. apply elem_of_app. destruct (decide (a < length (m_nodes (w_mem w1)))); [left; apply H4'|right; apply G4']; lia. }
    split; [intros a Ha; rewrite G5 by lia; apply H5, Ha|]. split; [congruence|].
    split; [rewrite G7, H7, <- app_assoc, replicate_add; reflexivity|].
    split.
    - intros E. assert (n = 0 /\ n' = 0) as [-> ->] by lia. destruct (G8 eq_refl) as [-> ->]. apply H8. reflexivity.
    - intros E. destruct (decide (n' = 0)) as [-> |Hn'].
      + destruct (G8 eq_refl) as [-> ->]. rewrite Nat.add_0_r in *. apply H9, E.
      + destruct (G9 Hn') as [-> ->]. rewrite Hlf. split; [f_equal; lia|reflexivity].
  Qed.
  Lemma given_default w sh n (fac : option nat -> Prop) w' :
    (forall f, fac f -> made_since w (S n) f) -> given sh n fac (new_default w) w' -> given sh (S n) (made_since w (S n)) w w'.
  Proof.
    intros Hfac (new & H1 & H2 & H3 & H4 & H5 & H6 & H7 & H8 & H9). exists new.
    split; [intros l (Hl & Hn & Hs); apply H1; split; [exact Hl|split; assumption]|]. split; [exact H2|].
    split; [eapply Forall2_impl; [exact H3|]; intros a [id bs] (Ha & c & f & Hc & Hf & Hfr); split; [exact Ha|]; exists c, f; auto|].
    split; [exact H4|]. split; [exact H5|]. split; [exact H6|].
    split; [rewrite H7; simpl; rewrite <- app_assoc; reflexivity|]. split; [discriminate|]. intros _.
    destruct (decide (n = 0)) as [-> |Hn].
    - destruct (H8 eq_refl) as [-> ->]. simpl. split; [f_equal; lia|reflexivity].
    - destruct (H9 Hn) as [-> ->]. simpl. rewrite app_length. simpl. split; [f_equal; lia|reflexivity].
  Qed.

  (** one shell: the context gets the list's factory, whatever [fctry] is *)
  Theorem C49_shell (g : nat -> ctx) id block matbs fctry w :
    exists w', setup_blasted_stack_ext g (KShell id true block matbs) fctry w = (w', Fine) /\
      given (shells (KShell id true block matbs)) 0 (eq (d_factory (w_list w))) w w'.
  Proof.
    cbn [setup_blasted_stack_ext]. unfold appendBlastedDataContext. cbn [d_ctxlist]. simpl m_nodes.
    rewrite list_lookup_middle by reflexivity. unfold setup_localpreconditioner_blasted, deref. cbn [w_mem m_nodes].
    rewrite list_lookup_insert by (rewrite app_length; simpl; lia). cbn [negb].
    eexists. split; [reflexivity|].
    eexists [(length (m_nodes (w_mem w)), _)]. cbn [w_mem w_list w_shells m_nodes m_infos m_facts map fst reverse].
    split; [|split; [reflexivity|]].
    { intros l Hl. destruct (C48_append (w_mem w) (w_list w) l (newBlastedDataContext (g (length (m_nodes (w_mem w))))) _ _ Hl eq_refl) as (a & Ha & _).
      assert (a = length (m_nodes (w_mem w))) as -> by (destruct Ha as (Ha & _); inversion Ha; reflexivity).
      destruct Ha as (H1 & H2 & H3). rewrite reverse_singleton. cbn [app]. split; [|split; assumption]. cbn [d_ctxlist m_nodes] in *. rewrite list_insert_insert.
      econstructor; [apply list_lookup_insert; rewrite app_length; simpl; lia|]. cbn [c_next set_next].
      destruct Hl as (Hl & _ & _). eapply linked_mono; [exact Hl|]. intros b Hb. pose proof (linked_lt _ _ _ Hl b Hb) as [x Hx]. apply lookup_lt_Some in Hx.
      rewrite list_lookup_insert_ne by lia. apply lookup_app_l, Hx. }
    split; [constructor; [|constructor]|].
    { split; [apply lookup_ge_None_2; lia|]. eexists _, _. split; [apply list_lookup_insert; rewrite insert_length, app_length; simpl; lia|]. split; [reflexivity|].
      unfold fresh_context. simpl. auto 10. }
    rewrite !insert_length, app_length. simpl. split; [split; [lia|intros a Ha; apply elem_of_list_singleton; lia]|].
    split; [intros a Ha; rewrite !list_lookup_insert_ne by lia; apply lookup_app_l, Ha|].
    split; [reflexivity|]. split; [rewrite app_nil_r; reflexivity|]. split; [auto|]. intros []. reflexivity.
  Qed.

  Lemma nested_spec (g : nat -> ctx) k : local_stack k = true -> forall w,
    exists w', setup_blasted_stack_ext g k (d_factory (w_list (new_default w))) (new_default w) = (w', Fine) /\
      given (shells k) (S (nested_solvers k)) (made_since w (S (nested_solvers k))) w w'.
  Proof.
    induction k as [id local block matbs|subs IH|coarse smoothers IHc IHs|k IH|] using solver_rec'; intros Hk w.
    - simpl in Hk. subst local. destruct (C49_shell g id block matbs (d_factory (w_list (new_default w))) (new_default w)) as (w' & E & H).
      exists w'. split; [exact E|]. eapply given_default; [|exact H]. intros f <-. eexists. split; [reflexivity|]. lia.
    - simpl in Hk. apply andb_true_iff in Hk as [Hlen Hk]. destruct subs as [|k [|? ?]]; try discriminate.
      inversion IH as [|? ? IHk _]; subst. simpl in Hk. rewrite andb_true_r in Hk. destruct (IHk Hk (new_default w)) as (w' & E & H).
      exists w'. split; [exact E|]. simpl. rewrite app_nil_r, Nat.add_0_r. eapply given_default; [|exact H]. intros f (f' & -> & Hf). exists f'. simpl in Hf |- *. rewrite app_length in Hf. simpl in Hf. split; [reflexivity|lia].
    - simpl in Hk. apply andb_true_iff in Hk as [Hs Hc].
      assert (forall w, exists w', setup_blasted_stack_ext g (KMultigrid coarse smoothers) (d_factory (w_list w)) w = (w', Fine) /\
        given (shells (KMultigrid coarse smoothers)) (nested_solvers (KMultigrid coarse smoothers)) (made_since w (nested_solvers (KMultigrid coarse smoothers))) w w') as Hmain.
      { clear w. intros w. cbn [setup_blasted_stack_ext shells nested_solvers]. revert w Hs.
        induction IHs as [|k ks IHk IHks IH]; intros w Hs.
        - cbn [map app in_turn flat_map foldr]. destruct (IHc Hc w) as (w' & E & H). rewrite E. exists w'. split; [reflexivity|]. exact H.
        - simpl in Hs. apply andb_true_iff in Hs as [Hk Hs]. cbn [map in_turn app].
          destruct (IHk Hk w) as (w1 & E1 & H1). rewrite E1. destruct (IH w1 Hs) as (w2 & E2 & H2). rewrite E2. exists w2. split; [reflexivity|].
          cbn [flat_map foldr]. rewrite <- app_assoc, <- Nat.add_assoc. eapply given_app; [exact H1|exact H2]. }
      destruct (Hmain (new_default w)) as (w' & E & H). exists w'. split; [exact E|].
      eapply given_default; [|exact H]. intros f (f' & -> & Hf). exists f'. simpl in Hf |- *. rewrite app_length in Hf. simpl in Hf. split; [reflexivity|lia].
    - simpl in Hk. destruct (IH Hk (new_default w)) as (w' & E & H). exists w'. split; [exact E|].
      eapply given_default; [|exact H]. intros f (f' & -> & Hf). exists f'. simpl in Hf |- *. rewrite app_length in Hf. simpl in Hf. split; [reflexivity|lia].
    - exists (new_default w). split; [reflexivity|]. eapply (given_default w [] 0 (made_since w 1)); [auto|]. apply given_nil.
  Qed.

  (** ** C49 *)
  (** The default set-up gives every shell of the stack its own context, with the shell's block size and a default factory *)
  Theorem C49_stack (g : nat -> ctx) k w l : is_list (w_mem w) (w_list w) l -> local_stack k = true ->
    exists w' new, setup_blasted_stack g k w = (w', Fine) /\
      is_list (w_mem w') (w_list w') (reverse (map snd new) ++ l)%list /\
      (exists relax, w_shells w' = (w_shells w ++ zip_with (fun '(id, a) r => (id, a, r)) new relax)%list /\ length relax = length new) /\
      Forall2 (fun '(id, a) '(id', bs) => id = id' /\ m_nodes (w_mem w) !! a = None /\
        exists c f, m_nodes (w_mem w') !! a = Some (Some c) /\ m_facts (w_mem w') !! f = Some (Some Default) /\ fresh_context c bs (Some f)) new (shells k) /\
      (forall a, a < length (m_nodes (w_mem w)) -> m_nodes (w_mem w') !! a = m_nodes (w_mem w) !! a) /\ m_infos (w_mem w') = m_infos (w_mem w).
  Proof.
    intros Hl Hk. destruct (nested_spec g k Hk w) as (w' & E & new & H1 & H2 & H3 & H4 & H5 & H6 & H7 & H8 & H9).
    exists w', (zip (map fst (shells k)) (map fst new)). split; [exact E|].
    pose proof (Forall2_length _ _ _ H3) as Hlen. rewrite map_length in Hlen.
    assert (map snd (zip (map fst (shells k)) (map fst new)) = map fst new) as Esnd.
    { apply snd_zip. rewrite !map_length. lia. }
    rewrite Esnd. split; [apply H1, Hl|]. split.
    { exists (map snd new). split; [|rewrite zip_with_length, !map_length; lia]. rewrite H2. f_equal.
      clear -Hlen. revert Hlen. generalize (shells k). induction new as [|[a r] new IH]; intros [|[id bs] sh]; try discriminate; [reflexivity|].
      intros [= Hlen]. simpl. f_equal. apply IH, Hlen. }
    split; [|auto].
    clear -H3 H7. revert H3. generalize (map fst new) (shells k). induction 1 as [|a [id bs] l sh (Ha & c & f & Hc & (f' & -> & Hf) & Hfr) HF IH]; constructor; [|exact IH].
    split; [reflexivity|]. split; [exact Ha|]. exists c, f'. split; [exact Hc|]. split; [|exact Hfr].
    rewrite H7, lookup_app_r by lia. apply lookup_replicate. split; [reflexivity|lia].
  Qed.

  (** A stack with a shell over several processes, or several subdomains on a process, is refused *)
  Theorem C49_unsupported (g : nat -> ctx) k : local_stack k = false -> forall w, exists w' msg, setup_blasted_stack g k w = (w', PetscErr msg).
  Proof.
    intros Hk w. unfold setup_blasted_stack. cbv zeta. revert Hk w.
    assert (local_stack k = false -> forall fctry w, exists w' msg, setup_blasted_stack_ext g k fctry w = (w', PetscErr msg)) as H; [|intros Hk w; apply H, Hk].
    induction k as [id local block matbs|subs IH|coarse smoothers IHc IHs|k IH|] using solver_rec'; intros Hk fctry w.
    - simpl in Hk. subst local. cbn [setup_blasted_stack_ext]. unfold appendBlastedDataContext. cbn [d_ctxlist]. simpl m_nodes.
      rewrite list_lookup_middle by reflexivity. unfold setup_localpreconditioner_blasted, deref. cbn [w_mem m_nodes].
      rewrite list_lookup_insert by (rewrite app_length; simpl; lia). cbn [negb]. eexists _, _. reflexivity.
    - destruct subs as [|k [|k' subs]]; cbn [setup_blasted_stack_ext]; [eexists _, _; reflexivity| |eexists _, _; reflexivity].
      inversion IH as [|? ? IHk _]; subst. apply IHk. simpl in Hk. rewrite andb_true_r in Hk. exact Hk.
    - cbn [setup_blasted_stack_ext]. simpl in Hk. revert w Hk.
      induction IHs as [|k ks IHk IHks IH]; intros w Hk.
      + cbn [map app in_turn]. simpl in Hk. destruct (IHc Hk (d_factory (w_list (new_default w))) (new_default w)) as (w' & msg & E). rewrite E. eexists _, _. reflexivity.
      + cbn [map app in_turn]. simpl in Hk. destruct (local_stack k) eqn:Ek.
        * destruct (nested_spec g k Ek w) as (w1 & E & _). rewrite E. apply IH, Hk.
        * destruct (IHk eq_refl (d_factory (w_list (new_default w))) (new_default w)) as (w' & msg & E). rewrite E. eexists _, _. reflexivity.
    - cbn [setup_blasted_stack_ext]. apply IH, Hk.
    - discriminate.
  Qed.

  (** A user's factory, at [f] and in the list, is used for a shell at the top of the stack *)
  Theorem C49_user (g : nat -> ctx) id block matbs w f : d_factory (w_list w) = Some f ->
    exists w' a c, setup_blasted_stack_ext g (KShell id true block matbs) (Some f) w = (w', Fine) /\
      d_ctxlist (w_list w') = Some a /\ m_nodes (w_mem w') !! a = Some (Some c) /\ fresh_context c (if block then matbs else 1%Z) (Some f).
  Proof.
    intros Ef. cbn [setup_blasted_stack_ext]. unfold appendBlastedDataContext. cbn [d_ctxlist]. simpl m_nodes.
    rewrite list_lookup_middle by reflexivity. unfold setup_localpreconditioner_blasted, deref. cbn [w_mem m_nodes].
    rewrite list_lookup_insert by (rewrite app_length; simpl; lia). cbn [negb].
    eexists _, (length (m_nodes (w_mem w))), _. split; [reflexivity|]. split; [reflexivity|]. cbn [w_mem m_nodes].
    split; [apply list_lookup_insert; rewrite insert_length, app_length; simpl; lia|].
    unfold fresh_context. simpl. auto 10.
  Qed.
  (** The factory passed is not used, though: only the list's *)
  Theorem C49_argument_refuted (g : nat -> ctx) k fctry fctry' w : setup_blasted_stack_ext g k fctry w = setup_blasted_stack_ext g k fctry' w.
  Proof. destruct k; reflexivity. Qed.
  Definition composite (k : solver) : Prop := match k with KShell _ _ _ _ => False | _ => True end.
  (** Below any composite solver every shell gets a default factory instead *)
  Theorem C49_user_refuted (g : nat -> ctx) k w l f conv create : is_list (w_mem w) (w_list w) l -> composite k -> local_stack k = true ->
    d_factory (w_list w) = Some f -> m_facts (w_mem w) !! f = Some (Some (User conv create)) ->
    exists w' new, setup_blasted_stack_ext g k (Some f) w = (w', Fine) /\ is_list (w_mem w') (w_list w') (reverse new ++ l)%list /\
      length new = length (shells k) /\
      Forall (fun a => exists c f', m_nodes (w_mem w') !! a = Some (Some c) /\ c_factory c = Some f' /\ f' <> f /\ m_facts (w_mem w') !! f' = Some (Some Default)) new.
  Proof.
    intros Hl Hc Hk Ef Hf.
    assert (exists w', setup_blasted_stack_ext g k (Some f) w = (w', Fine) /\ given (shells k) (nested_solvers k) (made_since w (nested_solvers k)) w w') as (w' & E & H).
    { destruct k as [|subs|coarse smoothers|k|]; [destruct Hc| | | |].
      - simpl in Hk. apply andb_true_iff in Hk as [Hlen Hk]. destruct subs as [|k [|? ?]]; try discriminate. simpl in Hk. rewrite andb_true_r in Hk.
        cbn [setup_blasted_stack_ext shells nested_solvers flat_map foldr]. rewrite app_nil_r, Nat.add_0_r. apply nested_spec, Hk.
      - cbn [setup_blasted_stack_ext shells nested_solvers]. simpl in Hk. apply andb_true_iff in Hk as [Hs Hco]. revert Hs. clear Hl Ef Hf Hc f l. revert w.
        induction smoothers as [|k ks IH]; intros w Hs.
        + cbn [map app in_turn flat_map foldr]. destruct (nested_spec g coarse Hco w) as (w' & E & H). rewrite E. eauto.
        + simpl in Hs. apply andb_true_iff in Hs as [Hk Hs]. cbn [map in_turn app].
          destruct (nested_spec g k Hk w) as (w1 & E1 & H1). rewrite E1. destruct (IH w1 Hs) as (w2 & E2 & H2). rewrite E2. exists w2. split; [reflexivity|].
          cbn [flat_map foldr]. rewrite <- app_assoc, <- Nat.add_assoc. eapply given_app; [exact H1|exact H2].
      - apply nested_spec, Hk.
      - exists w. split; [reflexivity|]. apply given_nil. }
    destruct H as (new & H1 & H2 & H3 & H4 & H5 & H6 & H7 & _). exists w', (map fst new). split; [exact E|]. split; [apply H1, Hl|].
    split; [apply (Forall2_length _ _ _ H3)|]. apply lookup_lt_Some in Hf.
    clear -H3 H7 Hf. induction H3 as [|a [id bs] l sh (Ha & c & fo & Hc & (f' & -> & Hf') & Hfr) HF IH]; constructor; [|exact IH].
    exists c, f'. split; [exact Hc|]. split; [apply Hfr|]. split; [lia|]. rewrite H7, lookup_app_r by lia. apply lookup_replicate. split; [reflexivity|lia].
  Qed.
  (** After setting up a stack and destroying the list, the default factory made first of all is deleted only if the stack is not nested:
      of the factories made, all but the last remain *)
  Theorem C49_leak_refuted (g : nat -> ctx) k m : local_stack k = true ->
    exists w' m' d', setup_blasted_stack g k (World m newBlastedDataList []) = (w', Fine) /\ destroyBlastedDataList (w_mem w') (w_list w') = Ok (m', d') /\
      (forall a, live (m_nodes m') a <-> live (m_nodes m) a) /\
      forall f, live (m_facts m') f <-> live (m_facts m) f \/ length (m_facts m) <= f < length (m_facts m) + nested_solvers k.
  Proof.
    intros Hk. destruct (nested_spec g k Hk (World m newBlastedDataList [])) as (w' & E & H). destruct H as (new & H1 & H2 & H3 & H4 & H5 & H6 & H7 & _ & H9).
    specialize (H1 [] (C48_new m)). rewrite app_nil_r in H1. destruct H9 as [H9 H10]; [discriminate|]. cbn [w_mem w_list w_shells] in *.
    assert (forall a, a ∈ map fst new -> m_nodes m !! a = None) as Hnew.
    { intros a Ha. clear -Ha H3. induction H3 as [|b [id bs] l sh (Hb & _) HF IH]; [apply elem_of_nil in Ha as []|]. apply elem_of_cons in Ha as [-> |Ha]; auto. }
    destruct (C48_destroy (w_mem w') (w_list w') _ [] H1) as (m' & d' & G1 & _ & G4 & _ & G6 & _).
    { assert (exists cs, Forall2 (fun a c => m_nodes (w_mem w') !! a = Some (Some c)) (map fst new) cs /\ Forall (fun c => c_infolist c = None) cs) as (cs & Hcs & Hi).
      { clear -H3. induction H3 as [|b [id bs] l sh (Hb & c & f & Hc & _ & _ & _ & _ & Hi & _) HF (cs & IH1 & IH2)]; [exists []; auto|]. exists (c :: cs). auto. }
      exists (reverse cs). split; [apply Forall2_reverse, Hcs|]. apply Forall_reverse in Hi. split; [|split; [constructor|intros i Hn; apply elem_of_nil in Hn as []]].
      clear -Hi. induction Hi as [|c l Hc Hi IH]; [reflexivity|]. simpl. rewrite Hc. exact IH. }
    { intros _. eexists. split; [exact H9|]. exists Default. rewrite H7, lookup_app_r by lia. apply lookup_replicate. split; [reflexivity|lia]. }
    exists w', m', d'. split; [exact E|]. split; [exact G1|]. split.
    - intros a. unfold live. rewrite G4. destruct H4 as [H4 H4']. destruct (decide (a ∈ reverse (map fst new))) as [Ha|Ha]; rewrite elem_of_reverse in Ha.
      + rewrite (Hnew a Ha). split; intros [x Hx]; discriminate.
      + destruct (decide (a < length (m_nodes m))) as [Hlt|Hge]; [rewrite H5 by exact Hlt; reflexivity|]. rewrite (lookup_ge_None_2 (m_nodes m)) by lia.
        rewrite lookup_ge_None_2; [reflexivity|]. destruct (decide (a < length (m_nodes (w_mem w')))); [|lia]. exfalso. apply Ha, H4'. lia.
    - assert (deleted (m_facts (w_mem w')) (m_facts m') [length (m_facts m) + S (nested_solvers k) - 1]) as G by (rewrite H10, H9 in G6; exact G6).
      intros f. unfold live. rewrite G, H7.
      destruct (decide (f ∈ [length (m_facts m) + S (nested_solvers k) - 1])) as [Hf|Hf].
      + apply elem_of_list_singleton in Hf as ->. rewrite (lookup_ge_None_2 (m_facts m)) by lia. split; [intros [x Hx]; discriminate|]. intros [[x Hx]|Hx]; [discriminate|lia].
      + assert (f <> length (m_facts m) + nested_solvers k) as Hne by (intros ->; apply Hf, elem_of_list_singleton; lia).
        destruct (decide (f < length (m_facts m))) as [Hlt|Hge]; [rewrite lookup_app_l by exact Hlt; intuition lia|].
        rewrite lookup_app_r, (lookup_ge_None_2 (m_facts m)) by lia. split.
        * intros [x Hx]. apply lookup_replicate in Hx as [_ Hx]. right. lia.
        * intros [[x Hx]|Hx]; [discriminate|]. exists Default. apply lookup_replicate. split; [reflexivity|lia].
  Qed.

  (** ** C63 *)
  (** Whether the relaxation function of a shell is registered is decided by what the memory of its new context happens to contain ([g]) *)
  Theorem C63_registered (g : nat -> ctx) id block matbs fctry w :
    exists w' relax, setup_blasted_stack_ext g (KShell id true block matbs) fctry w = (w', Fine) /\
      w_shells w' = (w_shells w ++ [(id, length (m_nodes (w_mem w)), relax)])%list /\
      (relax = true <-> c_prectype (g (length (m_nodes (w_mem w)))) ∉ [ILU0; CSC_BGS; NO_PREC]).
  Proof.
    cbn [setup_blasted_stack_ext]. unfold appendBlastedDataContext. cbn [d_ctxlist]. simpl m_nodes.
    rewrite list_lookup_middle by reflexivity. unfold setup_localpreconditioner_blasted, deref. cbn [w_mem m_nodes].
    rewrite list_lookup_insert by (rewrite app_length; simpl; lia). cbn [negb].
    eexists _, _. split; [reflexivity|]. split; [reflexivity|]. simpl.
    destruct (c_prectype (g _)); vm_compute; split; intros H; try reflexivity; try discriminate; try (intros Hc; repeat (apply elem_of_cons in Hc as [Hc|Hc]; [discriminate|]); apply elem_of_nil in Hc as []);
      exfalso; apply H; repeat constructor.
  Qed.
  (** so for any stack made of one shell, one and the same program may or may not register it, whatever preconditioner is asked for later *)
  Theorem C63_refuted id block matbs fctry w (c : ctx) : forall relax : bool, exists g w' a,
    setup_blasted_stack_ext g (KShell id true block matbs) fctry w = (w', Fine) /\ w_shells w' = (w_shells w ++ [(id, a, relax)])%list.
  Proof.
    intros relax.
    set (g := fun _ : nat => Ctx (c_bprec c) (c_factory c) (c_bs c) (c_prectypestr c) (if relax then JACOBI else ILU0) (c_scale c) (c_chunk c) (c_nbuild c) (c_napply c)
      (c_finit c) (c_ainit c) (c_info c) (c_infolist c) (c_first c) (c_fcpu c) (c_fwall c) (c_acpu c) (c_awall c) (c_next c)).
    destruct (C63_registered g id block matbs fctry w) as (w' & r & E & H & Hr). exists g, w', (length (m_nodes (w_mem w))). split; [exact E|]. rewrite H.
    assert (r = relax) as ->; [|reflexivity]. simpl in Hr. destruct relax, r; try reflexivity.
    - destruct Hr as [_ Hr]. apply Hr. intros Hc. repeat (apply elem_of_cons in Hc as [Hc|Hc]; [discriminate|]). apply elem_of_nil in Hc as [].
    - destruct Hr as [Hr _]. exfalso. apply Hr; [reflexivity|]. left.
  Qed.
End Stack.

(** ** Cases *)
Local Instance nat_ops : SOps nat := { s0 := 0; s1 := 1; sadd := Nat.add; ssub := Nat.sub; smul := Nat.mul; sopp n := n; sdiv := Nat.div }.
Definition C48_ctx (info : option nat) (t : nat) : @ctx nat := Ctx None None 1 "" JACOBI false 0 0 0 "" "" false info false t (S t) 0 0 None.
Definition C48_mem : @mem nat unit := Mem [None] [Some [tt]; Some []; Some []] [Some Default].
Example C48_case :
  let bds := [C48_ctx (Some 2) 10; C48_ctx None 20; C48_ctx (Some 0) 30] in
  NoDup (omap c_infolist bds) /\ (forall i, i ∈ omap c_infolist bds -> live (m_infos C48_mem) i) /\
  exists m d, append_all bds C48_mem newBlastedDataList = (m, d) /\ is_list m d [3; 2; 1] /\
    (exists d', computeTotalTimes m d = Ok d' /\ d_fcpu d' = 60 /\ d_fwall d' = 63) /\
    exists d', destroyBlastedDataList m d = Ok (Mem [None; None; None; None] [None; Some []; None] [Some Default], d') /\ d_size d' = 0%Z.
Proof.
  intros bds. change (omap c_infolist bds) with [2; 0]. split; [apply (bool_decide_unpack _); vm_compute; exact Logic.I|].
  split; [intros i H; apply elem_of_cons in H as [-> |H]; [eexists; reflexivity|]; apply elem_of_list_singleton in H as ->; eexists; reflexivity|].
  eexists _, _. split; [reflexivity|]. split; [|split; [|eexists; split; reflexivity]].
  - split; [|split; [apply (bool_decide_unpack _); vm_compute; exact Logic.I|reflexivity]].
    do 3 (econstructor; [reflexivity|]). constructor.
  - eexists. split; [reflexivity|]. split; reflexivity.
Qed.
Definition C49_solver : solver := KMultigrid (KDomains [KShell 0 true false 1]) [KShell 1 true true 4; KInner (KShell 2 true true 5); KOther].
Example C49_case : local_stack C49_solver = true /\ composite C49_solver /\ shells C49_solver = [(1, 4%Z); (2, 5%Z); (0, 1%Z)] /\ nested_solvers C49_solver = 6 /\
  (let '(w', s) := setup_blasted_stack (I := unit) (fun _ => C48_ctx None 0) C49_solver (World (Mem [] [] []) newBlastedDataList []) in
     s = Fine /\ w_shells w' = [(1, 0, true); (2, 1, true); (0, 2, true)] /\ d_size (w_list w') = 3%Z /\ length (m_facts (w_mem w')) = 7) /\
  local_stack (KInner (KDomains [KShell 0 true false 1; KShell 1 true false 1])) = false.
Proof. do 4 (split; [first [reflexivity|exact Logic.I]|]). split; [|reflexivity]. vm_compute. auto. Qed.

Print Assumptions C48_new.
Print Assumptions C48_new_values.
Print Assumptions C48_append.
Print Assumptions C48_appends.
Print Assumptions C48_destroy.
Print Assumptions C48_twice.
Print Assumptions C48_life.
Print Assumptions C50_totals.
Print Assumptions C49_shell.
Print Assumptions C49_stack.
Print Assumptions C49_unsupported.
Print Assumptions C49_user.
Print Assumptions C49_argument_refuted.
Print Assumptions C49_user_refuted.
Print Assumptions C49_leak_refuted.
Print Assumptions C63_registered.
Print Assumptions C63_refuted.
Print Assumptions C48_case.
Print Assumptions C49_case.
