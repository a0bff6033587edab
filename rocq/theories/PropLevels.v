(** * PropLevels: property C26 (level schedules) *)
From Verif Require Import Base Alg SRMatrix ColMat IluApplyMain Levels Inst.
From Coq Require Import Sorting.Sorted.
Open Scope nat_scope.

(** the pattern is symmetric: (i,j) is stored iff (j,i) is *)
Definition sym_pattern {A} (M : srmat A) : Prop :=
  forall i j, i < nbrows M -> j < nbrows M -> pos M i j <> None -> pos M j i <> None.
Definition full_diagonal {A} (M : srmat A) : Prop := forall i, i < nbrows M -> pos M i i <> None.

Lemma ok_doall {U St} (I : list U -> St -> Prop) (step : U -> St -> res St) l : forall s,
  I [] s ->
  (forall dn u rest s', l = dn ++ u :: rest -> I dn s' -> ok (step u s') (I (dn ++ [u]))) ->
  ok (doall l step s) (I l).
Proof.
  assert (forall rest dn s, l = dn ++ rest -> I dn s ->
    (forall dn u rest s', l = dn ++ u :: rest -> I dn s' -> ok (step u s') (I (dn ++ [u]))) ->
    ok (doall rest step s) (I l)) as H.
  { induction rest as [|u rest IH]; intros dn s E H0 Hst; cbn [doall].
    - rewrite app_nil_r in E. subst. exact H0.
    - eapply ok_bind; [eapply Hst; eauto|]. intros s' Hs'. apply (IH (dn ++ [u])); auto. rewrite <- app_assoc. exact E. }
  intros s H0 Hst. apply (H l []); auto.
Qed.
Lemma erase_first_spec x l : NoDup l -> x ∈ l -> erase_first x l = Some (filter (fun y => y <> x) l).
Proof.
  induction l as [|y l IH]; intros Hn Hx; [apply elem_of_nil in Hx as []|].
  apply NoDup_cons in Hn as [Hy Hn]. cbn [erase_first]. destruct (Nat.eqb_spec y x) as [->|Hne].
  - rewrite filter_cons_False by tauto. f_equal. symmetry.
    assert (forall l : list nat, x ∉ l -> filter (fun y => y <> x) l = l) as Hf.
    { clear. induction l as [|z l IH]; intros H; [reflexivity|]. apply not_elem_of_cons in H as [H1 H2].
      rewrite filter_cons_True by auto. f_equal. apply IH, H2. }
    apply Hf, Hy.
  - apply elem_of_cons in Hx as [->|Hx]; [tauto|]. rewrite IH by assumption. rewrite filter_cons_True by exact Hne. reflexivity.
Qed.
Lemma filter_ext_in (P Q : nat -> Prop) `{forall x, Decision (P x)} `{forall x, Decision (Q x)} (l : list nat) :
  (forall x, x ∈ l -> P x <-> Q x) -> filter P l = filter Q l.
Proof.
  induction l as [|x l IH]; intros Hpq; [reflexivity|].
  assert (filter P l = filter Q l) as E by (apply IH; intros; apply Hpq; constructor; assumption).
  pose proof (Hpq x ltac:(constructor)) as Hx. destruct (decide (P x)) as [p|p].
  - rewrite !filter_cons_True by tauto. f_equal. exact E.
  - rewrite !filter_cons_False by tauto. exact E.
Qed.
Lemma filter_two (P Q : nat -> Prop) `{forall x, Decision (P x)} `{forall x, Decision (Q x)} (l : list nat) :
  filter P (filter Q l) = filter (fun x => P x /\ Q x) l.
Proof.
  induction l as [|x l IH]; [reflexivity|]. destruct (decide (Q x)) as [q|q].
  - rewrite (filter_cons_True Q) by exact q. destruct (decide (P x)) as [p|p].
    + rewrite filter_cons_True by exact p. rewrite filter_cons_True by auto. f_equal. exact IH.
    + rewrite filter_cons_False by exact p. rewrite filter_cons_False by tauto. exact IH.
  - rewrite (filter_cons_False Q) by exact q. rewrite filter_cons_False by tauto. exact IH.
Qed.

Section Proof.
  Context {A : Type}.
  Variable M : srmat A.
  Notation n := (nbrows M).
  Hypothesis Hw : wf_pat M.
  Hypothesis Hs : wf_sorted M.
  Hypothesis Hd : full_diagonal M.
  Hypothesis Hsym : sym_pattern M.

  (** columns of row [i] *)
  Definition rowcols (i : nat) : list nat := col M <$> range (rp M i) (rp M (i + 1)).
  Lemma rowcols_elem i c : i < n -> c ∈ rowcols i <-> pos M i c <> None.
  Proof.
    intros Hi. unfold rowcols. rewrite elem_of_list_fmap. split.
    - intros (k & -> & Hk). apply elem_of_range in Hk. rewrite (pos_of M i k (sorted_nodup M Hs)); [discriminate|]. split; auto.
    - intros Hp. destruct (pos M i c) as [k|] eqn:E; [|congruence]. apply pos_Some in E as [[_ Hk] Hc]; [|exact Hi].
      exists k. split; [auto|]. apply elem_of_range. exact Hk.
  Qed.
  Lemma rowcols_lt i c : i < n -> c ∈ rowcols i -> c < n.
  Proof.
    intros Hi. unfold rowcols. rewrite elem_of_list_fmap. intros (k & -> & Hk). apply elem_of_range in Hk.
    apply (wf_col M Hw). apply (inrow_lt M i k Hw). split; auto.
  Qed.
  Lemma rowcols_sorted i : i < n -> StronglySorted lt (rowcols i).
  Proof.
    intros Hi. unfold rowcols.
    assert (forall k lo, rp M i <= lo -> lo + k = rp M (i + 1) -> StronglySorted lt (col M <$> range lo (rp M (i + 1)))) as H.
    { induction k as [|k IH]; intros lo H1 H2; [rewrite range_nil by lia; constructor|].
      rewrite range_cons by lia. cbn [fmap list_fmap]. constructor; [apply IH; lia|].
      apply Forall_fmap, Forall_forall. intros j Hj. apply elem_of_range in Hj. apply (Hs i); lia. }
    apply (H (rp M (i + 1) - rp M i)); [lia|]. pose proof (rp_mono M i (i + 1) Hw ltac:(lia) ltac:(lia)). lia.
  Qed.
  Lemma ss_nodup (l : list nat) : StronglySorted lt l -> NoDup l.
  Proof.
    induction 1 as [|x l H IH Hf]; constructor; [|exact IH]. intros Hx. rewrite Forall_forall in Hf. specialize (Hf x Hx). lia.
  Qed.
  Lemma ss_filter (P : nat -> Prop) `{forall x, Decision (P x)} (l : list nat) : StronglySorted lt l -> StronglySorted lt (filter P l).
  Proof.
    induction 1 as [|x l Hl IH Hf]; [constructor|]. destruct (decide (P x)) as [p|p].
    - rewrite filter_cons_True by exact p. constructor; [exact IH|]. rewrite Forall_forall in *. intros y Hy.
      apply elem_of_list_filter in Hy as [_ Hy]. apply Hf, Hy.
    - rewrite filter_cons_False by exact p. exact IH.
  Qed.

  (** rows < [m] have been removed *)
  Definition dep (m i : nat) : list nat := filter (fun c => Nat.min m i <= c) (rowcols i).
  Definition deps (m : nat) (d : list (list nat)) : Prop := length d = n /\ forall i, i < n -> d !! i = Some (dep m i).

  Lemma dependency_lists_spec : ok (dependency_lists M) (deps 0).
  Proof.
    unfold dependency_lists. eapply ok_mono; [apply ok_mapr with (Q := fun i l => l = rowcols i)|].
    - intros k i Hk. apply lookup_seq in Hk as [-> Hk]. rewrite Nat.add_0_l in *.
      eapply ok_bind; [eapply ok_get; [apply (wf_browptr M _ Hw); lia|exact eq_refl]|]. intros ? <-.
      eapply ok_bind; [eapply ok_get; [apply (wf_browptr M _ Hw); lia|exact eq_refl]|]. intros ? <-.
      eapply ok_mono; [apply ok_mapr with (Q := fun x c => c = col M (rp M k + x))|].
      + intros x j Hx. pose proof (lookup_lt_Some _ _ _ Hx) as Hlt. rewrite range_length in Hlt.
        rewrite range_lookup in Hx by lia. injection Hx as <-.
        eapply ok_get; [apply (wf_bcolind M _ Hw)|reflexivity]. apply (inrow_lt M k _ Hw). split; [exact Hk|lia].
      + intros l [Hl H]. rewrite range_length in Hl. unfold rowcols. apply list_eq_lt; [rewrite fmap_length, range_length; exact Hl|].
        intros x Hx. rewrite list_lookup_fmap, range_lookup by lia. simpl.
        destruct (lookup_lt_is_Some_2 l x Hx) as [c Ec]. rewrite Ec. f_equal. apply H, Ec.
    - intros d [Hl H]. rewrite seq_length in Hl. split; [exact Hl|]. intros i Hi.
      destruct (lookup_lt_is_Some_2 d i) as [l El]; [lia|]. rewrite El, (H i l El). f_equal. unfold dep. symmetry.
      assert (forall l : list nat, filter (fun c => Nat.min 0 i <= c) l = l) as Hf; [|apply Hf].
      clear. induction l as [|x l IH]; [reflexivity|]. rewrite filter_cons_True by lia. f_equal. exact IH.
  Qed.
  Lemma dep_head m i : i < n -> m <= i -> exists front rest, dep m i = front :: rest /\
    (i <= front <-> forall c, pos M i c <> None -> m <= c -> i <= c).
  Proof.
    intros Hi Hm. assert (i ∈ dep m i) as Hin.
    { apply elem_of_list_filter. split; [lia|]. apply rowcols_elem; auto. }
    assert (StronglySorted lt (dep m i)) as Hss by (apply ss_filter, rowcols_sorted, Hi).
    destruct (dep m i) as [|front rest] eqn:E; [apply elem_of_nil in Hin as []|]. exists front, rest. split; [reflexivity|].
    apply StronglySorted_inv in Hss as [_ Hf]. rewrite Forall_forall in Hf. split.
    - intros Hle c Hc Hmc. assert (c ∈ dep m i) as Hcin.
      { apply elem_of_list_filter. split; [lia|]. apply rowcols_elem; auto. }
      rewrite E in Hcin. apply elem_of_cons in Hcin as [->|Hcin]; [exact Hle|]. specialize (Hf c Hcin). lia.
    - intros H. assert (front ∈ dep m i) as Hfin by (rewrite E; constructor). apply elem_of_list_filter in Hfin as [H1 H2].
      apply H; [apply rowcols_elem; auto|lia].
  Qed.
  (** the next level *)
  Lemma run_spec m d : deps m d -> forall k i, i + k = n -> m <= i ->
    ok (independent_run k d i) (fun e => i <= e <= n /\ (forall r c, i <= r < e -> pos M r c <> None -> m <= c -> r <= c) /\ (i = m -> 0 < k -> i < e)).
  Proof.
    intros [Ld Hdep]. induction k as [|k IH]; intros i Hik Hm; cbn [independent_run].
    - simpl. split; [lia|]. split; [intros; lia|lia].
    - eapply ok_bind; [eapply ok_get; [apply Hdep; lia|exact eq_refl]|]. intros ? <-.
      destruct (dep_head m i ltac:(lia) Hm) as (front & rest & -> & Hf). destruct (Nat.leb_spec i front) as [Hle|Hgt].
      + eapply ok_mono; [apply IH; lia|]. intros e (H1 & H2 & _). split; [lia|]. split; [|lia].
        intros r c Hr Hc Hmc. destruct (decide (r = i)) as [->|]; [apply Hf; auto|apply H2; auto; lia].
      + simpl. split; [lia|]. split; [intros; lia|]. intros -> _. exfalso.
        assert (m <= front); [|lia]. apply Hf. auto.
  Qed.
  Lemma remove_spec m d : m < n -> deps m d -> ok (remove_node m (dep m m) d) (deps (m + 1)).
  Proof.
    intros Hm [Ld Hdep]. unfold remove_node.
    eapply ok_mono; [apply ok_doall with (I := fun dn d' => length d' = n /\ forall i, i < n ->
      d' !! i = Some (if decide (i ∈ dn) then dep (m + 1) i else dep m i))|].
    - split; [exact Ld|]. intros i Hi. rewrite decide_False by (intros H; apply elem_of_nil in H as []). apply Hdep, Hi.
    - intros dn u rest d' E [Ld' H]. assert (u ∈ dep m m) as Hu by (rewrite E; apply elem_of_app; right; constructor).
      assert (NoDup (dep m m)) as Hnd by (apply ss_nodup, ss_filter, rowcols_sorted, Hm). rewrite E in Hnd.
      apply NoDup_app in Hnd as (_ & Hnd & _).
      apply elem_of_list_filter in Hu as [Hmu Hu]. assert (u < n) as Hun by (apply (rowcols_lt m); auto).
      assert (forall i, i <> u -> (i ∈ dn ++ [u]) <-> i ∈ dn) as Hdn.
      { intros i Hi. rewrite elem_of_app, elem_of_list_singleton. tauto. }
      destruct (Nat.eqb_spec u m) as [->|Hne].
      + simpl. split; [exact Ld'|]. intros i Hi. rewrite H by exact Hi.
        destruct (decide (i = m)) as [->|Him].
        * assert (dep (m + 1) m = dep m m) as Edep by (apply filter_ext_in; intros; lia).
          destruct (decide (m ∈ dn)), (decide (m ∈ dn ++ [m])); rewrite ?Edep; reflexivity.
        * destruct (decide (i ∈ dn)) as [D1|D1], (decide (i ∈ dn ++ [m])) as [D2|D2]; rewrite (Hdn i Him) in D2; tauto.
      + eapply ok_bind; [eapply ok_get; [apply H, Hun|exact eq_refl]|]. intros ? <-.
        rewrite decide_False by (intros Hin; apply (Hnd u Hin); constructor).
        assert (m ∈ dep m u) as Hmin.
        { apply elem_of_list_filter. split; [lia|]. apply rowcols_elem; [exact Hun|]. apply Hsym; auto. apply rowcols_elem; auto. }
        rewrite erase_first_spec; [|apply ss_nodup, ss_filter, rowcols_sorted, Hun|exact Hmin].
        apply ok_set; [lia|]. split; [rewrite insert_length; exact Ld'|]. intros i Hi.
        destruct (decide (u = i)) as [<-|Hui].
        * rewrite list_lookup_insert by lia. rewrite decide_True by (apply elem_of_app; right; constructor). f_equal.
          unfold dep. rewrite filter_two. apply filter_ext_in. intros; lia.
        * rewrite list_lookup_insert_ne by exact Hui. rewrite H by exact Hi.
          destruct (decide (i ∈ dn)) as [D1|D1], (decide (i ∈ dn ++ [u])) as [D2|D2]; rewrite (Hdn i ltac:(auto)) in D2; tauto.
    - intros d' [Ld' H]. split; [exact Ld'|]. intros i Hi. rewrite H by exact Hi. f_equal.
      destruct (decide (i ∈ dep m m)) as [|Hni]; [reflexivity|]. unfold dep. apply filter_ext_in. intros c Hc.
      destruct (decide (i <= m)) as [|Hgt]; [lia|]. destruct (decide (c = m)) as [->|]; [exfalso|lia].
      apply Hni, elem_of_list_filter. split; [lia|]. apply rowcols_elem; [exact Hm|]. apply Hsym; auto. apply rowcols_elem; auto.
  Qed.
  Lemma removes_spec m e d : m <= e <= n -> deps m d ->
    ok (for_ m e (fun jnode depends => let! l := get depends jnode in remove_node jnode l depends) d) (deps e).
  Proof.
    intros He Hm. apply ok_for; [lia|exact Hm|]. intros i d' Hi Hd'.
    eapply ok_bind; [eapply ok_get; [apply Hd'; lia|exact eq_refl]|]. intros ? <-. apply remove_spec; [lia|exact Hd'].
  Qed.
  (** the levels found so far, ending at [m] *)
  Definition lev_inv (m : nat) (levels : list nat) : Prop :=
    levels !! 0 = Some 0 /\ last levels = Some m /\ m <= n /\
    (forall l a b, levels !! l = Some a -> levels !! (l + 1) = Some b -> a < b) /\
    (forall l a b r c, levels !! l = Some a -> levels !! (l + 1) = Some b -> a <= r < b -> pos M r c <> None -> a <= c -> r <= c).
  Lemma loop_spec fuel : forall m d levels, n - m <= fuel -> deps m d -> lev_inv m levels ->
    ok (level_loop fuel n d m m levels) (lev_inv n).
  Proof.
    induction fuel as [|fuel IH]; intros m d levels Hf Hdm Hl; cbn [level_loop]; (destruct (Nat.leb_spec n m) as [Hge|Hlt]).
    - simpl. assert (m = n) as <- by (destruct Hl as (_ & _ & H & _); lia). exact Hl.
    - lia.
    - simpl. assert (m = n) as <- by (destruct Hl as (_ & _ & H & _); lia). exact Hl.
    - eapply ok_bind; [apply (run_spec m d Hdm); lia|]. intros e (He & Hrun & Hprog). specialize (Hprog eq_refl ltac:(lia)).
      eapply ok_bind; [apply removes_spec; [|exact Hdm]; lia|]. intros d' Hd'.
      apply IH; [lia|exact Hd'|]. destruct Hl as (L0 & Ll & Lm & Linc & Lind).
      assert (forall l a b, (levels ++ [e]) !! l = Some a -> (levels ++ [e]) !! (l + 1) = Some b ->
        (levels !! l = Some a /\ levels !! (l + 1) = Some b) \/ (a = m /\ b = e)) as Hcase.
      { intros l a b Ha Hb. destruct (decide (l + 1 < length levels)) as [Hin|Hout].
        - left. rewrite lookup_app_l in Ha, Hb by lia. auto.
        - right. apply lookup_lt_Some in Hb as Hb'. rewrite app_length in Hb'. simpl in Hb'. assert (l + 1 = length levels) as El by lia.
          rewrite lookup_app_l in Ha by lia. rewrite last_lookup in Ll. replace (Nat.pred (length levels)) with l in Ll by lia.
          rewrite El, lookup_app_r, Nat.sub_diag in Hb by lia. simpl in Hb. split; congruence. }
      split; [apply lookup_app_l_Some, L0|]. split; [apply last_snoc|]. split; [lia|]. split.
      + intros l a b Ha Hb. destruct (Hcase l a b Ha Hb) as [[Ha' Hb']|[-> ->]]; [eauto|lia].
      + intros l a b r c Ha Hb Hr Hc Hac. destruct (Hcase l a b Ha Hb) as [[Ha' Hb']|[-> ->]]; [eauto|]. apply Hrun; auto.
  Qed.
  Lemma computeLevels_spec fuel : n <= fuel -> ok (computeLevels fuel M) (lev_inv n).
  Proof.
    intros Hf. unfold computeLevels. eapply ok_bind; [apply dependency_lists_spec|]. intros d Hdm. apply loop_spec; [lia|exact Hdm|].
    split; [reflexivity|]. split; [reflexivity|]. split; [lia|]. split; intros l a b; intros; destruct l; discriminate.
  Qed.
End Proof.

(** Symmetric sorted pattern with full diagonal: the computation ends (after at most as many
    passes as there are rows); the bounds start at 0, end at n and increase strictly; no two
    different rows of a level are coupled; and whatever a row is coupled to among earlier
    rows belongs to earlier levels. [valid_levels] is the hypothesis about level
    schedules in C37 and C39. *)
Theorem C26_valid_levels : forall (A : Type) (M : srmat A) fuel,
  wf_pat M -> wf_sorted M -> full_diagonal M -> sym_pattern M -> nbrows M <= fuel ->
  exists levels, computeLevels fuel M = Ok levels /\ valid_levels M levels /\
    (forall l a b, levels !! l = Some a -> levels !! (l + 1) = Some b -> a < b) /\
    (forall l a b i c, levels !! l = Some a -> levels !! (l + 1) = Some b -> a <= i < b -> c < i -> pos M i c <> None -> c < a).
Proof.
  intros A M fuel Hw Hs Hd Hsym Hf.
  destruct (proj1 (ok_inv _ _) (computeLevels_spec M Hw Hs Hd Hsym fuel Hf)) as (levels & E & L0 & Ll & _ & Linc & Lind).
  exists levels. split; [exact E|].
  assert (forall l b, levels !! l = Some b -> b <= nbrows M) as Hle.
  { intros l b Hl. rewrite last_lookup in Ll.
    assert (forall k l b, l + k = Nat.pred (length levels) -> levels !! l = Some b -> b <= nbrows M) as Hk.
    { induction k as [|k IH]; intros l' b' El Eb.
      - rewrite Nat.add_0_r in El. subst l'. rewrite Ll in Eb. injection Eb as <-. lia.
      - destruct (lookup_lt_is_Some_2 levels (l' + 1)) as [b2 E2]; [lia|].
        pose proof (Linc l' b' b2 Eb E2). specialize (IH (l' + 1) b2 ltac:(lia) E2). lia. }
    apply lookup_lt_Some in Hl as Hl'. apply (Hk (Nat.pred (length levels) - l) l b); [lia|exact Hl]. }
  split; [|split; [exact Linc|]].
  - split; [exact L0|]. split; [exact Ll|]. split.
    + intros l a b Ha Hb. pose proof (Linc l a b Ha Hb). lia.
    + intros l a b i c Ha Hb Hi Hc Hne. pose proof (Hle _ _ Hb).
      destruct (pos M i c) as [k|] eqn:Ek; [exfalso|reflexivity]. assert (pos M i c <> None) as Hp by congruence.
      assert (pos M c i <> None) as Hp' by (apply Hsym; auto; lia).
      pose proof (Lind l a b i c Ha Hb Hi Hp ltac:(lia)). pose proof (Lind l a b c i Ha Hb Hc Hp' ltac:(lia)). lia.
  - intros l a b i c Ha Hb Hi Hci Hp. destruct (decide (c < a)); [assumption|]. pose proof (Lind l a b i c Ha Hb Hi Hp ltac:(lia)). lia.
Qed.
Example C26_case : wf_pat exL /\ wf_sorted exL /\ full_diagonal exL /\ sym_pattern exL /\ computeLevels 4 exL = Ok [0; 2; 4].
Proof.
  split; [apply exL_pat|]. split; [apply exL_sorted|]. split; [|split; [|reflexivity]].
  - intros i Hi. simpl in Hi. do 4 (destruct i as [|i]; [discriminate|]). lia.
  - intros i j Hi Hj. simpl in Hi, Hj.
    do 4 (destruct i as [|i]; [do 4 (destruct j as [|j]; [vm_compute; congruence|]); lia|]). lia.
Qed.

(** Unsymmetric patterns: for a lower triangular one the loop does not end, however long it runs *)
Definition lowM : srmat nat := SR [0; 1; 3] [0; 0; 1] [1; 1; 1] [0; 2] [1; 3] 2 3 3.
Theorem C26_unsymmetric_refuted : wf_pat lowM /\ wf_sorted lowM /\ full_diagonal lowM /\
  forall fuel, computeLevels fuel lowM = Fuel.
Proof.
  split; [apply wfb_pat_ok; reflexivity|]. split; [apply wfb_sorted_ok; reflexivity|]. split.
  - intros i Hi. simpl in Hi. do 2 (destruct i as [|i]; [discriminate|]). lia.
  - intros fuel. unfold computeLevels. change (dependency_lists lowM) with (Ok [[0]; [0; 1]]). cbn [bind].
    destruct fuel as [|fuel]; [reflexivity|].
    change (level_loop (S fuel) (nbrows lowM) [[0]; [0; 1]] 0 0 [0]) with (level_loop fuel 2 [[0]; [0; 1]] 1 1 [0; 1]).
    generalize [0; 1] at 2. induction fuel as [|fuel IH]; intros levels; [reflexivity|].
    change (level_loop (S fuel) 2 [[0]; [0; 1]] 1 1 levels) with (level_loop fuel 2 [[0]; [0; 1]] 1 1 (levels ++ [1])). apply IH.
Qed.
(** ... and for an upper triangular one an exception is thrown *)
Example C26_unsymmetric_error : computeLevels 5 (SR [0; 2; 3] [0; 1; 1] [1; 1; 1] [0; 2] [2; 3] 2 3 3) = Throw "Faulty dependency list!".
Proof. reflexivity. Qed.

Print Assumptions C26_valid_levels.
Print Assumptions C26_unsymmetric_refuted.
