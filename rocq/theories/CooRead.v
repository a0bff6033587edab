(** * CooRead: proofs about reading a coordinate file *)
From Verif Require Import Base Alg SRMatrix Nd Reorder Coo CooSpec CooFacts.
From stdpp Require Import sorting.
From Coq Require Import ZArith.
Open Scope nat_scope.

(** there is an outcome, and the only outcome is undefined behaviour *)
Definition only_UB {A} (m : nd A) : Prop := (exists o, m o) /\ forall o, m o -> o = UB.
Lemma only_UB_bind {A B} (m : nd A) (k : A -> nd B) P : nok m P -> (forall a, P a -> only_UB (k a)) -> only_UB (nbind m k).
Proof.
  intros [[o Ho] H] Hk. split.
  - pose proof (H o Ho) as Hok. destruct o as [a| | |]; try contradiction. destruct (Hk a Hok) as [[o' Ho'] _]. exists o', (Ok a). auto.
  - intros o' (x & Hx & Hm). pose proof (H x Hx) as Hok. destruct x as [a| | |]; try contradiction. apply (Hk a Hok), Hm.
Qed.
Lemma only_UB_bind_l {A B} (m : nd A) (k : A -> nd B) : only_UB m -> only_UB (nbind m k).
Proof.
  intros [[o Ho] H]. split.
  - exists UB, UB. split; [|reflexivity]. rewrite (H o Ho) in Ho. exact Ho.
  - intros o' (x & Hx & Hm). rewrite (H x Hx) in Hm. exact Hm.
Qed.
(** a loop that reaches, by good iterations, one that is undefined *)
Lemma only_UB_nfor {St} lo mid hi (body : nat -> St -> nd St) (s : St) (I : nat -> St -> Prop) : lo <= mid < hi ->
  I lo s -> (forall i s', lo <= i < mid -> I i s' -> nok (body i s') (I (i + 1))) -> (forall s', I mid s' -> only_UB (body mid s')) ->
  only_UB (nfor lo hi body s).
Proof.
  intros Hm H0 Hb HU. unfold nfor.
  assert (forall n i s, i + n = hi -> lo <= i <= mid -> I i s -> only_UB (nfor_n n i body s)) as H.
  { induction n as [|n IH]; intros i s1 Hn Hi HI; [lia|]. cbn [nfor_n]. destruct (decide (i = mid)) as [->|Hne].
    - apply only_UB_bind_l, HU, HI.
    - eapply only_UB_bind; [apply Hb; [lia|exact HI]|]. intros s2 H2. apply IH; [lia|lia|exact H2]. }
  apply H; [lia|lia|exact H0].
Qed.

Section Sort.
  Context {F : Type}.
  Implicit Types es : list (entry F).
  Lemma sorted_exists (key : entry F -> nat) (l : list (entry F)) :
    exists l', l' ≡ₚ l /\ forall i j x y, i < j -> l' !! i = Some x -> l' !! j = Some y -> key x <= key y.
  Proof.
    set (R := fun a b => key a <= key b). assert (RelDecision R) as HR by (intros a b; unfold R; apply _).
    exists (merge_sort R l). split; [apply merge_sort_Permutation|].
    assert (StronglySorted R (merge_sort R l)) as H.
    { apply StronglySorted_merge_sort; [intros a b c; unfold R; lia|intros a b; unfold R; lia]. }
    revert H. generalize (merge_sort R l) as l'.
    induction 1 as [|a l' H IH Hf]; intros i j x y Hij Hx Hy; [rewrite lookup_nil in Hx; discriminate|].
    destruct j as [|j]; [lia|]. simpl in Hy. destruct i as [|i].
    - injection Hx as <-. rewrite Forall_forall in Hf. apply Hf. apply elem_of_list_lookup_2 in Hy. exact Hy.
    - simpl in Hx. apply (IH i j x y); auto; lia.
  Qed.
  Lemma nok_sort_range (key : entry F -> nat) a b es (Q : list (entry F) -> Prop) : a <= b <= length es ->
    (forall mid, mid ≡ₚ take (b - a) (drop a es) ->
      (forall i j x y, i < j -> mid !! i = Some x -> mid !! j = Some y -> key x <= key y) -> Q (take a es ++ mid ++ drop b es)) ->
    nok (sort_range key a b es) Q.
  Proof.
    intros Hab HQ. unfold sort_range. split.
    - destruct (sorted_exists key (take (b - a) (drop a es))) as (mid & Hp & Hs). eexists. rewrite decide_True by exact Hab. exists mid. eauto.
    - intros o. rewrite decide_True by exact Hab. intros (mid & Hp & Hs & ->). simpl. apply HQ; assumption.
  Qed.
End Sort.

Section Pointers.
  Context {F : Type}.
  Variables (nr nc : nat) (oldptr : list nat) (es : list (entry F)).
  Hypothesis Hne : es <> [].
  Hypothesis Hrow : forall e, e ∈ es -> rowind e < nr /\ colind e < nc.
  Hypothesis Hsort : forall i j x y, i < j -> es !! i = Some x -> es !! j = Some y -> rowind x <= rowind y.

  (** position [a] separates the rows below [i] from the others *)
  Definition sepr (i a : nat) : Prop := a <= length es /\ forall k e, es !! k = Some e -> (k < a <-> rowind e < i).

  (** ** no empty row *)
  Section Full.
    Hypothesis Hfull : forall i, i < nr -> exists e, e ∈ es /\ rowind e = i.
    Lemma next_row k e e' : es !! k = Some e' -> es !! (k + 1) = Some e -> rowind e <= rowind e' + 1.
    Proof.
      intros He' He. destruct (decide (rowind e' + 1 < nr)) as [Hlt|].
      - destruct (Hfull _ Hlt) as (x & Hx & Ex). apply elem_of_list_lookup in Hx as [j Hj].
        destruct (decide (j <= k)) as [Hjk|Hjk].
        + assert (rowind x <= rowind e'); [|lia]. destruct (decide (j = k)) as [->|]; [rewrite Hj in He'; injection He' as <-; lia|].
          apply (Hsort j k); auto. lia.
        + rewrite <- Ex. destruct (decide (j = k + 1)) as [->|]; [rewrite Hj in He; injection He as <-; lia|]. apply (Hsort (k + 1) j); auto. lia.
      - apply elem_of_list_lookup_2, Hrow in He as [He _]. lia.
    Qed.
    Lemma first_row e : es !! 0 = Some e -> rowind e = 0.
    Proof.
      intros He. destruct (decide (nr = 0)) as [E|]; [apply elem_of_list_lookup_2, Hrow in He as [He _]; lia|].
      destruct (Hfull 0 ltac:(lia)) as (x & Hx & Ex). apply elem_of_list_lookup in Hx as [j Hj].
      destruct (decide (j = 0)) as [->|]; [congruence|]. pose proof (Hsort 0 j e x ltac:(lia) He Hj). lia.
    Qed.
    Lemma last_row e : es !! (length es - 1) = Some e -> rowind e + 1 = nr.
    Proof.
      intros He. pose proof (elem_of_list_lookup_2 _ _ _ He) as Hin. apply Hrow in Hin as [Hr _].
      destruct (Hfull (nr - 1) ltac:(lia)) as (x & Hx & Ex). apply elem_of_list_lookup in Hx as [j Hj]. pose proof (lookup_lt_Some _ _ _ Hj).
      destruct (decide (j = length es - 1)) as [->|]; [rewrite Hj in He; injection He as <-; lia|].
      pose proof (Hsort j (length es - 1) x e ltac:(lia) Hj He). lia.
    Qed.
    Definition pinv (k : nat) (s : list (option nat) * list nat * nat) : Prop :=
      let '(its, ptr, next) := s in
      length its = nr + 1 /\ length ptr = nr + 1 /\ (forall e, es !! (k - 1) = Some e -> next = rowind e + 1) /\
      forall i, i < next -> exists a, its !! i = Some (Some a) /\ ptr !! i = Some a /\ sepr i a.
    Lemma ptr_step_spec k s : 1 <= k < length es -> pinv k s -> ok (ptr_step es k s) (pinv (k + 1)).
    Proof.
      destruct s as [[its ptr] next]. intros Hk (Li & Lp & Hn & H). unfold ptr_step.
      destruct (lookup_lt_is_Some_2 es k) as [e He]; [lia|]. destruct (lookup_lt_is_Some_2 es (k - 1)) as [e' He']; [lia|].
      eapply ok_bind; [eapply ok_get; [exact He|exact eq_refl]|]. intros ? <-.
      eapply ok_bind; [eapply ok_get; [exact He'|exact eq_refl]|]. intros ? <-.
      specialize (Hn e' He'). pose proof (next_row (k - 1) e e' He') as Hnext. replace (k - 1 + 1) with k in Hnext by lia. specialize (Hnext He).
      pose proof (Hsort (k - 1) k e' e ltac:(lia) He' He) as Hle.
      pose proof (proj1 (Hrow e (elem_of_list_lookup_2 _ _ _ He))) as Hr.
      destruct (Nat.eqb_spec (rowind e) (rowind e')) as [Heq|Hneq]; simpl negb; cbn iota.
      - simpl. replace (k + 1 - 1) with k by lia. split; [exact Li|]. split; [exact Lp|]. split; [|exact H].
        intros e2 He2. assert (e2 = e) as -> by congruence. lia.
      - rewrite set_Ok by lia. cbn [bind]. rewrite set_Ok by lia. cbn [bind]. simpl. rewrite !insert_length.
        replace (k + 1 - 1) with k by lia. split; [exact Li|]. split; [exact Lp|]. split.
        + intros e2 He2. assert (e2 = e) as -> by congruence. lia.
        + intros i Hi. destruct (decide (next = i)) as [<-|Hni].
          * exists k. rewrite !list_lookup_insert by lia. split; [reflexivity|]. split; [reflexivity|]. split; [lia|].
            intros j x Hj. split.
            -- intros Hjk. destruct (decide (j = k - 1)) as [->|]; [rewrite He' in Hj; injection Hj as <-; lia|].
               pose proof (Hsort j (k - 1) x e' ltac:(lia) Hj He'). lia.
            -- intros Hx. destruct (decide (j < k)); [assumption|].
               destruct (decide (j = k)) as [->|]; [rewrite He in Hj; injection Hj as <-; lia|].
               pose proof (Hsort k j e x ltac:(lia) He Hj). lia.
          * rewrite !list_lookup_insert_ne by exact Hni. apply H. lia.
    Qed.
    (** ** sorting the rows *)
    Definition sinv (i : nat) (es' : list (entry F)) : Prop :=
      es' ≡ₚ es /\ (forall k, rowind <$> es' !! k = rowind <$> es !! k) /\
      forall k1 k2 e1 e2, k1 < k2 -> es' !! k1 = Some e1 -> es' !! k2 = Some e2 -> rowind e1 = rowind e2 -> rowind e1 < i -> colind e1 <= colind e2.
    Lemma sort_row i a b es' : i < nr -> sepr i a -> sepr (i + 1) b -> sinv i es' ->
      nok (sort_range colind a b es') (sinv (i + 1)).
    Proof.
      intros Hi [La Ha] [Lb Hb] (Hp & Hr & Hs). assert (length es' = length es) as L by (apply Permutation_length, Hp).
      assert (a <= b) as Hab.
      { destruct (decide (a = 0)) as [|Hn0]; [lia|]. destruct (lookup_lt_is_Some_2 es (a - 1)) as [e He]; [lia|].
        pose proof (Ha _ _ He). pose proof (Hb _ _ He). lia. }
      assert (forall k e, es' !! k = Some e -> (k < a <-> rowind e < i) /\ (k < b <-> rowind e < i + 1)) as Hsep.
      { intros k e He. specialize (Hr k). rewrite He in Hr. simpl in Hr. destruct (es !! k) as [e0|] eqn:E0; [|discriminate].
        simpl in Hr. injection Hr as Hr. rewrite Hr. split; [apply Ha, E0|apply Hb, E0]. }
      apply nok_sort_range; [lia|]. intros mid Hmid Hms. pose proof (Permutation_length Hmid) as Lm. rewrite take_length, drop_length in Lm.
      assert (length (take a es') = a) as Lt by (rewrite take_length; lia).
      assert (forall k, k < length mid -> exists e, mid !! k = Some e /\ rowind e = i) as Hmi.
      { intros k Hk. destruct (lookup_lt_is_Some_2 mid k Hk) as [e He]. exists e. split; [exact He|].
        apply elem_of_list_lookup_2 in He. rewrite Hmid in He. apply elem_of_list_lookup in He as [j Hj].
        apply lookup_take_Some in Hj as [Hj Hjl]. rewrite lookup_drop in Hj. destruct (Hsep _ _ Hj). lia. }
      assert (forall k e, (take a es' ++ mid ++ drop b es') !! k = Some e ->
        (k < a /\ es' !! k = Some e) \/ (a <= k < b /\ mid !! (k - a) = Some e /\ rowind e = i) \/ (b <= k /\ es' !! k = Some e)) as Hlk.
      { intros k e He. destruct (decide (k < a)) as [H1|H1].
        - left. rewrite lookup_app_l in He by lia. rewrite lookup_take in He by exact H1. auto.
        - right. rewrite lookup_app_r, Lt in He by lia. destruct (decide (k < b)) as [H2|H2].
          + left. rewrite lookup_app_l in He by lia. split; [lia|]. split; [exact He|].
            destruct (Hmi (k - a) ltac:(lia)) as (e' & He' & Hi'). congruence.
          + right. rewrite lookup_app_r in He by lia. rewrite lookup_drop in He. replace (b + (k - a - length mid)) with k in He by lia. split; [lia|exact He]. }
      split; [|split].
      - rewrite Hmid. rewrite <- Hp. rewrite <- (take_drop a es') at 4. f_equiv. rewrite <- (take_drop (b - a) (drop a es')) at 2.
        f_equiv. rewrite drop_drop. replace (a + (b - a)) with b by lia. reflexivity.
      - intros k. destruct ((take a es' ++ mid ++ drop b es') !! k) as [e|] eqn:Ek.
        + destruct (Hlk k e Ek) as [[Hk H]|[(Hk & H & Hei)|[Hk H]]].
          * rewrite <- Hr, H. reflexivity.
          * rewrite <- Hr. destruct (lookup_lt_is_Some_2 es' k) as [e2 He2]; [lia|]. rewrite He2. simpl. f_equal. destruct (Hsep _ _ He2). lia.
          * rewrite <- Hr, H. reflexivity.
        + apply lookup_ge_None in Ek. rewrite !app_length, drop_length, Lt in Ek. rewrite (proj2 (lookup_ge_None es k)) by lia. reflexivity.
      - intros k1 k2 e1 e2 H12 H1 H2 Hr12 Hlt.
        destruct (Hlk k1 e1 H1) as [[K1 E1]|[(K1 & E1 & R1)|[K1 E1]]]; destruct (Hlk k2 e2 H2) as [[K2 E2]|[(K2 & E2 & R2)|[K2 E2]]];
          try (destruct (Hsep _ _ E1)); try (destruct (Hsep _ _ E2)); try lia.
        + apply (Hs k1 k2); auto. lia.
        + apply (Hms (k1 - a) (k2 - a) e1 e2); auto; lia.
    Qed.
    Lemma row_pointers_spec : nok (row_pointers oldptr (length es) nr nc es) (fun c =>
      coo_ok c /\ entries c ≡ₚ es /\ nrows c = nr /\ ncols c = nc /\
      forall k1 k2 e1 e2, k1 < k2 -> entries c !! k1 = Some e1 -> entries c !! k2 = Some e2 -> rowind e1 = rowind e2 -> colind e1 <= colind e2).
    Proof.
      unfold row_pointers. assert (0 < length es) as Hlen by (destruct es; [tauto|simpl; lia]).
      assert (length (vresize (nr + 1) oldptr) = nr + 1) as Lv. { unfold vresize. rewrite app_length, take_length, replicate_length. lia. }
      rewrite set_Ok by lia. eapply nok_bind with (P := fun x => x = <[0:=0]> (vresize (nr + 1) oldptr)); [apply nok_ret; reflexivity|]. intros ? ->.
      rewrite set_Ok by (rewrite replicate_length; lia).
      eapply nok_bind with (P := fun x => x = <[0:=Some 0]> (replicate (nr + 1) None)); [apply nok_ret; reflexivity|]. intros ? ->.
      destruct (Nat.eqb_spec (length es) 0) as [|_]; [lia|].
      eapply nok_bind with (P := fun _ => True); [apply nok_ret; exact I|]. intros _ _.
      eapply nok_bind with (P := pinv (length es)).
      { apply nok_lift, ok_for; [lia| |intros; apply ptr_step_spec; auto].
        simpl. rewrite !insert_length, replicate_length. split; [reflexivity|]. split; [exact Lv|]. split.
        - intros e He. rewrite (first_row e He). reflexivity.
        - intros i Hi. replace i with 0 by lia. exists 0. rewrite !list_lookup_insert by (rewrite ?replicate_length; lia).
          split; [reflexivity|]. split; [reflexivity|]. split; [lia|]. intros; lia. }
      intros [[its ptr] next] (Li & Lp & Hn & H). cbn iota.
      destruct (lookup_lt_is_Some_2 es (length es - 1)) as [el Hel]; [lia|]. specialize (Hn el Hel). rewrite (last_row el Hel) in Hn. subst next.
      rewrite set_Ok by lia. eapply nok_bind with (P := fun x => x = <[nr:=Some (length es)]> its); [apply nok_ret; reflexivity|]. intros ? ->.
      rewrite set_Ok by lia. eapply nok_bind with (P := fun x => x = <[nr:=length es]> ptr); [apply nok_ret; reflexivity|]. intros ? ->.
      assert (forall i, i <= nr -> exists a, <[nr:=Some (length es)]> its !! i = Some (Some a) /\ <[nr:=length es]> ptr !! i = Some a /\ sepr i a) as H'.
      { intros i Hi. destruct (decide (i = nr)) as [->|].
        - exists (length es). rewrite !list_lookup_insert by lia. split; [reflexivity|]. split; [reflexivity|]. split; [lia|].
          intros k e He. pose proof (lookup_lt_Some _ _ _ He). apply elem_of_list_lookup_2, Hrow in He. lia.
        - rewrite !list_lookup_insert_ne by auto. apply H. lia. }
      set (its' := <[nr:=Some (length es)]> its) in *. set (ptr' := <[nr:=length es]> ptr) in *.
      eapply nok_bind with (P := sinv nr).
      { eapply nok_nfor with (I := sinv).
        - lia.
        - split; [reflexivity|]. split; [reflexivity|]. intros; lia.
        - intros i es' Hi Hs. destruct (H' i ltac:(lia)) as (a & Ea & _ & Hsa). destruct (H' (i + 1) ltac:(lia)) as (b & Eb & _ & Hsb).
          eapply nok_bind with (P := fun x => x = Some a); [apply nok_lift; eapply ok_get; [exact Ea|reflexivity]|]. intros ? ->.
          eapply nok_bind with (P := fun x => x = Some b); [apply nok_lift; eapply ok_get; [exact Eb|reflexivity]|]. intros ? ->.
          apply sort_row; auto. lia.
        - auto. }
      intros es' (Hp & Hr & Hs). apply nok_ret. simpl.
      assert (forall e, e ∈ es' -> rowind e < nr /\ colind e < nc) as Hrow' by (intros e He; rewrite Hp in He; apply Hrow, He).
      assert (forall k e, es' !! k = Some e -> forall i a, sepr i a -> (k < a <-> rowind e < i)) as Hsp.
      { intros k e He i a [_ Ha]. specialize (Hr k). rewrite He in Hr. destruct (es !! k) as [e0|] eqn:E0; [|discriminate].
        simpl in Hr. injection Hr as ->. apply Ha, E0. }
      assert (length es' = length es) as L by (apply Permutation_length, Hp).
      split; [|split; [exact Hp|split; [reflexivity|split; [reflexivity|]]]].
      - constructor; simpl.
        + lia.
        + unfold ptr'. rewrite insert_length. exact Lp.
        + destruct (H' 0 ltac:(lia)) as (a & _ & Ea & [La Ha]). rewrite Ea. f_equal. destruct (lookup_lt_is_Some_2 es 0 Hlen) as [e He]. specialize (Ha 0 e He). lia.
        + unfold ptr'. apply list_lookup_insert. lia.
        + intros i a b Ha Hb. apply lookup_lt_Some in Hb as Hib. unfold ptr' in Hib. rewrite insert_length in Hib.
          destruct (H' i ltac:(lia)) as (a' & _ & Ea & [La Hsa]). destruct (H' (i + 1) ltac:(lia)) as (b' & _ & Eb & [_ Hsb]).
          assert (a' = a) as -> by congruence. assert (b' = b) as -> by congruence.
          destruct (decide (a = 0)) as [|Hn0]; [lia|]. destruct (lookup_lt_is_Some_2 es (a - 1)) as [e He]; [lia|].
          pose proof (Hsa _ _ He). pose proof (Hsb _ _ He). lia.
        + intros k e He. apply Hrow'. apply elem_of_list_lookup_2 in He. exact He.
        + intros i a b k e Ha Hb He. apply lookup_lt_Some in Hb as Hib. unfold ptr' in Hib. rewrite insert_length in Hib.
          destruct (H' i ltac:(lia)) as (a' & _ & Ea & Hsa). destruct (H' (i + 1) ltac:(lia)) as (b' & _ & Eb & Hsb).
          assert (a' = a) as -> by congruence. assert (b' = b) as -> by congruence.
          pose proof (Hsp k e He _ _ Hsa). pose proof (Hsp k e He _ _ Hsb). lia.
      - intros k1 k2 e1 e2 H12 H1 H2 Hr12. apply (Hs k1 k2); auto. apply elem_of_list_lookup_2, Hrow' in H1. lia.
    Qed.
  End Full.

  (** ** an empty row *)
  Lemma row_pointers_empty r : r < nr -> (forall e, e ∈ es -> rowind e <> r) -> only_UB (row_pointers oldptr (length es) nr nc es).
  Proof.
    intros Hr Hno. unfold row_pointers. assert (0 < length es) as Hlen by (destruct es; [tauto|simpl; lia]).
    assert (length (vresize (nr + 1) oldptr) = nr + 1) as Lv. { unfold vresize. rewrite app_length, take_length, replicate_length. lia. }
    rewrite set_Ok by lia. eapply only_UB_bind with (P := fun x => x = <[0:=0]> (vresize (nr + 1) oldptr)); [apply nok_ret; reflexivity|]. intros ? ->.
    rewrite set_Ok by (rewrite replicate_length; lia).
    eapply only_UB_bind with (P := fun x => x = <[0:=Some 0]> (replicate (nr + 1) None)); [apply nok_ret; reflexivity|]. intros ? ->.
    destruct (Nat.eqb_spec (length es) 0) as [|_]; [lia|].
    eapply only_UB_bind with (P := fun _ => True); [apply nok_ret; exact I|]. intros _ _.
    eapply only_UB_bind with (P := fun '(its, ptr, next) => length its = nr + 1 /\ length ptr = nr + 1 /\ 1 <= next /\ next < nr /\
      (forall i, next <= i <= nr -> its !! i = Some None) /\ exists f : nat -> nat, f 0 = 0 /\ (forall i, i < next -> its !! i = Some (Some (f i)) /\ f i < length es) /\ forall i, i + 1 < next -> f i <= f (i + 1)).
    { apply nok_lift. eapply ok_mono; [apply ok_for with (I := fun k '(its, ptr, next) => length its = nr + 1 /\ length ptr = nr + 1 /\ 1 <= next /\
        (forall e, es !! (k - 1) = Some e -> next <= rowind e + 1 /\ (r < rowind e -> next <= rowind e)) /\
        (forall i, next <= i <= nr -> its !! i = Some None) /\
        exists f : nat -> nat, f 0 = 0 /\ (forall i, i < next -> its !! i = Some (Some (f i)) /\ f i < k) /\ forall i, i + 1 < next -> f i <= f (i + 1)); [lia| |]|].
      - rewrite !insert_length, replicate_length. split; [reflexivity|]. split; [exact Lv|]. split; [lia|]. split; [intros; lia|]. split.
        + intros i Hi. rewrite list_lookup_insert_ne by lia. apply lookup_replicate_2. lia.
        + exists (fun _ => 0). split; [reflexivity|]. split; [|lia]. intros i Hi. replace i with 0 by lia. split; [|lia]. apply list_lookup_insert. rewrite replicate_length. lia.
      - intros k [[its ptr] next] Hk (Li & Lp & Hge & Hn & H & (f & Hf0 & Hf & Hfm)). unfold ptr_step.
        destruct (lookup_lt_is_Some_2 es k) as [e He]; [lia|]. destruct (lookup_lt_is_Some_2 es (k - 1)) as [e' He']; [lia|].
        eapply ok_bind; [eapply ok_get; [exact He|exact eq_refl]|]. intros ? <-.
        eapply ok_bind; [eapply ok_get; [exact He'|exact eq_refl]|]. intros ? <-.
        specialize (Hn e' He'). pose proof (Hsort (k - 1) k e' e ltac:(lia) He' He) as Hle.
        pose proof (proj1 (Hrow e (elem_of_list_lookup_2 _ _ _ He))) as Hre. pose proof (Hno e (elem_of_list_lookup_2 _ _ _ He)).
        pose proof (Hno e' (elem_of_list_lookup_2 _ _ _ He')).
        destruct (Nat.eqb_spec (rowind e) (rowind e')) as [Heq|Hneq]; simpl negb; cbn iota.
        + simpl. replace (k + 1 - 1) with k by lia. split; [exact Li|]. split; [exact Lp|]. split; [exact Hge|]. split.
          * intros e2 He2. assert (e2 = e) as -> by congruence. lia.
          * split; [exact H|]. exists f. split; [exact Hf0|]. split; [|exact Hfm]. intros i Hi. destruct (Hf i Hi). split; [assumption|lia].
        + rewrite set_Ok by lia. cbn [bind]. rewrite set_Ok by lia. cbn [bind]. simpl. rewrite !insert_length.
          replace (k + 1 - 1) with k by lia. split; [exact Li|]. split; [exact Lp|]. split; [lia|]. split.
          * intros e2 He2. assert (e2 = e) as -> by congruence. lia.
          * split; [intros i Hi; rewrite list_lookup_insert_ne by lia; apply H; lia|].
            exists (fun i => if i =? next then k else f i). split; [destruct (Nat.eqb_spec 0 next); [lia|exact Hf0]|]. split.
            -- intros i Hi. destruct (Nat.eqb_spec i next) as [->|]; [split; [apply list_lookup_insert; lia|lia]|].
               rewrite list_lookup_insert_ne by auto. destruct (Hf i ltac:(lia)). split; [assumption|lia].
            -- intros i Hi. destruct (Nat.eqb_spec i next) as [->|]; [lia|]. destruct (Nat.eqb_spec (i + 1) next) as [E1|].
               ++ destruct (Hf i ltac:(lia)). lia.
               ++ apply Hfm. lia.
      - intros [[its ptr] next] (Li & Lp & Hge & Hn & H & (f & Hf0 & Hf & Hfm)). split; [exact Li|]. split; [exact Lp|]. split; [exact Hge|]. split.
        + destruct (lookup_lt_is_Some_2 es (length es - 1)) as [e He]; [lia|]. specialize (Hn e He).
          pose proof (proj1 (Hrow e (elem_of_list_lookup_2 _ _ _ He))). pose proof (Hno e (elem_of_list_lookup_2 _ _ _ He)). lia.
        + split; [exact H|]. exists f. auto. }
    intros [[its ptr] next] (Li & Lp & Hge & Hlt & H & (f & Hf0 & Hf & Hfm)). cbn iota.
    rewrite set_Ok by lia. eapply only_UB_bind with (P := fun x => x = <[nr:=Some (length es)]> its); [apply nok_ret; reflexivity|]. intros ? ->.
    rewrite set_Ok by lia. eapply only_UB_bind with (P := fun x => x = <[nr:=length es]> ptr); [apply nok_ret; reflexivity|]. intros ? ->.
    apply only_UB_bind_l. apply only_UB_nfor with (mid := next - 1) (I := fun _ es' => length es' = length es).
    - lia.
    - reflexivity.
    - intros i es' Hi L. destruct (Hf i ltac:(lia)) as [E1 B1]. destruct (Hf (i + 1) ltac:(lia)) as [E2 B2].
      eapply nok_bind with (P := fun x => x = Some (f i)); [apply nok_lift; eapply ok_get; [rewrite list_lookup_insert_ne by lia; exact E1|reflexivity]|]. intros ? ->.
      eapply nok_bind with (P := fun x => x = Some (f (i + 1))); [apply nok_lift; eapply ok_get; [rewrite list_lookup_insert_ne by lia; exact E2|reflexivity]|]. intros ? ->.
      pose proof (Hfm i ltac:(lia)). apply nok_sort_range; [lia|]. intros mid Hm _. apply Permutation_length in Hm. rewrite take_length, drop_length in Hm.
      rewrite !app_length, take_length, drop_length. lia.
    - intros es' L. destruct (Hf (next - 1) ltac:(lia)) as [E1 B1].
      eapply only_UB_bind with (P := fun x => x = Some (f (next - 1))); [apply nok_lift; eapply ok_get; [rewrite list_lookup_insert_ne by lia; exact E1|reflexivity]|]. intros ? ->.
      eapply only_UB_bind with (P := fun x => x = None); [apply nok_lift; eapply ok_get; [rewrite list_lookup_insert_ne by lia; apply H; lia|reflexivity]|]. intros ? ->.
      split; [exists UB; reflexivity|]. intros o Ho. exact Ho.
  Qed.
End Pointers.
