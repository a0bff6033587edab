(** * Reduction: OpenMP loops with reduction variables

    Every thread works on private copies of the reduction variables, which start from the identity of the operator; at the end the
    copies and the original value are combined in an unspecified order. *)
From Verif Require Import Base Nd.

(** The values [l], combined in some order, give [r] *)
Inductive combined {St} (comb : St -> St -> St) : list St -> St -> Prop :=
| cb_one s : combined comb [s] s
| cb_step l x y l' r : l ≡ₚ x :: y :: l' -> combined comb (comb x y :: l') r -> combined comb l r.

(** [#pragma omp parallel for reduction(...)]: [parts] are the iterations of the threads *)
Definition reduce_for {St} (ident : St) (comb : St -> St -> St) (lo hi : nat) (body : nat -> St -> res St) (s : St) : nd St :=
  fun o => exists parts, concat parts ≡ₚ range lo hi /\
    (ndo rs := nlift (mapr (fun p => forl p body ident) parts) in fun o => exists r, combined comb (s :: rs) r /\ o = Ok r) o.

(** The same with shared data [sh] besides: [owner i] is the thread, or the lane of a vector unit, which does iteration [i]. *)
Definition reduce_shared {St Sh} (ident : St) (comb : St -> St -> St) (lo hi : nat) (body : nat -> St -> Sh -> res (St * Sh))
    (s : St) (sh : Sh) : nd (St * Sh) :=
  fun o => exists nthr owner, (forall i : nat, owner i < nthr) /\
    (ndo (rs, sh) := par_for lo hi (fun i '(rs, sh) =>
        let! r := get rs (owner i) in
        let! (r, sh) := body i r sh in
        let! rs := set rs (owner i) r in
        Ok (rs, sh)) (replicate nthr ident, sh) in
     fun o => exists r, combined comb (s :: rs) r /\ o = Ok (r, sh)) o.

(** [Acc l s]: [s] accounts for the items [l]: [Some i] is iteration [i], [None] the original value *)
Section Rule.
  Context {St : Type} (Acc : list (option nat) -> St -> Prop) (comb : St -> St -> St).
  Hypothesis Hperm : forall l l' s, l ≡ₚ l' -> Acc l s -> Acc l' s.
  Hypothesis Hcomb : forall l1 l2 x y, Acc l1 x -> Acc l2 y -> Acc (l1 ++ l2) (comb x y).
  Lemma combined_acc l r : combined comb l r -> forall items, Forall2 Acc items l -> Acc (concat items) r.
  Proof.
    induction 1 as [s|l x y l' r Hl Hc IH]; intros items HF.
    - inversion HF as [|i ? is_ ? Hi H0]; subst. inversion H0; subst. simpl. rewrite app_nil_r. exact Hi.
    - assert (exists items', items' ≡ₚ items /\ Forall2 Acc items' (x :: y :: l')) as (items' & Hp & HF').
      { clear -HF Hl. revert items HF. generalize dependent (x :: y :: l'). intros k Hl. induction Hl as [|z l k' Hl IH|a b l|l1 l2 l3 _ IH1 _ IH2]; intros items HF.
        - inversion HF; subst. exists []. auto.
        - inversion HF as [|i ? is_ ? Hi H0]; subst. destruct (IH _ H0) as (is' & Hp & H'). exists (i :: is'). split; [constructor; exact Hp|constructor; assumption].
        - inversion HF as [|i ? is_ ? Hi H0]; subst. inversion H0 as [|j ? js ? Hj H1]; subst. exists (j :: i :: js). split; [constructor|]. repeat constructor; assumption.
        - destruct (IH1 _ HF) as (is1 & Hp1 & H1). destruct (IH2 _ H1) as (is2 & Hp2 & H2). exists is2. split; [etransitivity; eauto|exact H2]. }
      inversion HF' as [|i ? is_ ? Hi H0]; subst. inversion H0 as [|j ? js ? Hj H1]; subst.
      assert (Acc (concat ((i ++ j) :: js)) r) as Hr by (apply IH; constructor; [apply Hcomb; assumption|exact H1]).
      apply (Hperm (concat (i :: j :: js))); [|simpl in *; rewrite <- app_assoc in Hr; exact Hr].
      rewrite <- Hp. reflexivity.
  Qed.
  Lemma combined_exists s l : exists r, combined comb (s :: l) r.
  Proof.
    revert s. induction l as [|a l IH]; intros s; [exists s; constructor|]. destruct (IH (comb s a)) as [r Hr]. exists r.
    econstructor; [reflexivity|exact Hr].
  Qed.
  Lemma nok_reduce (ident : St) lo hi (body : nat -> St -> res St) s (Q : St -> Prop) :
    Acc [] ident -> Acc [None] s ->
    (forall l i s', lo <= i < hi -> Acc l s' -> ok (body i s') (Acc (l ++ [Some i]))) ->
    (forall s', Acc (None :: (Some <$> range lo hi)) s' -> Q s') ->
    nok (reduce_for ident comb lo hi body s) Q.
  Proof.
    intros H0 Hs Hb HQ.
    assert (forall parts, (forall i, i ∈ concat parts -> lo <= i < hi) ->
      exists rs, mapr (fun p => forl p body ident) parts = Ok rs /\ Forall2 Acc ((fun p : list nat => Some <$> p) <$> parts) rs) as Hm.
    { induction parts as [|p parts IH]; intros Hi; [exists []; split; [reflexivity|constructor]|].
      destruct IH as (rs & E & HF); [intros i Hi'; apply Hi; simpl; apply elem_of_app; right; exact Hi'|].
      assert (ok (forl p body ident) (Acc (Some <$> p))) as Hp.
      { apply (ok_forl (fun l s => Acc (Some <$> l) s)); [exact H0|]. intros dn i rest s' Ep Ha. rewrite fmap_app. apply Hb; [|exact Ha].
        apply Hi. simpl. apply elem_of_app. left. rewrite Ep. apply elem_of_app. right. left. }
      apply ok_inv in Hp as (r & Er & Hr). exists (r :: rs). simpl. rewrite Er. cbn [bind]. rewrite E. split; [reflexivity|constructor; assumption]. }
    split.
    - destruct (Hm [range lo hi]) as (rs & E & _); [simpl; rewrite app_nil_r; intros i; apply elem_of_range|].
      destruct (combined_exists s rs) as [r Hr]. exists (Ok r), [range lo hi]. split; [simpl; rewrite app_nil_r; reflexivity|]. exists (Ok rs). split; [symmetry; exact E|eauto].
    - intros o (parts & Hp & Ho). destruct (Hm parts) as (rs & E & HF); [intros i Hi; rewrite Hp in Hi; apply elem_of_range, Hi|].
      destruct Ho as (x & E' & Ho). unfold nlift in E'. rewrite E in E'. subst x. destruct Ho as (r & Hc & ->). simpl. apply HQ.
      apply (Hperm (concat ([None] :: ((fun p : list nat => Some <$> p) <$> parts)))).
      + simpl. constructor. rewrite <- Hp. clear. induction parts as [|p parts IH]; [reflexivity|]. simpl. rewrite fmap_app, IH. reflexivity.
      + apply (combined_acc (s :: rs)); [exact Hc|]. constructor; assumption.
  Qed.
  Lemma nok_reduce_shared {Sh} (J : list nat -> Sh -> Prop) (ident : St) lo hi (body : nat -> St -> Sh -> res (St * Sh)) s sh (Q : St * Sh -> Prop) :
    Acc [] ident -> Acc [None] s -> J [] sh ->
    (forall dn l i s' sh', (forall k, k ∈ dn -> lo <= k < hi) -> lo <= i < hi -> i ∉ dn -> Acc l s' -> J dn sh' ->
       ok (body i s' sh') (fun '(s2, sh2) => Acc (l ++ [Some i]) s2 /\ J (dn ++ [i]) sh2)) ->
    (forall l s' sh', l ≡ₚ range lo hi -> Acc (None :: (Some <$> range lo hi)) s' -> J l sh' -> Q (s', sh')) ->
    nok (reduce_shared ident comb lo hi body s sh) Q.
  Proof.
    intros H0 Hs Hj Hb HQ.
    assert (forall nthr owner, (forall i : nat, owner i < nthr) ->
      nok (par_for lo hi (fun i '(rs, sh) =>
          let! r := get rs (owner i) in
          let! (r, sh) := body i r sh in
          let! rs := set rs (owner i) r in
          Ok (rs, sh)) (replicate nthr ident, sh))
        (fun '(rs, sh') => exists l items, l ≡ₚ range lo hi /\ Forall2 Acc items rs /\ concat items ≡ₚ (Some <$> l) /\ J l sh')) as Hm.
    { intros nthr owner Ho.
      apply (nok_par_for lo hi _ _ (fun dn '(rs, sh') => length rs = nthr /\ exists items, Forall2 Acc items rs /\ concat items ≡ₚ (Some <$> dn) /\ J dn sh')).
      - split; [apply replicate_length|]. exists (replicate nthr []). split; [|split; [|exact Hj]].
        + clear Ho. induction nthr; simpl; constructor; auto.
        + clear Ho. simpl. induction nthr; simpl; auto.
      - intros dn i [rs sh'] Hdn Hi Hni (L & items & HF & Hc & HJ).
        destruct (lookup_lt_is_Some_2 rs (owner i)) as [r Er]; [rewrite L; apply Ho|].
        destruct (Forall2_lookup_r _ _ _ _ _ HF Er) as (l & El & Hl).
        rewrite (proj2 (get_Some _ _ _) Er). cbn [bind].
        eapply ok_bind; [apply (Hb dn l i r sh'); auto|]. intros [s2 sh2] [Ha HJ2].
        rewrite set_Ok by (rewrite L; apply Ho). cbn [bind]. apply ok_ret. split; [rewrite insert_length; exact L|].
        exists (<[owner i := l ++ [Some i]]> items). split; [apply Forall2_insert; auto|]. split; [|exact HJ2].
        rewrite fmap_app, <- Hc. clear -El. revert items El. generalize (owner i). intros t. intros items. revert t. induction items as [|a items IH]; intros [|t] El; simpl in El; try discriminate.
        + injection El as ->. simpl. rewrite <- !app_assoc. apply Permutation_app_head. apply Permutation_app_comm.
        + simpl. rewrite IH by exact El. rewrite app_assoc. reflexivity.
      - intros l [rs sh'] Hl (_ & items & HF & Hc & HJ). eauto 6. }
    split.
    - destruct (Hm 1 (fun _ => 0) (fun _ => Nat.lt_0_1)) as [[o Ho] H]. specialize (H o Ho). destruct o as [[rs sh']| | |]; try contradiction.
      destruct (combined_exists s rs) as [r Hr]. exists (Ok (r, sh')), 1, (fun _ => 0). split; [intros _; lia|]. exists (Ok (rs, sh')). split; [exact Ho|]. eauto.
    - intros o (nthr & owner & Ho & x & Hx & Hox). destruct (Hm nthr owner Ho) as [_ H]. specialize (H x Hx). destruct x as [[rs sh']| | |]; try contradiction.
      destruct H as (l & items & Hl & HF & Hc & HJ). destruct Hox as (r & Hr & ->). simpl. apply (HQ l); auto.
      apply (Hperm (concat ([None] :: items))).
      + simpl. constructor. rewrite Hc. rewrite Hl. reflexivity.
      + apply (combined_acc (s :: rs)); [exact Hr|]. constructor; assumption.
  Qed.
End Rule.

(** bodies which do the same have the same outcomes *)
Lemma reduce_for_ext {St} (ident : St) comb lo hi (body body' : nat -> St -> res St) s o :
  (forall i s, body i s = body' i s) -> reduce_for ident comb lo hi body s o <-> reduce_for ident comb lo hi body' s o.
Proof.
  intros H. assert (forall p s, forl p body s = forl p body' s) as Hf.
  { induction p as [|i p IH]; intros s'; simpl; [reflexivity|]. rewrite H. destruct (body' i s'); simpl; auto. }
  assert (forall parts, mapr (fun p => forl p body ident) parts = mapr (fun p => forl p body' ident) parts) as Hm.
  { induction parts as [|p parts IH]; simpl; [reflexivity|]. rewrite Hf, IH. reflexivity. }
  unfold reduce_for. split; intros (parts & Hp & Ho); exists parts; (split; [exact Hp|]); [rewrite <- Hm|rewrite Hm]; exact Ho.
Qed.
