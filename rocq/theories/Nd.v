(** * Nd: programs with several possible outcomes

    A C++ function containing OpenMP constructs may end in several ways,
    depending on the schedule. Its model is the set of its possible outcomes. *)
From Verif Require Import Base Async AsyncTheory AsyncSystem.

Definition nd (A : Type) : Type := res A -> Prop.
Definition nlift {A} (r : res A) : nd A := fun o => o = r.
Definition nret {A} (a : A) : nd A := nlift (Ok a).
Definition nbind {A B} (m : nd A) (k : A -> nd B) : nd B := fun o =>
  exists x, m x /\ match x with
                   | Ok a => k a o
                   | UB => o = UB
                   | Throw e => o = Throw e
                   | Fuel => o = Fuel
                   end.
Notation "'ndo' x := m 'in' k" := (nbind m (fun x => k))
  (at level 200, x pattern, m at level 100, k at level 200, right associativity).

(** Sequential loop whose body has several outcomes. *)
Fixpoint nfor_n {St} (n i : nat) (body : nat -> St -> nd St) (s : St) : nd St :=
  match n with
  | 0 => nret s
  | S n' => ndo s' := body i s in nfor_n n' (i + 1) body s'
  end.
Definition nfor {St} (lo hi : nat) (body : nat -> St -> nd St) (s : St) : nd St :=
  nfor_n (hi - lo) lo body s.
(** The same counting down: [for(i = hi-1; i >= lo; i--)]. *)
Fixpoint nrfor_n {St} (n lo : nat) (body : nat -> St -> nd St) (s : St) : nd St :=
  match n with
  | 0 => nret s
  | S n' => ndo s' := body (lo + n') s in nrfor_n n' lo body s'
  end.
Definition nrfor {St} (lo hi : nat) (body : nat -> St -> nd St) (s : St) : nd St :=
  nrfor_n (hi - lo) lo body s.

(** [#pragma omp parallel for] whose iterations are run as a whole, in any order. *)
Definition par_for {St} (lo hi : nat) (body : nat -> St -> res St) (s : St) : nd St :=
  fun o => exists l, l ≡ₚ range lo hi /\ o = forl l body s.

(** A parallel region in which the chunks [q] are handed out to [nthr] threads,
    every access to the shared array being a step of its own. *)
Definition par_region {V} (T : nat -> @P V unit) (nthr : nat) (q : list (list nat)) (m : list V) : nd (list V) :=
  fun o => (exists m', region T nthr q m m' /\ o = Ok m') \/
           (o = UB /\ ~ region_safe T nthr q m).
(** [#pragma omp parallel if(usethreads)]; without threads, or in a team of one
    thread, the iterations run in order (a thread sees its own writes). *)
Definition omp_region {V} (usethreads : bool) (T : nat -> @P V unit) (nthr : nat)
    (q : list (list nat)) (m : list V) : nd (list V) :=
  if usethreads && negb (nthr =? 1) then par_region T nthr q m else nlift (exec_seq T (concat q) m).
Lemma omp_region_seq {V} usethreads (T : nat -> @P V unit) nthr q m :
  usethreads = false \/ nthr = 1 -> omp_region usethreads T nthr q m = nlift (exec_seq T (concat q) m).
Proof. intros [-> | ->]; unfold omp_region; [reflexivity|]. rewrite andb_false_r. reflexivity. Qed.
(** [#pragma omp parallel for] without a schedule clause: the iterations, in the
    order [order], are cut into chunks in some way. *)
Definition omp_for {V} (T : nat -> @P V unit) (nthr : nat) (order : list nat) (m : list V) : nd (list V) :=
  fun o => exists q, concat q = order /\ par_region T nthr q m o.

(** ** Reasoning: there is an outcome, and every outcome is normal and satisfies [Q] *)
Definition nok {A} (m : nd A) (Q : A -> Prop) : Prop :=
  (exists o, m o) /\ forall o, m o -> ok o Q.

Lemma nok_lift {A} (r : res A) Q : ok r Q -> nok (nlift r) Q.
Proof. intros H. split; [exists r; reflexivity|]. intros o ->. exact H. Qed.
Lemma nok_ret {A} (a : A) (Q : A -> Prop) : Q a -> nok (nret a) Q.
Proof. intros H. apply nok_lift. exact H. Qed.
Lemma nok_bind {A B} (m : nd A) (k : A -> nd B) P Q :
  nok m P -> (forall a, P a -> nok (k a) Q) -> nok (nbind m k) Q.
Proof.
  intros [[o Ho] Hm] Hk. split.
  - specialize (Hm o Ho). destruct o as [a| | |]; simpl in Hm; try tauto.
    destruct (Hk a Hm) as [[o' Ho'] _]. exists o', (Ok a). auto.
  - intros o' (x & Hx & Hk'). specialize (Hm x Hx). destruct x as [a| | |]; simpl in Hm; try tauto.
    apply (Hk a Hm), Hk'.
Qed.
Lemma nok_mono {A} (m : nd A) (P Q : A -> Prop) : nok m P -> (forall a, P a -> Q a) -> nok m Q.
Proof. intros [H1 H2] H. split; [exact H1|]. intros o Ho. eapply ok_mono; eauto. Qed.
Lemma nok_nfor_n {St} n : forall i (body : nat -> St -> nd St) (s : St) (I : nat -> St -> Prop),
  I i s ->
  (forall j s', i <= j < i + n -> I j s' -> nok (body j s') (I (j + 1))) ->
  nok (nfor_n n i body s) (I (i + n)).
Proof.
  induction n as [|n IH]; intros i body s I H0 Hs; cbn [nfor_n].
  - replace (i + 0) with i by lia. apply nok_ret, H0.
  - eapply nok_bind; [apply Hs; [lia|exact H0]|].
    intros s' Hs'. replace (i + S n) with (i + 1 + n) by lia.
    apply IH; [exact Hs'|]. intros j s'' Hj. apply Hs. lia.
Qed.
Lemma nok_nfor {St} lo hi (body : nat -> St -> nd St) (s : St) (I : nat -> St -> Prop) (Q : St -> Prop) :
  lo <= hi -> I lo s ->
  (forall j s', lo <= j < hi -> I j s' -> nok (body j s') (I (j + 1))) ->
  (forall s', I hi s' -> Q s') -> nok (nfor lo hi body s) Q.
Proof.
  intros Hle H0 Hs HQ. eapply nok_mono; [|exact HQ]. unfold nfor.
  replace hi with (lo + (hi - lo)) at 2 by lia.
  apply nok_nfor_n; [exact H0|]. intros; apply Hs; [lia|assumption].
Qed.
(** invariant [I j]: rows from [j] on are done *)
Lemma nok_nrfor {St} lo hi (body : nat -> St -> nd St) (s : St) (I : nat -> St -> Prop) (Q : St -> Prop) :
  lo <= hi -> I hi s ->
  (forall j s', lo <= j < hi -> I (j + 1) s' -> nok (body j s') (I j)) ->
  (forall s', I lo s' -> Q s') -> nok (nrfor lo hi body s) Q.
Proof.
  intros Hle H0 Hs HQ. eapply nok_mono; [|exact HQ]. unfold nrfor.
  assert (forall n s, lo + n <= hi -> I (lo + n) s -> nok (nrfor_n n lo body s) (I lo)) as H.
  { induction n as [|n IH]; intros s1 Hn H1; cbn [nrfor_n].
    - apply nok_ret. replace (lo + 0) with lo in H1 by lia. exact H1.
    - eapply nok_bind; [apply Hs; [lia|]|].
      + replace (lo + n + 1) with (lo + S n) by lia. exact H1.
      + intros s2 H2. apply IH; [lia|exact H2]. }
  apply H; [lia|]. replace (lo + (hi - lo)) with hi by lia. exact H0.
Qed.

(** an iteration-order independent loop *)
Lemma nok_par_for {St} lo hi (body : nat -> St -> res St) s (I : list nat -> St -> Prop) (Q : St -> Prop) :
  I [] s ->
  (forall dn i s', (forall k, k ∈ dn -> lo <= k < hi) -> lo <= i < hi -> i ∉ dn ->
     I dn s' -> ok (body i s') (I (dn ++ [i]))) ->
  (forall l s', l ≡ₚ range lo hi -> I l s' -> Q s') ->
  nok (par_for lo hi body s) Q.
Proof.
  intros H0 Hs HQ. split; [exists (forl (range lo hi) body s), (range lo hi); auto|].
  intros o (l & Hl & ->). eapply ok_mono; [|intros s'; apply HQ; exact Hl].
  apply (ok_forl I); [exact H0|]. intros dn i rest s' E Hi.
  assert (NoDup l) as Hnd by (rewrite Hl; apply NoDup_range).
  assert (forall k, k ∈ l -> lo <= k < hi) as Hr.
  { intros k Hk. rewrite Hl in Hk. apply elem_of_range. exact Hk. }
  rewrite E in Hnd. apply NoDup_app in Hnd as (_ & Hx & _).
  apply Hs; auto.
  - intros k Hk. apply Hr. rewrite E. apply elem_of_app; auto.
  - apply Hr. rewrite E. apply elem_of_app. right. left.
  - intros Hin. apply (Hx i Hin). left.
Qed.
(** the usual case: iteration [i] sets entry [i] to [g i], which does not depend on
    other entries of the array *)
Lemma nok_par_for_map {V} lo hi (body : nat -> list V -> res (list V)) (s : list V) (g : nat -> V)
    (Q : list V -> Prop) :
  hi <= length s ->
  (forall i s', lo <= i < hi -> length s' = length s -> s' !! i = s !! i ->
     body i s' = Ok (<[i := g i]> s')) ->
  (forall s', length s' = length s ->
     (forall i, lo <= i < hi -> s' !! i = Some (g i)) ->
     (forall i, ~ (lo <= i < hi) -> s' !! i = s !! i) -> Q s') ->
  nok (par_for lo hi body s) Q.
Proof.
  intros Hhi Hb HQ.
  apply (nok_par_for lo hi body s (fun dn s' => length s' = length s /\
    (forall i, i ∈ dn -> s' !! i = Some (g i)) /\ (forall i, i ∉ dn -> s' !! i = s !! i))).
  - split; [reflexivity|]. split; [intros i Hi; apply elem_of_nil in Hi as []|reflexivity].
  - intros dn i s' Hdn Hi Hni (Hl & Hd & Hn). rewrite Hb; auto. simpl.
    rewrite insert_length. split; [exact Hl|]. split.
    + intros k Hk. destruct (decide (i = k)) as [->|Hne].
      * apply list_lookup_insert. lia.
      * rewrite list_lookup_insert_ne by done. apply elem_of_app in Hk as [Hk|Hk]; [auto|].
        apply elem_of_list_singleton in Hk. congruence.
    + intros k Hk. rewrite list_lookup_insert_ne.
      * apply Hn. intros H. apply Hk. apply elem_of_app; auto.
      * intros ->. apply Hk. apply elem_of_app. right. left.
  - intros l s' Hl (H1 & H2 & H3). apply HQ; [exact H1| |].
    + intros i Hi. apply H2. rewrite Hl. apply elem_of_range. exact Hi.
    + intros i Hi. apply H3. rewrite Hl. rewrite elem_of_range. exact Hi.
Qed.

(** a region that no schedule brings into trouble has an outcome *)
Lemma exec_total {V A} (n : nat) (p : @P V A) Q : forall m,
  length m = n -> wp (fun l _ => l < n) (fun l _ => l < n) p Q ->
  exists a m', exec m p = Ok (a, m') /\ length m' = n /\ Q a.
Proof.
  induction p as [a|l k IH|l v k IH|]; intros m Hl Hw; simpl in Hw.
  - exists a, m. auto.
  - destruct Hw as [(v0 & Hlt) Hk].
    destruct (lookup_lt_is_Some_2 m l) as [v Hv]; [lia|]. cbn [exec].
    assert (get m l = Ok v) as -> by (apply get_Some; exact Hv). simpl. apply IH; auto.
  - destruct Hw as [Hlt Hk]. cbn [exec]. rewrite set_Ok by lia. simpl. apply IH; auto.
    rewrite insert_length. exact Hl.
  - destruct Hw.
Qed.
Lemma run_Ok_or_UB {V} (T : nat -> @P V unit) sched : forall s,
  (exists s', run T sched s = Ok s') \/ run T sched s = UB.
Proof.
  induction sched as [|[t pick] sched IH]; intros s; cbn [run]; [eauto|].
  assert ((exists s', step T (t, pick) s = Ok s') \/ step T (t, pick) s = UB) as [(s' & ->)| ->].
  { unfold step. destruct (mt s !! t) as [[|[[]|l k|l v k|] rs]|]; eauto.
    - destruct (mq s); eauto.
    - unfold get. destruct (_ !! l); simpl; eauto.
    - unfold set. destruct (decide _); simpl; eauto. }
  - simpl. apply IH.
  - auto.
Qed.

Lemma nok_par_region {V} (T : nat -> @P V unit) nthr q m (Q : list V -> Prop) :
  1 <= nthr -> (exists ms, exec_seq T (concat q) m = Ok ms) ->
  region_safe T nthr q m -> (forall m', region T nthr q m m' -> Q m') ->
  nok (par_region T nthr q m) Q.
Proof.
  intros Hn (ms & He) Hs HQ. split.
  - exists (Ok ms). left. exists ms. split; [|reflexivity].
    apply sequential_is_a_schedule; auto.
  - intros o [(m' & Hm & ->)|[_ Hns]]; [|contradiction]. simpl. auto.
Qed.
