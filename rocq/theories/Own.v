(** * Own: loops whose iterations write disjoint sets of cells *)
From Verif Require Import Base Alg Nd.

Section Own.
  Context {V : Type}.
  (** [D i] are the cells of iteration [i], [h i x] the value it leaves in [x] *)
  Variables (D : nat -> nat -> Prop) (h : nat -> nat -> option V).
  Definition owns (i : nat) (s s' : list V) : Prop :=
    length s' = length s /\ (forall x, D i x -> s' !! x = h i x) /\ forall x, ~ D i x -> s' !! x = s !! x.

  Lemma nok_par_for_own lo hi (body : nat -> list V -> res (list V)) (s : list V) (Q : list V -> Prop) :
    (forall i i' x, lo <= i < hi -> lo <= i' < hi -> D i x -> D i' x -> i = i') ->
    (forall i s', lo <= i < hi -> length s' = length s -> (forall x, D i x -> s' !! x = s !! x) ->
       ok (body i s') (owns i s')) ->
    (forall s', length s' = length s -> (forall i x, lo <= i < hi -> D i x -> s' !! x = h i x) ->
       (forall x, (forall i, lo <= i < hi -> ~ D i x) -> s' !! x = s !! x) -> Q s') ->
    nok (par_for lo hi body s) Q.
  Proof.
    intros Hdis Hb HQ.
    apply (nok_par_for lo hi body s (fun dn s' => length s' = length s /\
      (forall i x, i ∈ dn -> D i x -> s' !! x = h i x) /\ (forall x, (forall i, i ∈ dn -> ~ D i x) -> s' !! x = s !! x))).
    - split; [reflexivity|]. split; [|auto]. intros i x Hi. apply elem_of_nil in Hi as [].
    - intros dn i s' Hdn Hi Hn (H1 & H2 & H3).
      assert (forall x i', D i x -> i' ∈ dn -> ~ D i' x) as Hd.
      { intros x i' Hx Hi' Hx'. apply Hn. rewrite (Hdis i i' x); auto. }
      eapply ok_mono; [apply Hb; [exact Hi|exact H1|]|].
      + intros x Hx. apply H3. intros i' Hi'. apply (Hd x i'); auto.
      + intros s'' (E1 & E2 & E3). split; [lia|]. split.
        * intros i' x Hi' Hx. apply elem_of_app in Hi' as [Hi'|Hi'].
          -- rewrite E3; [apply H2; auto|]. intros Hx'. apply (Hd x i'); auto.
          -- apply elem_of_list_singleton in Hi' as ->. apply E2, Hx.
        * intros x Hx. rewrite E3; [apply H3|].
          -- intros i' Hi'. apply Hx, elem_of_app. auto.
          -- apply Hx. rewrite elem_of_app, elem_of_list_singleton. auto.
    - intros l s' Hl (H1 & H2 & H3). apply HQ; [exact H1| |].
      + intros i x Hi. apply H2. rewrite Hl. apply elem_of_range. exact Hi.
      + intros x Hx. apply H3. intros i Hi. apply Hx. rewrite Hl in Hi. apply elem_of_range. exact Hi.
  Qed.
  Lemma ok_for_own lo hi (body : nat -> list V -> res (list V)) (s : list V) (Q : list V -> Prop) :
    lo <= hi ->
    (forall i i' x, lo <= i < hi -> lo <= i' < hi -> D i x -> D i' x -> i = i') ->
    (forall i s', lo <= i < hi -> length s' = length s -> (forall x, D i x -> s' !! x = s !! x) ->
       ok (body i s') (owns i s')) ->
    (forall s', length s' = length s -> (forall i x, lo <= i < hi -> D i x -> s' !! x = h i x) ->
       (forall x, (forall i, lo <= i < hi -> ~ D i x) -> s' !! x = s !! x) -> Q s') ->
    ok (for_ lo hi body s) Q.
  Proof.
    intros Hle Hdis Hb HQ.
    eapply ok_for_post with (I := fun k s' => length s' = length s /\
      (forall i x, lo <= i < k -> D i x -> s' !! x = h i x) /\ (forall x, (forall i, lo <= i < k -> ~ D i x) -> s' !! x = s !! x)).
    - exact Hle.
    - split; [reflexivity|]. split; [intros; lia|auto].
    - intros i s' Hi (H1 & H2 & H3).
      assert (forall x i', D i x -> lo <= i' < i -> ~ D i' x) as Hd.
      { intros x i' Hx Hi' Hx'. assert (i = i') by (apply (Hdis i i' x); auto; lia). lia. }
      eapply ok_mono; [apply Hb; [exact Hi|exact H1|]|].
      + intros x Hx. apply H3. intros i' Hi'. apply (Hd x i'); auto.
      + intros s'' (E1 & E2 & E3). split; [lia|]. split.
        * intros i' x Hi' Hx. destruct (decide (i' = i)) as [->|]; [apply E2, Hx|].
          rewrite E3; [apply H2; [lia|exact Hx]|]. intros Hx'. apply (Hd x i'); auto. lia.
        * intros x Hx. rewrite E3; [apply H3|].
          -- intros i' Hi'. apply Hx. lia.
          -- apply Hx. lia.
    - intros s' (H1 & H2 & H3). apply HQ; auto.
  Qed.
End Own.
