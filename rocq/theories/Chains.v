(** * Chains: the longest chain of dependencies bounds the number of sweeps *)
From Verif Require Import Base.

(** [l] is a chain: each row depends on the next one *)
Fixpoint chain (dep : nat -> nat -> Prop) (l : list nat) : Prop :=
  match l with
  | [] => True
  | r :: l' => match l' with [] => True | r' :: _ => dep r r' end /\ chain dep l'
  end.
(** no chain of rows below [n] has more than [K] rows *)
Definition chains_at_most (dep : nat -> nat -> Prop) (n K : nat) : Prop :=
  forall l, chain dep l -> (forall r, r ∈ l -> r < n) -> length l <= K.

Section Depth.
  Variables (dep : nat -> nat -> Prop) (n : nat) (rank : nat -> nat).
  Context `{forall i c, Decision (dep i c)}.
  Hypothesis Hrank : forall i c, i < n -> c < n -> dep i c -> rank c < rank i.

  Fixpoint depth (k : nat) (r : nat) : nat :=
    match k with
    | 0 => 0
    | S k' => foldr Nat.max 0 ((fun c => S (depth k' c)) <$> filter (dep r) (seq 0 n))
    end.
  Lemma foldr_max_le (l : list nat) x : x ∈ l -> x <= foldr Nat.max 0 l.
  Proof. induction 1; simpl; lia. Qed.
  Lemma foldr_max_in (l : list nat) : foldr Nat.max 0 l = 0 \/ foldr Nat.max 0 l ∈ l.
  Proof.
    induction l as [|a l IH]; simpl; [auto|].
    destruct (Nat.max_spec a (foldr Nat.max 0 l)) as [[_ ->]|[_ ->]].
    - destruct IH as [->|]; [auto|]. right. right. auto.
    - right. left.
  Qed.
  Lemma depth_chain k : forall r, r < n ->
    exists l, chain dep (r :: l) /\ (forall c, c ∈ r :: l -> c < n) /\ length l = depth k r.
  Proof.
    induction k as [|k IH]; intros r Hr.
    - exists []. simpl. split; [auto|]. split; [|reflexivity]. intros c Hc. apply elem_of_list_singleton in Hc. subst; auto.
    - cbn [depth]. destruct (foldr_max_in ((fun c => S (depth k c)) <$> filter (dep r) (seq 0 n))) as [E|Hin].
      + exists []. rewrite E. split; [simpl; auto|]. split; [|reflexivity].
        intros c Hc. apply elem_of_list_singleton in Hc. subst; auto.
      + apply elem_of_list_fmap in Hin as (c & E & Hc). rewrite E.
        apply elem_of_list_filter in Hc as [Hdep Hc]. apply elem_of_seq in Hc.
        destruct (IH c ltac:(lia)) as (l & Hch & Hl & Hlen).
        exists (c :: l). split; [simpl; simpl in Hch; auto|]. split.
        * intros x Hx. apply elem_of_cons in Hx as [->|Hx]; auto.
        * simpl. lia.
  Qed.
  Lemma depth_stable : forall m r k k', r < n -> rank r < m -> rank r < k -> rank r < k' -> depth k r = depth k' r.
  Proof.
    induction m as [|m IH]; intros r k k' Hr Hm Hk Hk'; [lia|].
    destruct k as [|k]; [lia|]. destruct k' as [|k']; [lia|]. cbn [depth]. f_equal.
    apply list_fmap_ext. intros i c Hc. apply elem_of_list_lookup_2, elem_of_list_filter in Hc as [Hd Hc].
    apply elem_of_seq in Hc. pose proof (Hrank r c Hr ltac:(lia) Hd). f_equal. apply IH; lia.
  Qed.
  Lemma depth_dep k r c : r < n -> c < n -> rank r < k -> dep r c -> depth k c < depth k r.
  Proof.
    intros Hr Hc Hk Hd. pose proof (Hrank r c Hr Hc Hd). destruct k as [|k]; [lia|].
    rewrite (depth_stable (S k) c (S k) k) by lia. cbn [depth].
    apply (foldr_max_le _ (S (depth k c))). apply elem_of_list_fmap. exists c. split; [reflexivity|].
    apply elem_of_list_filter. split; [auto|]. apply elem_of_seq. lia.
  Qed.
  (** a depth function bounded by the longest chain *)
  Lemma depth_exists K : chains_at_most dep n K -> (forall r, r < n -> rank r < n) ->
    exists d : nat -> nat, (forall r, r < n -> d r < K) /\ forall r c, r < n -> c < n -> dep r c -> d c < d r.
  Proof.
    intros HK Hb. exists (depth n). split.
    - intros r Hr. destruct (depth_chain n r Hr) as (l & H1 & H2 & H3). specialize (HK _ H1 H2). simpl in HK. lia.
    - intros r c Hr Hc Hd. apply depth_dep; auto.
  Qed.
End Depth.

(** chains of rows in increasing (decreasing) dependency order have at most n rows *)
Lemma chains_increasing (dep : nat -> nat -> Prop) n :
  (forall i c, i < n -> dep i c -> c < i) -> chains_at_most dep n n.
Proof.
  intros Hd l. assert (forall b l, chain dep l -> (forall r, r ∈ l -> r < n) ->
    match l with [] => True | r :: _ => r < b end -> length l <= b) as H.
  { clear l. intros b l. revert b. induction l as [|r l IH]; intros b Hc Hn Hb; simpl; [lia|].
    destruct b as [|b]; [lia|]. cbn [chain] in Hc. destruct Hc as [Hr Hc].
    assert (length l <= b); [|lia]. apply IH; [auto|intros x Hx; apply Hn; right; auto|].
    destruct l as [|r' l]; [auto|]. specialize (Hd r r' ltac:(apply Hn; left) Hr). lia. }
  intros Hc Hn. apply (H n l Hc Hn). destruct l; [auto|]. apply Hn. left.
Qed.
