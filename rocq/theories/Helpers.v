(** * Helpers: searching, sorting and scanning (src/helper_algorithms.hpp, .cpp) *)
From Verif Require Import Base.

(** src/helper_algorithms.hpp:38-49 inner_search: first position in [start, end) at
    which [aind] has the value [x]. The C++ leaves its output argument alone (it
    was set to -1 by all callers) if there is none: [None]. *)
Fixpoint inner_search_n (n : nat) (aind : list nat) (j x : nat) : res (option nat) :=
  match n with
  | 0 => Ok None
  | S n' => let! a := get aind j in
            if a =? x then Ok (Some j) else inner_search_n n' aind (j + 1) x
  end.
Definition inner_search (aind : list nat) (start stop x : nat) : res (option nat) :=
  inner_search_n (stop - start) aind start x.

(** std::max_element(colind, colind+len): position of the first largest entry; the
    array starts at [base] *)
Definition max_element (colind : list nat) (base len : nat) : res nat :=
  for_ 1 len (fun k best =>
    let! a := get colind (base + best) in
    let! b := get colind (base + k) in
    Ok (if a <? b then k else best)) 0.

(** src/helper_algorithms.cpp:31-54 sortBlockInnerDimension(N, &colind[base],
    &vals[base*bs*bs]), [bb] standing for bs*bs. As for all callers the two pointers
    point to position [base] of a longer index array and to the corresponding block
    of its value array. *)
Definition sort_inner {V} (bb N base : nat) (cv : list nat * list V) : res (list nat * list V) :=
  for_ 0 (N - 1) (fun i '(colind, vals) =>
    let! max_pos := max_element colind base (N - i) in
    let last := N - 1 - i in
    let! tempi := get colind (base + last) in
    let! mx := get colind (base + max_pos) in
    let! colind := set colind (base + last) mx in
    let! colind := set colind (base + max_pos) tempi in
    let! tempv := mapr (fun k => get vals ((base + last) * bb + k)) (seq 0 bb) in
    let! vals := for_ 0 bb (fun k vals =>
      let! v := get vals ((base + max_pos) * bb + k) in
      let! vals := set vals ((base + last) * bb + k) v in
      let! t := get tempv k in
      set vals ((base + max_pos) * bb + k) t) vals in
    Ok (colind, vals)) cv.

(** src/helper_algorithms.cpp:68-74 and 88-94 inclusive_scan, in place *)
Definition inclusive_scan (v : list nat) : res (list nat) :=
  for_ 1 (length v) (fun i v =>
    let! a := get v i in
    let! b := get v (i - 1) in
    set v i (a + b)) v.
(** src/helper_algorithms.cpp:98-104: the version returning a copy *)
Definition inclusive_scan_copy (v : list nat) : res (list nat) :=
  let scanned := v in inclusive_scan scanned.

(** ** Facts *)
Lemma inner_search_spec aind start stop x :
  stop <= length aind ->
  ok (inner_search aind start stop x) (fun r =>
    match r with
    | Some j => start <= j < stop /\ aind !! j = Some x /\ forall j', start <= j' < j -> aind !! j' <> Some x
    | None => forall j, start <= j < stop -> aind !! j <> Some x
    end).
Proof.
  intros Hs. unfold inner_search.
  assert (forall n j, j + n <= length aind -> ok (inner_search_n n aind j x) (fun r =>
    match r with
    | Some k => j <= k < j + n /\ aind !! k = Some x /\ forall j', j <= j' < k -> aind !! j' <> Some x
    | None => forall k, j <= k < j + n -> aind !! k <> Some x
    end)) as H.
  { induction n as [|n IH]; intros j Hj; cbn [inner_search_n].
    - simpl. intros; lia.
    - eapply ok_bind; [apply ok_get_lt; [lia|intros a Ha; exact Ha]|].
      intros a Ha. simpl in Ha. destruct (Nat.eqb_spec a x) as [->|Hne].
      + simpl. split; [lia|]. split; [exact Ha|]. intros; lia.
      + eapply ok_mono; [apply IH; lia|]. intros [k|].
        * intros (H1 & H2 & H3). split; [lia|]. split; [exact H2|]. intros j' Hj'.
          destruct (decide (j' = j)) as [->|]; [congruence|]. apply H3. lia.
        * intros H k Hk. destruct (decide (k = j)) as [->|]; [congruence|]. apply H. lia. }
  destruct (decide (start <= stop)).
  - eapply ok_mono; [apply H; lia|]. replace (start + (stop - start)) with stop by lia. auto.
  - replace (stop - start) with 0 by lia. simpl. intros; lia.
Qed.

Lemma max_element_spec colind base len :
  1 <= len -> base + len <= length colind ->
  ok (max_element colind base len) (fun p =>
    p < len /\ forall k, k < len -> colind !!! (base + k) <= colind !!! (base + p)).
Proof.
  intros H1 Hl. unfold max_element.
  eapply ok_for_post with (I := fun j p => p < j /\ forall k, k < j -> colind !!! (base + k) <= colind !!! (base + p)).
  - lia.
  - split; [lia|]. intros k Hk. replace k with 0 by lia. lia.
  - intros j p Hj [Hp Hm].
    eapply ok_bind; [eapply ok_get; [apply list_lookup_lookup_total_lt; lia|exact eq_refl]|]. intros a <-.
    eapply ok_bind; [eapply ok_get; [apply list_lookup_lookup_total_lt; lia|exact eq_refl]|]. intros b <-.
    simpl. destruct (Nat.ltb_spec (colind !!! (base + p)) (colind !!! (base + j))) as [Hlt|Hge].
    + split; [lia|]. intros k Hk. destruct (decide (k = j)) as [->|]; [lia|].
      specialize (Hm k ltac:(lia)). lia.
    + split; [lia|]. intros k Hk. destruct (decide (k = j)) as [->|]; [lia|]. apply Hm. lia.
  - auto.
Qed.

(** exchanging blocks [a] and [b] of width [bb] *)
Definition swapf (a b k : nat) : nat := if k =? a then b else if k =? b then a else k.
Lemma swapf_lt a b k n : a < n -> b < n -> k < n -> swapf a b k < n.
Proof. unfold swapf. intros. destruct (k =? a), (k =? b); lia. Qed.
Lemma swapf_inv a b k : swapf a b (swapf a b k) = k.
Proof.
  unfold swapf. destruct (Nat.eqb_spec k a), (Nat.eqb_spec k b); subst; rewrite ?Nat.eqb_refl; try lia;
  repeat match goal with |- context[?x =? ?y] => destruct (Nat.eqb_spec x y); try lia end.
Qed.
Lemma swapf_inj a b k k' : swapf a b k = swapf a b k' -> k = k'.
Proof. intros H. rewrite <- (swapf_inv a b k), H. apply swapf_inv. Qed.

(** a segment's entries, [N] of them from [base], each [bb] wide, have been permuted
    by [f]; everything else is as before *)
Definition seg_perm {V} (bb N base : nat) (f : nat -> nat) (l l' : list V) : Prop :=
  length l' = length l /\
  (forall k e, k < N -> e < bb -> l' !! ((base + k) * bb + e) = l !! ((base + f k) * bb + e)) /\
  (forall x, x < base * bb \/ (base + N) * bb <= x -> l' !! x = l !! x).
Lemma seg_perm_id {V} bb N base (l : list V) : seg_perm bb N base id l l.
Proof. split; [reflexivity|]. split; auto. Qed.
Lemma seg_perm_trans {V} bb N base f g (l l1 l2 : list V) :
  (forall k, k < N -> g k < N) ->
  seg_perm bb N base f l l1 -> seg_perm bb N base g l1 l2 -> seg_perm bb N base (fun k => f (g k)) l l2.
Proof.
  intros Hg (H1 & H2 & H3) (H4 & H5 & H6). split; [lia|]. split.
  - intros k e Hk He. rewrite H5, H2 by auto. reflexivity.
  - intros x Hx. rewrite H6, H3; auto.
Qed.
Lemma blk_eq bb k k' e e' : e < bb -> e' < bb -> k * bb + e = k' * bb + e' -> k = k' /\ e = e'.
Proof. intros H1 H2 E. assert (k = k') by nia. subst. split; [reflexivity|]. lia. Qed.
Lemma swap_index (l : list nat) base N a b x y :
  a < N -> b < N -> base + N <= length l ->
  l !! (base + a) = Some x -> l !! (base + b) = Some y ->
  seg_perm 1 N base (swapf a b) l (<[base + b := x]> (<[base + a := y]> l)).
Proof.
  intros Ha Hb Hl Hx Hy. split; [rewrite !insert_length; reflexivity|]. split.
  - intros k e Hk He. replace e with 0 by lia. rewrite !Nat.mul_1_r, !Nat.add_0_r. unfold swapf.
    destruct (decide (k = b)) as [->|Hnb].
    + rewrite list_lookup_insert by (rewrite insert_length; lia).
      destruct (Nat.eqb_spec b a) as [->|]; [congruence|]. rewrite Nat.eqb_refl. congruence.
    + rewrite list_lookup_insert_ne by lia. destruct (Nat.eqb_spec k a) as [->|].
      * rewrite list_lookup_insert by lia. congruence.
      * rewrite list_lookup_insert_ne by lia. destruct (Nat.eqb_spec k b); [lia|reflexivity].
  - intros z Hz. rewrite !list_lookup_insert_ne by lia. reflexivity.
Qed.
Lemma swap_blocks {V} bb base N a b (l tempv : list V) :
  a < N -> b < N -> (base + N) * bb <= length l ->
  length tempv = bb -> (forall k, k < bb -> tempv !! k = l !! ((base + a) * bb + k)) ->
  ok (for_ 0 bb (fun k vals =>
      let! v := get vals ((base + b) * bb + k) in
      let! vals := set vals ((base + a) * bb + k) v in
      let! t := get tempv k in
      set vals ((base + b) * bb + k) t) l) (seg_perm bb N base (swapf a b) l).
Proof.
  intros Ha Hb Hl Htl Ht.
  eapply ok_for_post with (I := fun j l' => length l' = length l /\
    (forall k e, k < N -> e < bb -> l' !! ((base + k) * bb + e) =
        l !! ((base + (if e <? j then swapf a b k else k)) * bb + e)) /\
    (forall x, x < base * bb \/ (base + N) * bb <= x -> l' !! x = l !! x)).
  - lia.
  - split; [reflexivity|]. split; auto.
  - intros j l' Hj (H1 & H2 & H3).
    assert ((base + b) * bb + j < length l') as Hlb by nia.
    assert ((base + a) * bb + j < length l') as Hla by nia.
    destruct (lookup_lt_is_Some_2 l' _ Hlb) as [vb Hvb].
    destruct (lookup_lt_is_Some_2 tempv j) as [t Htv]; [lia|].
    assert (get l' ((base + b) * bb + j) = Ok vb) as -> by (apply get_Some; exact Hvb). cbn [bind].
    rewrite set_Ok by exact Hla. cbn [bind].
    assert (get tempv j = Ok t) as -> by (apply get_Some; exact Htv). cbn [bind].
    rewrite set_Ok by (rewrite insert_length; exact Hlb). simpl.
    split; [rewrite !insert_length; exact H1|]. split.
    + intros k e Hk He.
      destruct (decide (k = b /\ e = j)) as [[-> ->]|Hnb].
      { rewrite list_lookup_insert by (rewrite insert_length; lia).
        destruct (Nat.ltb_spec j (j + 1)); [|lia]. unfold swapf.
        destruct (Nat.eqb_spec b a) as [->|]; [|rewrite Nat.eqb_refl]; rewrite <- Htv, Ht by lia; reflexivity. }
      rewrite list_lookup_insert_ne.
      2: { intros E. apply blk_eq in E as [E ->]; lia. }
      destruct (decide (k = a /\ e = j)) as [[-> ->]|Hna].
      { rewrite list_lookup_insert by lia.
        destruct (Nat.ltb_spec j (j + 1)); [|lia]. unfold swapf. rewrite Nat.eqb_refl.
        rewrite <- Hvb. rewrite H2 by lia. destruct (Nat.ltb_spec j j); [lia|reflexivity]. }
      rewrite list_lookup_insert_ne.
      2: { intros E. apply blk_eq in E as [E ->]; lia. }
      rewrite H2 by lia. destruct (decide (e = j)) as [->|].
      * destruct (Nat.ltb_spec j (j + 1)); [|lia]. destruct (Nat.ltb_spec j j); [lia|].
        unfold swapf. destruct (Nat.eqb_spec k a), (Nat.eqb_spec k b); try lia. reflexivity.
      * destruct (Nat.ltb_spec e (j + 1)), (Nat.ltb_spec e j); try lia; reflexivity.
    + intros x Hx. rewrite !list_lookup_insert_ne; [apply H3, Hx|nia|nia].
  - intros l' (H1 & H2 & H3). split; [exact H1|]. split; [|exact H3].
    intros k e Hk He. rewrite H2 by auto. destruct (Nat.ltb_spec e bb); [reflexivity|lia].
Qed.

Lemma sort_inner_spec {V} bb N base colind (vals : list V) :
  base + N <= length colind -> (base + N) * bb <= length vals ->
  ok (sort_inner bb N base (colind, vals)) (fun '(colind', vals') =>
    exists f : nat -> nat,
      (forall k, k < N -> f k < N) /\ (forall k k', k < N -> k' < N -> f k = f k' -> k = k') /\
      seg_perm 1 N base f colind colind' /\ seg_perm bb N base f vals vals' /\
      forall k k', k <= k' -> k' < N -> colind' !!! (base + k) <= colind' !!! (base + k')).
Proof.
  intros Hc Hv. unfold sort_inner.
  eapply ok_for_post with (I := fun i (s : list nat * list V) => let '(colind', vals') := s in
    exists f : nat -> nat,
      (forall k, k < N -> f k < N) /\ (forall k k', k < N -> k' < N -> f k = f k' -> k = k') /\
      seg_perm 1 N base f colind colind' /\ seg_perm bb N base f vals vals' /\
      forall k k', k <= k' -> N <= k' + i -> k' < N -> colind' !!! (base + k) <= colind' !!! (base + k')).
  - lia.
  - exists id. split; [auto|]. split; [auto|]. split; [apply seg_perm_id|]. split; [apply seg_perm_id|]. intros; lia.
  - intros i [c1 v1] Hi (f & Hf & Hinj & Hpc & Hpv & Hs).
    destruct Hpc as (Hpc1 & Hpc2 & Hpc3). destruct Hpv as (Hpv1 & Hpv2 & Hpv3).
    eapply ok_bind; [apply max_element_spec; lia|]. intros mp [Hmp Hmax]. cbv zeta.
    set (last := N - 1 - i) in *.
    assert (last < N) as Hlast by lia. assert (mp < N) as HmpN by lia.
    destruct (lookup_lt_is_Some_2 c1 (base + last)) as [tempi Ht]; [lia|].
    destruct (lookup_lt_is_Some_2 c1 (base + mp)) as [mx Hmx]; [lia|].
    assert (get c1 (base + last) = Ok tempi) as -> by (apply get_Some; exact Ht). cbn [bind].
    assert (get c1 (base + mp) = Ok mx) as -> by (apply get_Some; exact Hmx). cbn [bind].
    rewrite set_Ok by lia. cbn [bind]. rewrite set_Ok by (rewrite insert_length; lia). cbn [bind].
    set (c2 := <[base + mp := tempi]> (<[base + last := mx]> c1)).
    assert (seg_perm 1 N base (swapf last mp) c1 c2) as Hsw by (apply swap_index; auto; lia).
    eapply ok_bind.
    { apply (ok_mapr _ _ (fun k v => v1 !! ((base + last) * bb + k) = Some v)).
      intros k a Ha. apply lookup_seq in Ha as [-> Hk].
      apply ok_get_lt; [nia|]. intros v E. exact E. }
    intros tempv [Htl Htv]. rewrite seq_length in Htl.
    eapply ok_bind.
    { apply (swap_blocks bb base N last mp v1 tempv); auto; [lia|]. intros k Hk.
      destruct (lookup_lt_is_Some_2 tempv k) as [t Htk]; [lia|]. rewrite Htk. symmetry. apply Htv. exact Htk. }
    intros v2 Hv2. simpl.
    exists (fun k => f (swapf last mp k)).
    assert (forall k, k < N -> swapf last mp k < N) as Hswl by (intros; apply swapf_lt; auto).
    split; [intros k Hk; auto|]. split.
    { intros k k' Hk Hk' E. apply Hinj in E; auto. eapply swapf_inj; eauto. }
    split; [apply (seg_perm_trans 1 N base f (swapf last mp) colind c1 c2); auto; split; auto|].
    split; [apply (seg_perm_trans bb N base f (swapf last mp) vals v1 v2); auto; split; auto|].
    destruct Hsw as (_ & Hsw & _).
    assert (forall k, k < N -> c2 !!! (base + k) = c1 !!! (base + swapf last mp k)) as Hc2.
    { intros k Hk. specialize (Hsw k 0 Hk ltac:(lia)). rewrite !Nat.mul_1_r, !Nat.add_0_r in Hsw.
      rewrite !list_lookup_total_alt, Hsw. reflexivity. }
    intros k k' Hk Hk' HkN. rewrite !Hc2 by lia.
    assert (swapf last mp last = mp) as E1 by (unfold swapf; rewrite Nat.eqb_refl; reflexivity).
    assert (forall x, x < N -> x > last -> swapf last mp x = x) as E2.
    { intros x Hx Hgt. unfold swapf. destruct (Nat.eqb_spec x last), (Nat.eqb_spec x mp); lia. }
    assert (forall x, x <= last -> swapf last mp x <= last) as E3.
    { intros x Hx. unfold swapf. destruct (Nat.eqb_spec x last), (Nat.eqb_spec x mp); lia. }
    destruct (decide (k' = last)) as [->|Hne].
    + rewrite E1. apply Hmax. specialize (E3 k Hk). lia.
    + rewrite (E2 k') by lia. destruct (decide (k <= last)) as [Hkl|Hkl].
      * apply Hs; try lia. specialize (E3 k Hkl). lia.
      * rewrite (E2 k) by lia. apply Hs; lia.
  - intros [c1 v1] (f & Hf & Hinj & Hpc & Hpv & Hs). exists f. repeat (split; [assumption|]).
    intros k k' Hk Hk'. destruct (decide (k = k')) as [->|]; [lia|]. apply Hs; lia.
Qed.

(** the sum of the first [n] entries *)
Definition psum (v : list nat) (n : nat) : nat := foldr Nat.add 0 (take n v).
Lemma psum_S v i a : v !! i = Some a -> psum v (i + 1) = psum v i + a.
Proof.
  intros H. unfold psum. replace (i + 1) with (S i) by lia. rewrite (take_S_r v i a H).
  generalize (take i v). intros l. induction l as [|x l IH]; simpl; lia.
Qed.
Lemma psum_mono v i j : i <= j -> psum v i <= psum v j.
Proof.
  intros H. unfold psum. replace j with (i + (j - i)) by lia.
  assert (take (i + (j - i)) v = take i v ++ take (j - i) (drop i v)) as ->.
  { rewrite <- (take_drop i (take (i + (j - i)) v)). rewrite take_take, Nat.min_l by lia. f_equal.
    rewrite skipn_firstn_comm. f_equal. lia. }
  generalize (take i v) (take (j - i) (drop i v)). intros l1 l2. induction l1; simpl; lia.
Qed.
Lemma inclusive_scan_spec v :
  ok (inclusive_scan v) (fun v' => length v' = length v /\ forall i, i < length v -> v' !! i = Some (psum v (i + 1))).
Proof.
  unfold inclusive_scan. destruct (decide (length v = 0)) as [E|Hne].
  { rewrite for_empty by lia. simpl. split; [reflexivity|]. intros; lia. }
  eapply ok_for_post with (I := fun i v' => length v' = length v /\
    (forall k, k < i -> v' !! k = Some (psum v (k + 1))) /\ forall k, i <= k -> v' !! k = v !! k).
  - lia.
  - split; [reflexivity|]. split; [|auto]. intros k Hk. replace k with 0 by lia.
    destruct (lookup_lt_is_Some_2 v 0) as [a Ha]; [lia|]. rewrite (psum_S v 0 a Ha), Ha. reflexivity.
  - intros i v' Hi (H1 & H2 & H3). destruct (lookup_lt_is_Some_2 v i) as [a Ha]; [lia|].
    eapply ok_bind; [eapply ok_get; [rewrite H3 by lia; exact Ha|exact eq_refl]|]. intros ? <-.
    eapply ok_bind; [eapply ok_get; [apply H2; lia|exact eq_refl]|]. intros ? <-.
    apply ok_set; [lia|]. split; [rewrite insert_length; exact H1|]. split.
    + intros k Hk. destruct (decide (k = i)) as [->|].
      * rewrite list_lookup_insert by lia. rewrite (psum_S v i a Ha).
        replace (i - 1 + 1) with i by lia. f_equal. lia.
      * rewrite list_lookup_insert_ne by lia. apply H2. lia.
    + intros k Hk. rewrite list_lookup_insert_ne by lia. apply H3. lia.
  - intros v' (H1 & H2 & _). auto.
Qed.
