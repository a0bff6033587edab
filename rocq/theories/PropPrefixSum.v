(** * PropPrefixSum: property C25 (parallel prefix sum) *)
From Verif Require Import Base Nd Own PrefixSum.
From Coq Require Import ZArith.
Open Scope nat_scope.

(** sum of the first [i] entries *)
Definition zsum (v : list Z) (i : nat) : Z := foldr Z.add 0%Z (take i v).
Lemma zsum_S v i a : v !! i = Some a -> zsum v (i + 1) = (zsum v i + a)%Z.
Proof.
  intros H. unfold zsum. replace (i + 1) with (S i) by lia. rewrite (take_S_r v i a H), foldr_app. simpl.
  generalize (take i v). intros l. induction l as [|b l IH]; simpl; [lia|]. rewrite IH. lia.
Qed.

Section Proof.
  Variables (T : nat) (c0 : list Z).
  Notation n := (length c0).
  Notation w := ((n - 1) / T + 1).
  Hypothesis HT : 1 <= T.
  Hypothesis Hn : 2 <= n.
  Hypothesis Hwork : (T - 1) * w < n.

  Lemma Hnw : n <= T * w.
  Proof. pose proof (Nat.div_mod (n - 1) T ltac:(lia)). pose proof (Nat.mod_upper_bound (n - 1) T ltac:(lia)). nia. Qed.
  Lemma idx t : t < T -> t * w < n.
  Proof. intros Ht. assert (t * w <= (T - 1) * w) by (apply Nat.mul_le_mono_r; lia). lia. Qed.
  (** the sum from [b] up to [x] *)
  Definition part (b x : nat) : Z := (zsum c0 x - zsum c0 b)%Z.
  Lemma part_S b x a : c0 !! x = Some a -> part b (x + 1) = (part b x + a)%Z.
  Proof. intros H. unfold part. rewrite (zsum_S _ _ _ H). lia. Qed.

  (** after the first phase *)
  Definition phase (h : nat) (c : list Z) : Prop :=
    length c = n /\ c !! 0 = Some 0%Z /\ forall x, 0 < x < n -> c !! x = Some (part ((x - 1) / h * h) x).
  Definition dom (h t x : nat) : Prop := t * h < x <= (t + 1) * h /\ x < n.
  Lemma dom_div h t x : dom h t x -> (x - 1) / h = t.
  Proof.
    intros [Hx _]. symmetry. apply (Nat.div_unique _ h t (x - 1 - t * h)); nia.
  Qed.
  Lemma div_dom h x : 0 < h -> 0 < x < n -> dom h ((x - 1) / h) x.
  Proof.
    intros Hh Hx. pose proof (Nat.div_mod (x - 1) h ltac:(lia)). pose proof (Nat.mod_upper_bound (x - 1) h ltac:(lia)).
    split; [|lia]. nia.
  Qed.

  Lemma first_phase (sv : list Z) : length sv = T -> (forall t v, sv !! t = Some v -> c0 !! (t * w) = Some v) ->
    nok (par_for 0 T (fun t counts =>
      let startidx := t * w in
      let endidx := Nat.min n ((t + 1) * w) in
      let! startval := get sv t in
      let! (counts, partial) := for_ (startidx + 1) endidx (fun i '(counts, partial) =>
        let! nnz := get counts i in
        let! counts := set counts i partial in
        Ok (counts, (partial + nnz)%Z)) (counts, startval) in
      if t =? T - 1 then Ok counts else set counts endidx partial) c0)
    (fun c => length c = n /\ forall x, 0 < x < n -> c !! x = Some (part ((x - 1) / w * w) x)).
  Proof.
    intros Ls Hs. assert (0 < w) as Hw by lia.
    apply nok_par_for_own with (D := dom w) (h := fun t x => Some (part (t * w) x)).
    - intros i i' x _ _ H1 H2. rewrite <- (dom_div _ _ _ H1), <- (dom_div _ _ _ H2). reflexivity.
    - intros t c Ht Lc Hc. cbv zeta. pose proof (idx t ltac:(lia)) as Hi.
      destruct (lookup_lt_is_Some_2 sv t) as [v Ev]; [lia|]. pose proof (Hs _ _ Ev) as Ec.
      eapply ok_bind; [eapply ok_get; [exact Ev|exact eq_refl]|]. intros ? <-.
      assert (t < T - 1 -> (t + 1) * w < n) as Hlast by (intros; apply idx; lia).
      assert (t = T - 1 -> n <= (t + 1) * w) as Hlast2 by (intros ->; replace (T - 1 + 1) with T by lia; apply Hnw).
      eapply ok_bind with (P := fun '(c', p) => length c' = n /\ p = part (t * w) (Nat.min n ((t + 1) * w)) /\
        forall x, c' !! x = if decide (t * w < x < Nat.min n ((t + 1) * w)) then Some (part (t * w) x) else c !! x).
      { eapply ok_for_post with (I := fun i '(c', p) => length c' = n /\ p = part (t * w) i /\
          forall x, c' !! x = if decide (t * w < x < i) then Some (part (t * w) x) else c !! x).
        - nia.
        - split; [exact Lc|]. split.
          + rewrite (part_S (t * w) (t * w) v Ec). unfold part. lia.
          + intros x. rewrite decide_False by lia. reflexivity.
        - intros i [c' p] Hii (L & -> & H). assert (i < n) as Hin by lia.
          destruct (lookup_lt_is_Some_2 c0 i Hin) as [a Ea].
          assert (c' !! i = Some a) as Ea'.
          { rewrite H, decide_False by lia. rewrite Hc by (split; lia). exact Ea. }
          eapply ok_bind; [eapply ok_get; [exact Ea'|exact eq_refl]|]. intros ? <-.
          eapply ok_bind; [apply ok_set; [lia|exact eq_refl]|]. intros ? <-. simpl.
          split; [rewrite insert_length; exact L|]. split; [rewrite (part_S _ _ _ Ea); reflexivity|].
          intros x. destruct (decide (i = x)) as [<-|Hne].
          + rewrite list_lookup_insert, decide_True by lia. reflexivity.
          + rewrite list_lookup_insert_ne by exact Hne. rewrite H. destruct (decide (t * w < x < i)) as [D1|D1], (decide (t * w < x < i + 1)) as [D2|D2]; try lia; reflexivity.
        - auto. }
      intros [c' p] (L & -> & H). destruct (Nat.eqb_spec t (T - 1)) as [He|He].
      + simpl. split; [lia|]. split.
        * intros x [Hx1 Hx2]. rewrite H, decide_True; [reflexivity|]. specialize (Hlast2 He). lia.
        * intros x Hx. rewrite H, decide_False; [reflexivity|]. intros Hx'. apply Hx. split; lia.
      + specialize (Hlast ltac:(lia)). rewrite Nat.min_r in * by lia. apply ok_set; [lia|]. split; [rewrite insert_length; lia|]. split.
        * intros x [Hx1 Hx2]. destruct (decide ((t + 1) * w = x)) as [<-|Hne].
          -- apply list_lookup_insert. lia.
          -- rewrite list_lookup_insert_ne by exact Hne. rewrite H, decide_True; [reflexivity|]. lia.
        * intros x Hx. rewrite list_lookup_insert_ne; [|intros <-; apply Hx; split; lia].
          rewrite H, decide_False; [reflexivity|]. intros Hx'. apply Hx. split; lia.
    - intros c Lc Hin _. split; [exact Lc|]. intros x Hx. pose proof (div_dom w x Hw Hx) as Hd.
      rewrite (Hin ((x - 1) / w)); [reflexivity| |exact Hd].
      split; [lia|]. apply Nat.div_lt_upper_bound; [lia|]. pose proof Hnw. nia.
  Qed.
  Lemma level_phase l c : phase (2 ^ l * w) c ->
    nok (par_for 0 ((T - 1) / 2 ^ (l + 1) + 1) (fun k counts =>
      let startidx := Nat.min n (2 ^ (l + 1) * w / 2 + k * (2 ^ (l + 1) * w) + 1) in
      let endidx := Nat.min n ((k + 1) * (2 ^ (l + 1) * w) + 1) in
      let! baseval := get counts (startidx - 1) in
      for_ startidx endidx (fun i counts => let! c := get counts i in set counts i (c + baseval)%Z) counts) c)
    (phase (2 ^ (l + 1) * w)).
  Proof.
    intros (Lc & H0 & H). set (hw := 2 ^ l * w) in *. assert (2 ^ (l + 1) * w = 2 * hw) as E.
    { unfold hw. rewrite Nat.add_1_r, Nat.pow_succ_r'. lia. }
    assert (0 < hw) as Hh. { unfold hw. pose proof (Nat.pow_nonzero 2 l ltac:(lia)). nia. }
    rewrite E. set (lw := 2 * hw). assert (lw / 2 = hw) as -> by (unfold lw; rewrite Nat.mul_comm; apply Nat.div_mul; lia).
    apply nok_par_for_own with (D := dom lw) (h := fun k x => Some (part (k * lw) x)).
    - intros i i' x _ _ H1 H2. rewrite <- (dom_div _ _ _ H1), <- (dom_div _ _ _ H2). reflexivity.
    - intros k s Hk Ls Hs. cbv zeta.
      assert (Nat.min n (hw + k * lw + 1) - 1 < length s) as Hb by lia.
      destruct (lookup_lt_is_Some_2 s _ Hb) as [bv Ebv].
      eapply ok_bind; [eapply ok_get; [exact Ebv|exact eq_refl]|]. intros ? <-.
      (* the value added *)
      assert (hw + k * lw + 1 < n -> bv = part (k * lw) (k * lw + hw)) as Hbv.
      { intros Hlt. rewrite Nat.min_r in Ebv by lia. replace (hw + k * lw + 1 - 1) with (k * lw + hw) in Ebv by lia.
        assert (dom lw k (k * lw + hw)) as Hd by (unfold lw; split; nia).
        rewrite Hs in Ebv by exact Hd. rewrite H in Ebv by (unfold lw; nia).
        assert (dom hw (2 * k) (k * lw + hw)) as Hd2 by (unfold lw; split; nia).
        rewrite (dom_div _ _ _ Hd2) in Ebv. injection Ebv as <-. unfold lw. f_equal. lia. }
      eapply ok_for_post with (I := fun i s' => length s' = length s /\ forall x, s' !! x =
        if decide (Nat.min n (hw + k * lw + 1) <= x < i) then (fun v => v + bv)%Z <$> s !! x else s !! x).
      + unfold lw. nia.
      + split; [reflexivity|]. intros x. rewrite decide_False by lia. reflexivity.
      + intros i s' Hi (L & Hx). destruct (lookup_lt_is_Some_2 s i) as [a Ea]; [lia|].
        assert (s' !! i = Some a) as Ea' by (rewrite Hx, decide_False by lia; exact Ea).
        eapply ok_bind; [eapply ok_get; [exact Ea'|exact eq_refl]|]. intros ? <-. apply ok_set; [lia|].
        split; [rewrite insert_length; exact L|]. intros x. destruct (decide (i = x)) as [<-|Hne].
        * rewrite list_lookup_insert, decide_True by lia. rewrite Ea. reflexivity.
        * rewrite list_lookup_insert_ne by exact Hne. rewrite Hx.
          destruct (decide (Nat.min n (hw + k * lw + 1) <= x < i)) as [D1|D1], (decide (Nat.min n (hw + k * lw + 1) <= x < i + 1)) as [D2|D2]; try lia; reflexivity.
      + intros s' (L & Hx). split; [exact L|]. split.
        * intros x Hd. pose proof Hd as [[Hd1 Hd2] Hd3]. rewrite Hx. pose proof (Hs x Hd) as Es. rewrite H in Es by lia.
          destruct (decide (x <= k * lw + hw)) as [Hlo|Hhi].
          -- rewrite decide_False by lia. rewrite Es. assert (dom hw (2 * k) x) as Hd' by (unfold lw in *; split; nia).
             rewrite (dom_div _ _ _ Hd'). do 2 f_equal. unfold lw. lia.
          -- rewrite decide_True by (unfold lw in *; lia). rewrite Es. simpl. f_equal.
             assert (dom hw (2 * k + 1) x) as Hd' by (unfold lw in *; split; nia).
             rewrite (dom_div _ _ _ Hd'), Hbv by lia. unfold part. replace ((2 * k + 1) * hw) with (k * lw + hw) by (unfold lw; lia). lia.
        * intros x Hd. rewrite Hx, decide_False; [reflexivity|]. intros Hx'. apply Hd. unfold lw in *. split; nia.
    - intros s Ls Hin Hout. split; [lia|]. split.
      + rewrite Hout; [exact H0|]. intros i Hi [Hd _]. lia.
      + intros x Hx. assert (0 < lw) as Hlw by (unfold lw; lia). pose proof (div_dom lw x Hlw Hx) as Hd.
        rewrite (Hin ((x - 1) / lw)); [reflexivity| |exact Hd]. split; [lia|].
        pose proof Hnw as HN. fold lw in E. rewrite <- E.
        assert ((x - 1) / (2 ^ (l + 1) * w) <= (T - 1) / 2 ^ (l + 1)); [|lia].
        rewrite (Nat.mul_comm _ w), <- Nat.div_div by (try apply Nat.pow_nonzero; lia).
        apply Nat.div_le_mono; [apply Nat.pow_nonzero; lia|].
        assert ((x - 1) / w < T); [|lia]. apply Nat.div_lt_upper_bound; nia.
  Qed.
  Lemma prefix_sum_phase levels : nok (prefix_sum T levels c0) (phase (2 ^ levels * w)).
  Proof.
    unfold prefix_sum. destruct (Nat.leb_spec n 1); [lia|]. cbv zeta.
    eapply nok_bind with (P := fun sv => length sv = T /\ forall t v, sv !! t = Some v -> c0 !! (t * w) = Some v).
    { apply nok_lift. eapply ok_mono; [apply ok_mapr with (Q := fun t v => c0 !! (t * w) = Some v)|].
      - intros k t Hk. apply lookup_seq in Hk as [-> Hk]. apply ok_get_lt; [apply idx, Hk|]. auto.
      - intros sv [L Hs]. rewrite seq_length in L. auto. }
    intros sv [Ls Hs].
    eapply nok_bind; [apply first_phase; auto|]. intros c [Lc Hc].
    eapply nok_bind with (P := phase (2 ^ 0 * w)).
    { apply nok_lift. apply ok_set; [lia|]. split; [rewrite insert_length; exact Lc|]. split; [apply list_lookup_insert; lia|].
      intros x Hx. rewrite list_lookup_insert_ne by lia. simpl. rewrite Nat.add_0_r. apply Hc, Hx. }
    intros c1 Hc1. eapply nok_nfor with (I := fun l c => phase (2 ^ l * w) c).
    - lia.
    - exact Hc1.
    - intros l c' Hl Hph. apply (level_phase l c' Hph).
    - auto.
  Qed.
End Proof.

(** ** When it works: every thread has work, and there are enough merge levels *)
Theorem C25_prefix_sum : forall T levels counts, let n := length counts in
  1 <= T -> T <= 2 ^ levels -> (T - 1) * ((n - 1) / T + 1) < n \/ n <= 1 ->
  nok (prefix_sum T levels counts) (fun c => length c = n /\ forall x, x < n -> c !! x = Some (zsum counts x)).
Proof.
  intros T levels counts n HT HL Hw. destruct (decide (n <= 1)) as [Hsmall|Hbig].
  - unfold prefix_sum. fold n. destruct (Nat.leb_spec n 1); [|lia]. apply nok_lift. destruct (Nat.ltb_spec 0 n).
    + apply ok_set; [exact H0|]. split; [apply insert_length|]. intros x Hx. assert (x = 0) as -> by lia. apply list_lookup_insert. exact H0.
    + simpl. split; [reflexivity|]. intros; lia.
  - destruct Hw as [Hw|]; [|lia]. eapply nok_mono; [apply (prefix_sum_phase T counts HT ltac:(lia) Hw)|].
    intros c (Lc & H0 & H). split; [exact Lc|]. intros x Hx. destruct (decide (x = 0)) as [->|]; [exact H0|].
    rewrite H by (fold n; lia). fold n. f_equal. unfold part.
    assert ((x - 1) / (2 ^ levels * ((n - 1) / T + 1)) = 0) as ->; [|simpl; unfold zsum at 2; simpl; lia].
    apply Nat.div_small. pose proof (Hnw T counts HT) as HN. fold n in HN. nia.
Qed.
(** With the number of levels the code uses: one to four threads and eight *)
Corollary C25_one_to_four_threads : forall T counts, let n := length counts in
  1 <= T <= 4 \/ T = 8 -> (T - 1) * ((n - 1) / T + 1) < n \/ n <= 1 ->
  nok (prefix_sum T (ceil_log T) counts) (fun c => length c = n /\ forall x, x < n -> c !! x = Some (zsum counts x)).
Proof.
  intros T counts n HT Hw. apply C25_prefix_sum; [lia| |exact Hw].
  assert (T = 1 \/ T = 2 \/ T = 3 \/ T = 4 \/ T = 8) as [-> | [-> | [-> | [-> | ->]]]] by lia; vm_compute; lia.
Qed.
(** ** Too few merge levels: wrong for an array of ones *)
Lemma zsum_ones m i : i <= m -> zsum (replicate m 1%Z) i = Z.of_nat i.
Proof.
  intros H. unfold zsum. rewrite take_replicate, Nat.min_l by exact H. clear H. induction i as [|i IH]; [reflexivity|]. simpl. rewrite IH. lia.
Qed.
Theorem C25_too_few_levels_refuted : forall T levels, 2 ^ levels < T ->
  let counts := replicate (2 * T) 1%Z in
  nok (prefix_sum T levels counts) (fun c => exists v, c !! (2 * T - 1) = Some v /\ v <> zsum counts (2 * T - 1)).
Proof.
  intros T levels HL counts. assert (length counts = 2 * T) as Ln by apply replicate_length. pose proof (Nat.pow_nonzero 2 levels ltac:(lia)) as Hp.
  assert ((2 * T - 1) / T = 1) as Hd by (symmetry; apply (Nat.div_unique _ _ 1 (T - 1)); lia).
  eapply nok_mono; [apply (prefix_sum_phase T counts)|].
  - lia.
  - rewrite Ln. lia.
  - rewrite Ln, Hd. lia.
  - intros c (_ & _ & H). eexists. split; [apply H; rewrite Ln; lia|]. rewrite Ln, Hd. unfold part, counts.
    set (m := (2 * T - 1 - 1) / (2 ^ levels * (1 + 1))).
    assert (1 <= m) as Hm by (apply Nat.div_le_lower_bound; lia).
    assert (m * (2 ^ levels * (1 + 1)) <= 2 * T - 1 - 1) as Hle by (rewrite Nat.mul_comm; apply Nat.mul_div_le; lia).
    rewrite !zsum_ones by lia. nia.
Qed.
Corollary C25_five_threads_refuted :
  nok (prefix_sum 5 (ceil_log 5) (replicate 10 1%Z)) (fun c => exists v, c !! 9 = Some v /\ v <> 9%Z).
Proof. eapply nok_mono; [apply (C25_too_few_levels_refuted 5 (ceil_log 5)); vm_compute; lia|]. auto. Qed.
(** ** A thread without work: read past the end, whatever the schedule *)
Theorem C25_idle_thread_refuted : forall T levels counts o, let n := length counts in
  1 <= T -> 2 <= n -> n <= (T - 1) * ((n - 1) / T + 1) -> prefix_sum T levels counts o -> o = UB.
Proof.
  intros T levels counts o n HT Hn Hw Ho. unfold prefix_sum in Ho. fold n in Ho. destruct (Nat.leb_spec n 1); [lia|]. cbv zeta in Ho.
  set (w := (n - 1) / T + 1) in *.
  assert (mapr (fun t => get counts (t * w)) (seq 0 T) = UB) as E.
  { assert (forall m s, 1 <= m -> length counts <= (s + m - 1) * w -> mapr (fun t => get counts (t * w)) (seq s m) = UB) as Hall.
    { induction m as [|m IH]; intros s Hm Hx; [lia|]. cbn [seq mapr]. destruct (get counts (s * w)) as [v| |e|] eqn:Eg; cbn [bind].
      - destruct (decide (m = 0)) as [->|].
        + exfalso. apply get_Some, lookup_lt_Some in Eg. replace (s + 1 - 1) with s in Hx by lia. lia.
        + rewrite IH; [reflexivity|lia|]. replace (S s + m - 1) with (s + S m - 1) by lia. exact Hx.
      - reflexivity.
      - unfold get in Eg. destruct (counts !! (s * w)); discriminate.
      - unfold get in Eg. destruct (counts !! (s * w)); discriminate. }
    apply Hall; [lia|]. fold n. simpl. lia. }
  destruct Ho as (r & Hr & Hk). unfold nlift in Hr. rewrite E in Hr. subst r. exact Hk.
Qed.
Example C25_idle_case : 5 <= (4 - 1) * ((5 - 1) / 4 + 1). Proof. simpl. lia. Qed.
Example C25_case : (3 - 1) * ((7 - 1) / 3 + 1) < 7 /\ ceil_log 3 = 2 /\
  nok (prefix_sum 3 (ceil_log 3) [3; 1; 4; 1; 5; 9; 2]%Z) (fun c => c = [0; 3; 4; 8; 9; 14; 23]%Z).
Proof.
  split; [simpl; lia|]. split; [reflexivity|]. eapply nok_mono; [apply C25_one_to_four_threads; simpl; lia|].
  intros c [L H]. apply list_eq_lt; [exact L|]. intros i Hi. rewrite H by lia. rewrite L in Hi. simpl in Hi.
  do 7 (destruct i as [|i]; [reflexivity|]). lia.
Qed.

Print Assumptions C25_prefix_sum.
Print Assumptions C25_one_to_four_threads.
Print Assumptions C25_too_few_levels_refuted.
Print Assumptions C25_five_threads_refuted.
Print Assumptions C25_idle_thread_refuted.
