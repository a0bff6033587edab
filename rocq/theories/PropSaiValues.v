(** * PropSaiValues: C51, the values *)
From Coq Require Import ZArith Sorting.Sorted.
From Verif Require Import Base Alg SRMatrix KernelFacts TriFacts Nd PropTriView Sai SaiSpec SaiFacts CooBsr.
Local Open Scope nat_scope.

Lemma for_throw {St} lo m hi (body : nat -> St -> res St) s (I : nat -> St -> Prop) e : lo <= m < hi ->
  I lo s -> (forall j s, lo <= j < m -> I j s -> ok (body j s) (I (j + 1))) -> (forall s, I m s -> body m s = Throw e) ->
  for_ lo hi body s = Throw e.
Proof.
  intros Hm H0 Hb Ht. unfold for_. replace (hi - lo) with ((m - lo) + (hi - m)) by lia. rewrite for_n_app.
  assert (ok (for_n (m - lo) lo body s) (I m)) as H by (apply (ok_for lo m body s I); [lia|exact H0|exact Hb]).
  apply ok_inv in H as (s' & -> & H). cbn [bind]. replace (lo + (m - lo)) with m by lia. replace (hi - m) with (S (hi - m - 1)) by lia. cbn [for_n]. rewrite (Ht s' H). reflexivity.
Qed.

Section Values.
  Context {F : Type} {O : SOps F}.

  (** ** Dense matrices *)
  Lemma lent_set (m : lmat F) R C r c x : lwf m R C -> r < R -> c < C ->
    ok (lset m r c x) (fun m' => lwf m' R C /\ forall r' c', r' < R -> lent m' r' c' = if decide (r' = r /\ c' = c) then x else lent m r' c').
  Proof.
    intros (E1 & E2 & E3) Hr Hc. unfold lset. rewrite set_Ok by (rewrite E1, E3; nia). cbn [bind ok]. split; [split; [exact E1|split; [exact E2|cbn; rewrite insert_length; exact E3]]|].
    intros r' c' Hr'. unfold lent. cbn [ldata lrows]. rewrite E1. destruct (decide (r' = r /\ c' = c)) as [[-> ->]|Hn].
    - rewrite list_lookup_insert by (rewrite E3; nia). reflexivity.
    - rewrite list_lookup_insert_ne; [reflexivity|]. intros Heq. apply Hn. assert (c = c') by nia. subst. split; [nia|reflexivity].
  Qed.
  Lemma lent_zero R C r c : lent (lzero (F:=F) R C) r c = s0.
  Proof.
    unfold lent, lzero. cbn [ldata lrows]. destruct (replicate (R * C) s0 !! _) eqn:E; [|reflexivity]. apply lookup_replicate in E as [-> _]. reflexivity.
  Qed.
  Lemma lwf_zero R C : lwf (lzero (F:=F) R C) R C.
  Proof. split; [reflexivity|]. split; [reflexivity|]. apply replicate_length. Qed.
  Lemma lget_lent (m : lmat F) R C r c : lwf m R C -> r < R -> c < C -> lget m r c = Ok (lent m r c).
  Proof. intros (E1 & E2 & E3) Hr Hc. unfold lget, lent. apply get_Some. rewrite E1. destruct (lookup_lt_is_Some_2 (ldata m) (r + c * R)) as [x ->]; [rewrite E3; nia|reflexivity]. Qed.

  Context (so : storage) (bs : nat) (V : srmat F).
  Notation n := (nbrows V).
  Notation cl j := (bcolind V !!! j).

  Lemma vpos_Some u e k : NoDup (unknowns V u) -> vpos V u e = Some k <-> k ∈ vrange V u /\ cl k = e.
  Proof.
    intros Hd. unfold vpos. split.
    - intros H. destruct (list_find _ _) as [[t k']|] eqn:Ef; [|discriminate]. cbn in H. injection H as ->. apply list_find_Some in Ef as (H1 & H2 & _). split; [eapply elem_of_list_lookup_2, H1|exact H2].
    - intros [Hk He]. destruct (list_find _ _) as [[t k']|] eqn:Ef.
      + apply list_find_Some in Ef as (H1 & H2 & _). cbn. f_equal. apply elem_of_list_lookup in Hk as [t' Ht']. assert (t = t') as ->.
        { apply (NoDup_lookup _ t t' e Hd); unfold unknowns; rewrite list_lookup_fmap; [rewrite H1|rewrite Ht']; cbn; congruence. }
        congruence.
      + rewrite list_find_None, Forall_forall in Ef. destruct (Ef k Hk He).
  Qed.
  Lemma vpos_None u e : vpos V u e = None <-> e ∉ unknowns V u.
  Proof.
    unfold vpos, unknowns. split.
    - intros H. destruct (list_find _ _) as [[t k']|] eqn:Ef; [discriminate|]. rewrite list_find_None, Forall_forall in Ef. intros H'. apply elem_of_list_fmap in H' as (k & -> & Hk). apply (Ef k Hk). reflexivity.
    - intros H. destruct (list_find _ _) as [[t k']|] eqn:Ef; [|reflexivity]. destruct H. apply list_find_Some in Ef as (H1 & <- & _). apply elem_of_list_fmap. exists k'. split; [reflexivity|]. eapply elem_of_list_lookup_2, H1.
  Qed.
  Lemma vdense_at u e a b : a < bs -> b < bs -> vdense so bs V (u * bs + a) (e * bs + b) = match vpos V u e with Some k => bent so bs (vals V) k a b | None => s0 end.
  Proof. intros Ha Hb. unfold vdense. rewrite !flat_div, !flat_mod by assumption. reflexivity. Qed.

  (** writing one block *)
  Lemma gather_block (L : lmat F) nr nc z q k : lwf L (nr * bs) (nc * bs) -> z < nr -> q < nc -> k * (bs * bs) + bs * bs <= length (vals V) ->
    ok (for_ 0 bs (fun ib lhs => for_ 0 bs (fun jb lhs =>
          let! x := get (vals V) (k * (bs * bs) + lay so bs jb ib) in
          lset lhs (z * bs + ib) (q * bs + jb) x) lhs) L) (fun L' => lwf L' (nr * bs) (nc * bs) /\
      forall z' q' b a, z' < nr -> a < bs -> b < bs -> lent L' (z' * bs + b) (q' * bs + a) = if decide (z' = z /\ q' = q) then bent so bs (vals V) k a b else lent L (z' * bs + b) (q' * bs + a)).
  Proof.
    intros HL Hz Hq Hk.
    apply ok_for_post with (I := fun ib L' => lwf L' (nr * bs) (nc * bs) /\
      forall z' q' b a, z' < nr -> a < bs -> b < bs -> lent L' (z' * bs + b) (q' * bs + a) = if decide (z' = z /\ q' = q /\ b < ib) then bent so bs (vals V) k a b else lent L (z' * bs + b) (q' * bs + a)); [lia| | |].
    - split; [exact HL|]. intros. rewrite decide_False by lia. reflexivity.
    - intros ib L1 Hib [HL1 H1].
      apply ok_for_post with (I := fun jb L' => lwf L' (nr * bs) (nc * bs) /\
        forall z' q' b a, z' < nr -> a < bs -> b < bs -> lent L' (z' * bs + b) (q' * bs + a) = if decide (z' = z /\ q' = q /\ (b < ib \/ b = ib /\ a < jb)) then bent so bs (vals V) k a b else lent L (z' * bs + b) (q' * bs + a)); [lia| | |].
      + split; [exact HL1|]. intros z' q' b a ? ? ?. rewrite H1 by assumption. destruct (decide _), (decide _); try reflexivity; lia.
      + intros jb L2 Hjb [HL2 H2]. pose proof (lay_lt so bs jb ib ltac:(lia) ltac:(lia)) as Hlay.
        destruct (lookup_lt_is_Some_2 (vals V) (k * (bs * bs) + lay so bs jb ib)) as [x Hx]; [lia|]. unfold get. rewrite Hx. cbn [bind].
        eapply ok_mono; [apply (lent_set L2 (nr * bs) (nc * bs)); [exact HL2|nia|nia]|]. intros L3 [HL3 H3]. split; [exact HL3|].
        intros z' q' b a Hz' Ha Hb. rewrite H3 by nia. destruct (decide (z' * bs + b = z * bs + ib /\ q' * bs + a = q * bs + jb)) as [[e1 e2]|Hn].
        * apply flat_eq in e1 as [-> ->]; [|lia..]. apply flat_eq in e2 as [-> ->]; [|lia..]. rewrite decide_True by lia. unfold bent. rewrite Hx. reflexivity.
        * rewrite H2 by assumption. destruct (decide _) as [D|D], (decide _) as [D'|D']; try reflexivity; [lia|]. exfalso. apply D. destruct D' as (-> & -> & [D'|[-> D']]); [lia|].
          assert (a <> jb) by (intros ->; apply Hn; split; reflexivity). lia.
      + intros L2 [HL2 H2]. split; [exact HL2|]. intros z' q' b a ? ? ?. rewrite H2 by assumption. destruct (decide _), (decide _); try reflexivity; lia.
    - intros L1 [HL1 H1]. split; [exact HL1|]. intros z' q' b a ? ? ?. rewrite H1 by assumption. destruct (decide _), (decide _); try reflexivity; lia.
  Qed.

  Context (E : nat -> list nat) (sp : saipat).
  Hypothesis Hw : wf_view V.
  Hypothesis Hnd : nodup_rows V.
  Hypothesis Hvals : forall i j, i < n -> j ∈ vrange V i -> j * (bs * bs) + bs * bs <= length (vals V).
  Hypothesis Hsp : describes V E sp.

  (** row [u] of A has an entry in every equation of row [i] *)
  Definition complete (i u : nat) : Prop := forall e, e ∈ E i -> e ∈ unknowns V u.

  Lemma count_entries i u : i < n -> u < n -> NoDup (E i) -> length (filter (fun k => cl k ∈ E i) (vrange V u)) = length (E i) <-> complete i u.
  Proof.
    intros Hi Hu HE. set (l := (fun k => cl k) <$> filter (fun k => cl k ∈ E i) (vrange V u)).
    assert (length (filter (fun k => cl k ∈ E i) (vrange V u)) = length l) as -> by (unfold l; rewrite fmap_length; reflexivity).
    assert (NoDup l) as Hl.
    { unfold l. specialize (Hnd u Hu). unfold unknowns in Hnd. revert Hnd. generalize (vrange V u) as r. induction r as [|k r IH]; intros Hr; [constructor|]. rewrite fmap_cons in Hr. apply NoDup_cons in Hr as [H1 H2].
      destruct (decide (cl k ∈ E i)); [rewrite filter_cons_True by assumption|rewrite filter_cons_False by assumption; auto]. rewrite fmap_cons. constructor; [|auto].
      intros H. apply H1. apply elem_of_list_fmap in H as (k' & Ek & H). apply elem_of_list_filter in H as [_ H]. apply elem_of_list_fmap. eauto. }
    assert (forall e, e ∈ l <-> e ∈ E i /\ e ∈ unknowns V u) as Hel.
    { intros e. unfold l, unknowns. rewrite !elem_of_list_fmap. split.
      - intros (k & -> & H). apply elem_of_list_filter in H as [H1 H2]. eauto.
      - intros [H1 (k & -> & H2)]. exists k. split; [reflexivity|]. apply elem_of_list_filter. auto. }
    assert (l ⊆+ E i) as Hsub by (apply NoDup_submseteq; [exact Hl|]; intros e He; apply Hel, He). pose proof (submseteq_length _ _ Hsub) as Hlen. split.
    - intros Heq e He. assert (l ≡ₚ E i) as Hp by (apply submseteq_Permutation_length_eq; [congruence|exact Hsub]). rewrite <- Hp in He. apply Hel, He.
    - intros Hc. enough (length (E i) <= length l) by lia. apply submseteq_length, NoDup_submseteq; [exact HE|]. intros e He. apply Hel. split; [exact He|apply Hc, He].
  Qed.

  Lemma central_unknown i q j : i < n -> vrange V i !! q = Some j -> cl j < n /\ unknowns V i !! q = Some (cl j).
  Proof.
    intros Hi Hj. split; [destruct Hw as (_ & _ & _ & H); eapply H; [exact Hi|eapply elem_of_list_lookup_2, Hj]|]. unfold unknowns. rewrite list_lookup_fmap, Hj. reflexivity.
  Qed.

  (** one column of the small matrix, as the code goes on from [L] *)
  Definition column_inv (i jcol : nat) (L : lmat F) : Prop := lwf L (length (E i) * bs) (length (unknowns V i) * bs) /\
    forall z q b a, z < length (E i) -> q < length (unknowns V i) -> a < bs -> b < bs -> lent L (z * bs + b) (q * bs + a) =
      if decide (q < jcol) then vdense so bs V (unknowns V i !!! q * bs + a) (E i !!! z * bs + b) else s0.
  Lemma gather_column debug i q (L : lmat F) : i < n -> NoDup (E i) -> q < length (unknowns V i) -> column_inv i q L ->
    (debug = true -> complete i (unknowns V i !!! q)) ->
    ok (let! s := get (sairowptr sp) i in
      let! start := get (bcolptr sp) (s + q) in
      let! e := get (bcolptr sp) (s + q + 1) in
      if debug && negb (e - start =? length (E i)) then Throw "assert" else
      for_ start e (fun ii lhs =>
        let! lhsrow := get (browind sp) ii in
        let! lhspos := get (bpos sp) ii in
        if (lhsrow <? 0)%Z then UB else
        for_ 0 bs (fun ib lhs => for_ 0 bs (fun jb lhs =>
          let! x := get (vals V) (lhspos * (bs * bs) + lay so bs jb ib) in
          lset lhs (Z.to_nat lhsrow * bs + ib) (q * bs + jb) x) lhs) lhs) L) (column_inv i (q + 1)).
  Proof.
    intros Hi HE Hq [HL HLe] Hdeb. assert (q < length (vrange V i)) as Hq' by (unfold unknowns in Hq; rewrite fmap_length in Hq; exact Hq).
    destruct (lookup_lt_is_Some_2 (vrange V i) q Hq') as [j Hj]. destruct (central_unknown i q j Hi Hj) as [Hu Hqu]. set (u := cl j) in *.
    assert (unknowns V i !!! q = u) as Eu by (apply list_lookup_total_correct, Hqu). rewrite Eu in Hdeb.
    destruct (sp_column V E sp Hsp i q j Hi Hj) as (s & f & l & H1 & H2 & H3 & Hl & Hent). fold u in Hl.
    unfold get at 1. rewrite H1. cbn [bind]. unfold get at 1. rewrite H2. cbn [bind]. unfold get at 1. rewrite H3. cbn [bind].
    replace (f + length l - f) with (length l) by lia.
    assert (length l = length (filter (fun k => cl k ∈ E i) (vrange V u))) as Ell by (rewrite <- Hl, fmap_length; reflexivity).
    assert (debug && negb (length l =? length (E i)) = false) as ->.
    { destruct debug; [|reflexivity]. cbn. apply negb_false_iff, Nat.eqb_eq. rewrite Ell. apply count_entries; auto. }
    assert (forall k z, (k, z) ∈ l <-> k ∈ vrange V u /\ E i !! z = Some (cl k)) as Hmem.
    { intros k z. split.
      - intros H. apply elem_of_list_lookup in H as [t Ht]. destruct (Hent t k z Ht) as (_ & _ & Hz). split; [|exact Hz].
        assert (k ∈ l.*1) as Hk by (apply elem_of_list_fmap; exists (k, z); split; [reflexivity|eapply elem_of_list_lookup_2, Ht]). rewrite Hl in Hk. apply elem_of_list_filter in Hk as [_ Hk]. exact Hk.
      - intros [Hk Hz]. assert (k ∈ l.*1) as Hk1 by (rewrite Hl; apply elem_of_list_filter; split; [eapply elem_of_list_lookup_2, Hz|exact Hk]).
        apply elem_of_list_fmap in Hk1 as ([k' z'] & Ek & H). cbn in Ek. subst k'. apply elem_of_list_lookup in H as [t Ht]. destruct (Hent t k z' Ht) as (_ & _ & Hz').
        assert (z' = z) as -> by (eapply NoDup_lookup; eassumption). eapply elem_of_list_lookup_2, Ht. }
    apply ok_for_post with (I := fun ii L' => lwf L' (length (E i) * bs) (length (unknowns V i) * bs) /\
      forall z q' b a, z < length (E i) -> a < bs -> b < bs ->
        (forall k, q' = q -> (k, z) ∈ take (ii - f) l -> lent L' (z * bs + b) (q' * bs + a) = bent so bs (vals V) k a b) /\
        (~ (q' = q /\ exists k, (k, z) ∈ take (ii - f) l) -> lent L' (z * bs + b) (q' * bs + a) = lent L (z * bs + b) (q' * bs + a))); [lia| | |].
    - split; [exact HL|]. intros. rewrite Nat.sub_diag. cbn [take]. split; [intros k _ H'; apply elem_of_nil in H' as []|reflexivity].
    - intros ii L1 Hii [HL1 HL1e]. destruct (lookup_lt_is_Some_2 l (ii - f)) as [[k z] Hkz]; [lia|]. destruct (Hent _ _ _ Hkz) as (B1 & B2 & B3). replace (f + (ii - f)) with ii in B1, B2 by lia.
      unfold get at 1. rewrite B2. cbn [bind]. unfold get at 1. rewrite B1. cbn [bind]. replace (Z.of_nat z <? 0)%Z with false by (symmetry; apply Z.ltb_ge; lia). rewrite Nat2Z.id.
      assert ((k, z) ∈ l) as Hin by (eapply elem_of_list_lookup_2, Hkz). apply Hmem in Hin as [Hk _].
      eapply ok_mono; [apply (gather_block L1 (length (E i)) (length (unknowns V i)) z q k HL1); [eapply lookup_lt_Some, B3|exact Hq|eapply Hvals, Hk; exact Hu]|].
      intros L2 [HL2 HL2e]. split; [exact HL2|]. intros z' q' b a Hz' Ha Hb. rewrite HL2e by assumption. replace (ii + 1 - f) with (S (ii - f)) by lia. rewrite (take_S_r _ _ _ Hkz).
      destruct (HL1e z' q' b a Hz' Ha Hb) as [X1 X2]. split.
      + intros k' -> Hk'. apply elem_of_app in Hk' as [Hk'|Hk'].
        * rewrite decide_False; [apply X1; auto|]. intros [-> _].
          assert ((k', z) ∈ l) as Hin' by (rewrite <- (take_drop (ii - f) l); apply elem_of_app; auto). apply Hmem in Hin' as [Hk'r Hk'z]. rewrite B3 in Hk'z. injection Hk'z as Ec.
          assert (k' = k) as ->. { specialize (Hnd u Hu). assert (vpos V u (cl k) = Some k') by (apply vpos_Some; auto). assert (vpos V u (cl k) = Some k) by (apply vpos_Some; auto). congruence. }
          assert (NoDup l.*1) as HNl by (rewrite Hl; apply NoDup_filter, NoDup_range).
          apply elem_of_list_lookup in Hk' as [t Ht]. pose proof (lookup_lt_Some _ _ _ Ht) as Htl. rewrite take_length in Htl. rewrite lookup_take in Ht by lia.
          assert (t = ii - f); [|lia]. apply (NoDup_lookup _ t (ii - f) k HNl); rewrite list_lookup_fmap; [rewrite Ht|rewrite Hkz]; reflexivity.
        * apply elem_of_list_singleton in Hk' as [= -> ->]. rewrite decide_True by auto. reflexivity.
      + intros Hno. rewrite decide_False; [apply X2|].
        * intros [-> [k' Hk']]. apply Hno. split; [reflexivity|]. exists k'. apply elem_of_app. auto.
        * intros [-> ->]. apply Hno. split; [reflexivity|]. exists k. apply elem_of_app. right. left.
    - intros L1 [HL1 HL1e]. split; [exact HL1|]. intros z q' b a Hz Hq'l Ha Hb. destruct (HL1e z q' b a Hz Ha Hb) as [X1 X2]. replace (f + length l - f) with (length l) in X1, X2 by lia. rewrite firstn_all in X1, X2.
      destruct (decide (q' = q)) as [->|Hne].
      + rewrite decide_True by lia. rewrite Eu, vdense_at by assumption. pose proof (list_lookup_lookup_total_lt (E i) z Hz) as Hze. destruct (vpos V u (E i !!! z)) as [k|] eqn:Ev.
        * apply vpos_Some in Ev as [Hk Hc]; [|apply Hnd, Hu]. apply X1; [reflexivity|]. apply Hmem. split; [exact Hk|]. rewrite Hc. exact Hze.
        * rewrite X2; [rewrite HLe by assumption; rewrite decide_False by lia; reflexivity|]. intros [_ [k Hk]]. apply Hmem in Hk as [Hk Hc]. apply (proj1 (vpos_None u _)) in Ev. apply Ev.
          apply elem_of_list_fmap. exists k. split; [congruence|exact Hk].
      + rewrite X2 by tauto. rewrite HLe by assumption. destruct (decide _), (decide _); try reflexivity; lia.
  Qed.

  (** The gathered matrix is the transposed restriction of A; every access is in bounds. *)
  Theorem C51_gather debug i : i < n -> NoDup (E i) -> (debug = true -> forall u, u ∈ unknowns V i -> complete i u) ->
    ok (gather_lhs_matrix debug so bs V sp i) (is_lhs so bs V (E i) i).
  Proof.
    intros Hi HE Hdeb. unfold gather_lhs_matrix. unfold get at 1. rewrite (sp_neqns V E sp Hsp i Hi). cbn [bind]. unfold get at 1. rewrite (sp_nvars V E sp Hsp i Hi). cbn [bind].
    apply ok_for_post with (I := column_inv i); [lia| | |].
    - split; [apply lwf_zero|]. intros. rewrite decide_False by lia. apply lent_zero.
    - intros q L Hq HL. apply gather_column; auto; [lia|]. intros Ed. apply Hdeb; [exact Ed|]. eapply elem_of_list_lookup_2, list_lookup_lookup_total_lt. lia.
    - intros L [HL HLe]. split; [exact HL|]. intros q u z e a b Hq Hz Ha Hb. rewrite HLe by (assumption || (eapply lookup_lt_Some; eassumption)). rewrite decide_True by (eapply lookup_lt_Some, Hq).
      rewrite (list_lookup_total_correct _ _ _ Hq), (list_lookup_total_correct _ _ _ Hz). reflexivity.
  Qed.
  (** With assertions enabled, gathering aborts as soon as some row has no entry in some equation. *)
  Theorem C51_assert_refuted i u : i < n -> NoDup (E i) -> u ∈ unknowns V i -> ~ complete i u -> gather_lhs_matrix true so bs V sp i = Throw "assert".
  Proof.
    intros Hi HE Hu Hc. unfold gather_lhs_matrix. unfold get at 1. rewrite (sp_neqns V E sp Hsp i Hi). cbn [bind]. unfold get at 1. rewrite (sp_nvars V E sp Hsp i Hi). cbn [bind].
    assert (forall e, Decision (e ∈ E i -> e ∈ unknowns V u)) as _ by (intros; apply _).
    assert (forall u, {complete i u} + {~ complete i u}) as Hdec.
    { intros u'. destruct (decide (Forall (fun e => e ∈ unknowns V u') (E i))) as [Hf|Hf]; [left|right]; unfold complete; rewrite <- Forall_forall; exact Hf. }
    assert (exists q, q < length (unknowns V i) /\ ~ complete i (unknowns V i !!! q) /\ forall q', q' < q -> complete i (unknowns V i !!! q')) as (q & Hq & Hcq & Hmin).
    { apply elem_of_list_lookup in Hu as [q0 Hq0]. revert q0 u Hq0 Hc. induction q0 as [q0 IH] using lt_wf_ind. intros u Hq0 Hc.
      destruct (decide (Forall (fun q' => Forall (fun e => e ∈ unknowns V (unknowns V i !!! q')) (E i)) (seq 0 q0))) as [Hf|Hf].
      - exists q0. split; [eapply lookup_lt_Some, Hq0|]. rewrite (list_lookup_total_correct _ _ _ Hq0). split; [exact Hc|]. intros q' Hq'. rewrite Forall_forall in Hf. unfold complete. rewrite <- Forall_forall. apply Hf. apply elem_of_seq. lia.
      - apply not_Forall_Exists in Hf; [|apply _]. apply Exists_exists in Hf as (q' & Hq' & Hn). apply elem_of_seq in Hq'. cbn in Hn. apply (IH q' ltac:(lia) (unknowns V i !!! q')).
        + apply list_lookup_lookup_total_lt. apply lookup_lt_Some in Hq0. lia.
        + intros H. apply Hn. rewrite Forall_forall. exact H. }
    apply (for_throw 0 q _ _ _ (column_inv i)); [lia| | |].
    - split; [apply lwf_zero|]. intros. rewrite decide_False by lia. apply lent_zero.
    - intros q' L Hq' HL. apply gather_column; auto; [lia|]. intros _. apply Hmin. lia.
    - intros L _. assert (q < length (vrange V i)) as Hq' by (unfold unknowns in Hq; rewrite fmap_length in Hq; exact Hq).
      destruct (lookup_lt_is_Some_2 (vrange V i) q Hq') as [j Hj]. destruct (central_unknown i q j Hi Hj) as [Hu' Hqu].
      rewrite (list_lookup_total_correct _ _ _ Hqu) in Hcq.
      destruct (sp_column V E sp Hsp i q j Hi Hj) as (s & f & l & H1 & H2 & H3 & Hl & Hent).
      unfold get at 1. rewrite H1. cbn [bind]. unfold get at 1. rewrite H2. cbn [bind]. unfold get at 1. rewrite H3. cbn [bind]. replace (f + length l - f) with (length l) by lia.
      assert (length l = length (filter (fun k => cl k ∈ E i) (vrange V (cl j)))) as Ell by (rewrite <- Hl, fmap_length; reflexivity).
      destruct (Nat.eqb_spec (length l) (length (E i))) as [e|]; [|reflexivity]. destruct Hcq. apply count_entries; auto. congruence.
  Qed.

  (** ** Right-hand side *)
  Lemma rhs_spec i rows : i < n -> i ∈ E i -> NoDup (E i) -> rows = length (E i) * bs ->
    ok (for_ 0 bs (fun i' rhs =>
      let! z := get (localCentralRow sp) i in
      if (z <? 0)%Z then UB else lset rhs (Z.to_nat z * bs + i') i' s1) (lzero rows bs)) (is_rhs bs (E i) i).
  Proof.
    intros Hi Hin HE ->. destruct (sp_central V E sp Hsp i Hi Hin) as (z & Hz & Ez). pose proof (lookup_lt_Some _ _ _ Ez) as Hzl.
    apply ok_for_post with (I := fun k R => lwf R (length (E i) * bs) bs /\ forall z' b a, z' < length (E i) -> a < bs -> b < bs -> lent R (z' * bs + b) a = if decide (z' = z /\ b = a /\ a < k) then s1 else s0); [lia| | |].
    - split; [apply lwf_zero|]. intros. rewrite decide_False by lia. apply lent_zero.
    - intros k R Hk [HR HRe]. unfold get. rewrite Hz. cbn [bind]. replace (Z.of_nat z <? 0)%Z with false by (symmetry; apply Z.ltb_ge; lia). rewrite Nat2Z.id.
      eapply ok_mono; [apply (lent_set R (length (E i) * bs) bs); [exact HR|nia|lia]|]. intros R' [HR' HRe']. split; [exact HR'|]. intros z' b a Hz' Ha Hb. rewrite HRe' by nia.
      destruct (decide (z' * bs + b = z * bs + k /\ a = k)) as [[e ->]|Hn].
      + apply flat_eq in e as [-> ->]; [|lia..]. rewrite decide_True by lia. reflexivity.
      + rewrite HRe by assumption. destruct (decide _) as [D|D], (decide _) as [D'|D']; try reflexivity; [lia|]. exfalso. destruct D' as (-> & -> & D'). apply Hn. assert (a = k) as -> by lia. auto.
    - intros R [HR HRe]. split; [exact HR|]. intros z' e a b Hz' Ha Hb. rewrite HRe by (assumption || (eapply lookup_lt_Some; eassumption)). destruct (decide _) as [D|D], (decide _) as [D'|D']; try reflexivity.
      + destruct D as (-> & -> & _). exfalso. apply D'. split; [congruence|reflexivity].
      + destruct D' as [-> ->]. exfalso. apply D. split; [eapply NoDup_lookup; eassumption|lia].
  Qed.

  (** ** The approximate inverse *)
  Definition fits (sai : srmat F) : Prop :=
    wf_view sai /\ nbrows sai = n /\ NoDup (visible sai) /\
    (forall i, i < n -> length (vrange sai i) = length (vrange V i)) /\
    (forall i j, i < n -> j ∈ vrange sai i -> j * (bs * bs) + bs * bs <= length (vals sai)).
  (** row [i] of the approximate inverse with values [vs] is the transposed solution [X] *)
  Definition is_row (sai : srmat F) (i : nat) (X : lmat F) (vs : list F) : Prop :=
    forall q j a b, vrange sai i !! q = Some j -> a < bs -> b < bs -> vs !! (j * (bs * bs) + lay so bs a b) = Some (lent X (q * bs + b) a).
  Definition of_row (sai : srmat F) (i p : nat) : Prop := exists j, j ∈ vrange sai i /\ j * (bs * bs) <= p < j * (bs * bs) + bs * bs.

  Lemma scatter_spec (sai : srmat F) i X vs : wf_view sai -> i < nbrows sai -> lwf X (length (vrange sai i) * bs) bs ->
    (forall j, j ∈ vrange sai i -> j * (bs * bs) + bs * bs <= length vs) ->
    ok (scatter_solution so bs X i sai vs) (fun vs' => length vs' = length vs /\ is_row sai i X vs' /\ forall p, ~ of_row sai i p -> vs' !! p = vs !! p).
  Proof.
    intros Hws Hi HX Hb. unfold scatter_solution. rewrite (get_rb sai Hws i Hi). cbn [bind]. set (rb := browptr sai !!! i). set (re := browendptr sai !!! i).
    assert (length (vrange sai i) = re - rb) as Elen by (unfold vrange; apply range_length).
    apply (ok_for_row sai Hws) with (I := fun jj vs' => length vs' = length vs /\
      (forall j a b, rb <= j < jj -> a < bs -> b < bs -> vs' !! (j * (bs * bs) + lay so bs a b) = Some (lent X ((j - rb) * bs + b) a)) /\
      forall p, (forall j, rb <= j < jj -> ~ (j * (bs * bs) <= p < j * (bs * bs) + bs * bs)) -> vs' !! p = vs !! p); [exact Hi| | |].
    - split; [reflexivity|]. split; [intros; lia|reflexivity].
    - fold re rb. intros jj v1 Hj (L1 & W1 & U1). assert (jj * (bs * bs) + bs * bs <= length vs) as Hbj by (apply Hb, elem_of_range; exact Hj).
      apply ok_for_post with (I := fun i' vs' => length vs' = length vs /\
        (forall j a b, rb <= j < jj \/ j = jj /\ a < i' -> a < bs -> b < bs -> vs' !! (j * (bs * bs) + lay so bs a b) = Some (lent X ((j - rb) * bs + b) a)) /\
        forall p, (forall j, rb <= j < jj + 1 -> ~ (j * (bs * bs) <= p < j * (bs * bs) + bs * bs)) -> vs' !! p = vs !! p); [lia| | |].
      + split; [exact L1|]. split; [intros j a b [H|H] Ha Hb'; [auto|lia]|]. intros p Hp. apply U1. intros j H. apply Hp. lia.
      + intros i' v2 Hi' (L2 & W2 & U2).
        apply ok_for_post with (I := fun j' vs' => length vs' = length vs /\
          (forall j a b, rb <= j < jj \/ j = jj /\ (a < i' \/ a = i' /\ b < j') -> a < bs -> b < bs -> vs' !! (j * (bs * bs) + lay so bs a b) = Some (lent X ((j - rb) * bs + b) a)) /\
          forall p, (forall j, rb <= j < jj + 1 -> ~ (j * (bs * bs) <= p < j * (bs * bs) + bs * bs)) -> vs' !! p = vs !! p); [lia| | |].
        * split; [exact L2|]. split; [|exact U2]. intros j a b H Ha Hb'. apply W2; [lia|assumption|assumption].
        * intros j' v3 Hj' (L3 & W3 & U3). rewrite (lget_lent X _ _ _ _ HX) by nia. cbn [bind]. pose proof (lay_lt so bs i' j' ltac:(lia) ltac:(lia)) as Hlay. rewrite set_Ok by lia. cbn [ok]. rewrite insert_length. split; [exact L3|]. split.
          -- intros j a b H Ha Hb'. pose proof (lay_lt so bs a b Ha Hb') as Hlay'. destruct (decide (j = jj /\ a = i' /\ b = j')) as [(-> & -> & ->)|Hn].
             ++ rewrite list_lookup_insert by lia. reflexivity.
             ++ rewrite list_lookup_insert_ne; [apply W3; [lia|assumption|assumption]|]. intros e. apply flat_eq in e as [-> e]; [|assumption..]. apply lay_inj in e; [|lia..]. lia.
          -- intros p Hp. rewrite list_lookup_insert_ne; [apply U3, Hp|]. intros <-. apply (Hp jj ltac:(lia)). lia.
        * intros v3 (L3 & W3 & U3). split; [exact L3|]. split; [|exact U3]. intros j a b H Ha Hb'. apply W3; [lia|assumption|assumption].
      + intros v2 (L2 & W2 & U2). split; [exact L2|]. split; [|exact U2]. intros j a b H Ha Hb'. apply W2; [lia|assumption|assumption].
    - fold re. intros v1 (L1 & W1 & U1). split; [exact L1|]. split.
      + intros q j a b Hq Ha Hb'. pose proof (lookup_lt_Some _ _ _ Hq) as Hql. unfold vrange in Hq. fold rb re in Hq. rewrite range_lookup in Hq by lia. injection Hq as <-. rewrite W1 by lia. do 3 f_equal. lia.
      + intros p Hp. apply U1. intros j H H'. apply Hp. exists j. split; [apply elem_of_range; exact H|exact H'].
  Qed.

  Lemma sai_row_spec (solve : bool -> lmat F -> lmat F -> lmat F) full (sai : srmat F) i vs : right_size (solve full) -> fits sai -> i < n -> i ∈ E i -> NoDup (E i) -> length vs = length (vals sai) ->
    ok (sai_row solve false so bs V sp full sai i vs) (fun vs' => length vs' = length vs /\
      (exists L R, is_lhs so bs V (E i) i L /\ is_rhs bs (E i) i R /\ is_row sai i (solve full L R) vs') /\ forall p, ~ of_row sai i p -> vs' !! p = vs !! p).
  Proof.
    intros Hsolve (Hws & Hn & _ & Hlen & Hv) Hi Hin HE Hl. unfold sai_row. eapply ok_bind; [apply C51_gather; [exact Hi|exact HE|discriminate]|]. intros L HL.
    eapply ok_bind; [apply rhs_spec; [exact Hi|exact Hin|exact HE|apply HL]|]. intros R HR.
    eapply ok_mono; [apply scatter_spec; [exact Hws|lia| |]|].
    - rewrite Hlen by exact Hi. pose proof (Hsolve L R _ _ _ (proj1 HL) (proj1 HR)) as H. unfold unknowns in H. rewrite fmap_length in H. exact H.
    - intros j Hj. rewrite Hl. apply (Hv i j Hi Hj).
    - intros vs' (H1 & H2 & H3). split; [exact H1|]. split; [|exact H3]. exists L, R. auto.
  Qed.
  Lemma visible_inj (sai : srmat F) i i' j : NoDup (visible sai) -> i < nbrows sai -> i' < nbrows sai -> j ∈ vrange sai i -> j ∈ vrange sai i' -> i = i'.
  Proof.
    intros Hd Hi Hi' Hj Hj'. destruct (decide (i = i')) as [|Hne]; [assumption|exfalso].
    assert (forall i i', i < i' < nbrows sai -> j ∈ vrange sai i -> j ∈ vrange sai i' -> False) as H.
    { clear - Hd. intros i i' Hii H1 H2. unfold visible in Hd. replace (nbrows sai) with ((i + 1) + (nbrows sai - (i + 1))) in Hd by lia. rewrite seq_app, bind_app in Hd. apply NoDup_app in Hd as (_ & Hd & _).
      apply (Hd j); apply elem_of_list_bind; [exists i|exists i']; (split; [assumption|apply elem_of_seq; lia]). }
    destruct (Nat.lt_gt_cases i i') as [[Hlt|Hlt] _]; [exact Hne| |]; eapply H; eauto.
  Qed.

  (** Whatever the solver and the schedule: each row of the result is the transposed solution of its small system; nothing else changes. *)
  Theorem C51_compute (solve : bool -> lmat F -> lmat F -> lmat F) full (sai : srmat F) : right_size (solve full) -> fits sai ->
    (forall i, i < n -> i ∈ E i /\ NoDup (E i)) ->
    nok (compute_SAI solve false so bs V sp full sai) (fun vs => length vs = length (vals sai) /\
      (forall i, i < n -> exists L R, is_lhs so bs V (E i) i L /\ is_rhs bs (E i) i R /\ is_row sai i (solve full L R) vs) /\
      (forall p, (forall i, i < n -> ~ of_row sai i p) -> vs !! p = vals sai !! p)).
  Proof.
    intros Hsolve Hf HE. pose proof Hf as (Hws & Hn & Hvis & Hlen & Hv). unfold compute_SAI.
    apply nok_par_for with (I := fun dn vs => length vs = length (vals sai) /\
      (forall i, i ∈ dn -> exists L R, is_lhs so bs V (E i) i L /\ is_rhs bs (E i) i R /\ is_row sai i (solve full L R) vs) /\
      (forall p, (forall i, i ∈ dn -> ~ of_row sai i p) -> vs !! p = vals sai !! p)).
    - split; [reflexivity|]. split; [|reflexivity]. intros i Hi. apply elem_of_nil in Hi as [].
    - intros dn i vs Hdn Hi Hni (L1 & R1 & U1). destruct (HE i ltac:(lia)) as [Hin HEi].
      eapply ok_mono; [apply sai_row_spec; [exact Hsolve|exact Hf|lia|exact Hin|exact HEi|exact L1]|]. intros vs' (L2 & Hrow & U2). split; [congruence|]. split.
      + intros i' Hi'. apply elem_of_app in Hi' as [Hi'|Hi']; [|apply elem_of_list_singleton in Hi' as ->; exact Hrow]. destruct (R1 i' Hi') as (L & R & H1 & H2 & H3). exists L, R. split; [exact H1|]. split; [exact H2|].
        intros q j a b Hq Ha Hb. rewrite U2; [apply H3; assumption|]. intros (j' & Hj' & Hp). pose proof (lay_lt so bs a b Ha Hb). assert (j = j') as <- by nia. pose proof (Hdn i' Hi').
        apply Hni. replace i with i'; [exact Hi'|]. apply (visible_inj sai i' i j Hvis); [lia|lia|eapply elem_of_list_lookup_2, Hq|exact Hj'].
      + intros p Hp. rewrite U2 by (apply Hp, elem_of_app; right; left). apply U1. intros i' Hi'. apply Hp, elem_of_app. auto.
    - intros l vs Hl (L1 & R1 & U1). split; [exact L1|]. split.
      + intros i Hi. apply R1. rewrite Hl. apply elem_of_range. lia.
      + intros p Hp. apply U1. intros i Hi. rewrite Hl in Hi. apply elem_of_range in Hi. apply Hp. lia.
  Qed.
End Values.
