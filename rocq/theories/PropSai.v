(** * PropSai: C51, C64 *)
From Coq Require Import ZArith Sorting.Sorted.
From Verif Require Import Base Alg SRMatrix Nd PropTriView Sai SaiSpec SaiFacts.
Local Open Scope nat_scope.

Lemma filter_all {B} (P : B -> Prop) `{forall x, Decision (P x)} (l : list B) : (forall x, x ∈ l -> P x) -> filter P l = l.
Proof.
  induction l as [|a l IH]; intros Hl; [reflexivity|]. rewrite filter_cons_True by (apply Hl; left). f_equal. apply IH. intros x Hx. apply Hl. right. exact Hx.
Qed.
Lemma filter_unique {B} (f : B -> nat) (l : list B) x : NoDup (f <$> l) ->
  (exists a, a ∈ l /\ f a = x /\ filter (fun b => f b = x) l = [a]) \/ (x ∉ f <$> l /\ filter (fun b => f b = x) l = []).
Proof.
  induction l as [|a l IH]; intros Hd; [right; split; [apply not_elem_of_nil|reflexivity]|]. rewrite fmap_cons in Hd. apply NoDup_cons in Hd as [Ha Hd].
  destruct (IH Hd) as [(b & Hb & <- & Hf)|[Hx Hf]].
  - left. exists b. split; [right; exact Hb|]. split; [reflexivity|]. rewrite filter_cons_False; [exact Hf|]. intros e. apply Ha. rewrite e. apply elem_of_list_fmap. eauto.
  - destruct (decide (f a = x)) as [<-|Hn].
    + left. exists a. split; [left|]. split; [reflexivity|]. rewrite filter_cons_True by reflexivity. rewrite Hf. reflexivity.
    + right. split; [rewrite fmap_cons; apply not_elem_of_cons; auto|]. rewrite filter_cons_False by exact Hn. exact Hf.
Qed.

Section Pattern.
  Context {A : Type} (V : srmat A).
  Notation n := (nbrows V).
  Notation rb i := (browptr V !!! i).
  Notation re i := (browendptr V !!! i).
  Notation cl j := (bcolind V !!! j).
  Hypothesis Hw : wf_view V.
  Lemma done_describes E ent sp : done V E ent sp ->
    (forall i j, i < n -> j ∈ vrange V i -> exists l : list (nat * nat), ent (i, j) = (fun p => (p.1, Z.of_nat p.2)) <$> l /\
       l.*1 = filter (fun k => cl k ∈ E i) (vrange V (cl j)) /\ forall k z, (k, z) ∈ l -> E i !! z = Some (cl k)) ->
    describes V E sp.
  Proof.
    intros [Dnv Dne Dsrp Dbcp Dbp Dbri Dlcr] Hent. constructor.
    - intros i Hi. rewrite (proj2 Dnv i Hi). unfold unknowns. rewrite fmap_length. unfold vrange. rewrite range_length. reflexivity.
    - intros i Hi. apply Dne, Hi.
    - intros i Hi Hin. destruct (proj2 Dlcr i Hi) as [(z & H1 & H2)|[H1 _]]; [eauto|contradiction].
    - intros i q j Hi Hq. pose proof (lookup_lt_Some _ _ _ Hq) as Hql. unfold vrange in Hq, Hql. rewrite range_length in Hql. rewrite range_lookup in Hq by exact Hql. injection Hq as <-.
      assert (rb i <= rb i + q < re i) as Hj by lia. destruct (Hent i (rb i + q) Hi) as (l & El & Hf & Hz); [apply elem_of_range; exact Hj|].
      destruct (pre_prefix V i (rb i + q) Hi Hj) as [post Ec].
      assert (length (colsupto V i) + q = length (pre V i (rb i + q))) as Es by (rewrite pre_length; lia).
      exists (length (colsupto V i)), (length (ents ent (pre V i (rb i + q)))), l.
      split; [apply (proj2 Dsrp); lia|]. rewrite Es. split; [|split; [|split]].
      + rewrite (proj2 Dbcp), Ec, take_app by (rewrite Ec, app_length; lia). reflexivity.
      + rewrite (proj2 Dbcp) by (rewrite Ec, app_length; cbn; lia). f_equal. rewrite Ec. replace (pre V i (rb i + q) ++ (i, rb i + q) :: post) with ((pre V i (rb i + q) ++ [(i, rb i + q)]) ++ post) by (rewrite <- app_assoc; reflexivity).
        rewrite take_app_alt by (rewrite app_length; reflexivity). rewrite ents_snoc, app_length, El, fmap_length. reflexivity.
      + exact Hf.
      + intros t k z Ht. assert (ents ent (cols V) = ents ent (pre V i (rb i + q)) ++ ent (i, rb i + q) ++ ents ent post) as Ex by (rewrite Ec; unfold ents; rewrite bind_app; reflexivity).
        assert (ents ent (cols V) !! (length (ents ent (pre V i (rb i + q))) + t) = Some (k, Z.of_nat z)) as Hl.
        { rewrite Ex, lookup_app_r by lia. replace (length _ + t - length _) with t by lia. apply lookup_app_l_Some. rewrite El, list_lookup_fmap, Ht. reflexivity. }
        rewrite Dbp, Dbri, !list_lookup_fmap, Hl. split; [reflexivity|]. split; [reflexivity|]. apply Hz. eapply elem_of_list_lookup_2, Ht.
    - split; [rewrite (proj2 Dsrp) by lia; reflexivity|]. rewrite (proj2 Dbcp) by lia. reflexivity.
    - intros i s Hi Hs. rewrite (proj2 Dsrp) in Hs |- * by lia. injection Hs as <-. f_equal. rewrite colsupto_S, app_length. unfold unknowns. rewrite !fmap_length. reflexivity.
    - exists (length (cols V)). split; [apply (proj2 Dsrp); lia|]. split; [apply Dbcp|]. rewrite Dbp, Dbri, !fmap_length. split; [|reflexivity].
      rewrite (proj2 Dbcp) by lia. rewrite firstn_all. reflexivity.
  Qed.

  (** The full pattern: the equations of row i are the columns of the rows of its unknowns, in increasing order. *)
  Theorem C51_full : ok (left_SAI_pattern V) (fun sp => exists E, (forall i, i < n -> full_equations V i (E i)) /\ describes V E sp).
  Proof.
    eapply ok_mono; [apply full_done, Hw|]. intros sp D. exists (cs V). split.
    { intros i _. split; [apply cs_sorted|]. apply cs_elem. }
    apply (done_describes _ _ _ D). intros i j Hi Hj.
    assert (forall k, k ∈ vrange V (cl j) -> cl k ∈ cs V i) as Hin.
    { intros k Hk. apply cs_elem. exists (cl j). split; apply elem_of_list_fmap; eauto. }
    exists ((fun kk => (kk, Z.to_nat (idx (cs V i) (cl kk)))) <$> vrange V (cl j)).
    assert (forall k, k ∈ vrange V (cl j) -> exists z, idx (cs V i) (cl k) = Z.of_nat z /\ cs V i !! z = Some (cl k)) as Hz.
    { intros k Hk. specialize (Hin k Hk). unfold idx. destruct (list_find _ _) as [[z y]|] eqn:Ef.
      - apply list_find_Some in Ef as (H1 & -> & _). eauto.
      - rewrite list_find_None, Forall_forall in Ef. destruct (Ef _ Hin eq_refl). }
    split; [|split].
    - unfold ent_full. cbn [fst snd]. rewrite <- list_fmap_compose. apply list_fmap_ext. intros ? k Hk. apply elem_of_list_lookup_2 in Hk. cbn. destruct (Hz k Hk) as (z & -> & _). rewrite Nat2Z.id. reflexivity.
    - rewrite <- list_fmap_compose. cbn. rewrite list_fmap_id. symmetry. apply filter_all, Hin.
    - intros k z H. apply elem_of_list_fmap in H as (k' & [= -> ->] & H). destruct (Hz k' H) as (z & E1 & E2). rewrite E1, Nat2Z.id. exact E2.
  Qed.
  (** The incomplete pattern: the equations are the unknowns. *)
  Theorem C51_incomplete : nodup_rows V -> ok (left_incomplete_SAI_pattern V) (describes V (unknowns V)).
  Proof.
    intros Hnd. eapply ok_mono; [apply incomplete_done, Hw|]. intros sp D. apply (done_describes _ _ _ D). intros i j Hi Hj.
    exists (vrange V (cl j) ≫= (fun kk => (fun ll => (kk, ll - rb i)) <$> filter (fun ll => cl ll = cl kk) (vrange V i))). split; [|split].
    - unfold ent_inc. cbn [fst snd]. generalize (vrange V (cl j)) as l. induction l as [|k l IH]; [reflexivity|]. rewrite !bind_cons, fmap_app, <- IH. f_equal. unfold hits. rewrite <- list_fmap_compose. reflexivity.
    - generalize (vrange V (cl j)) as l. induction l as [|k l IH]; [reflexivity|]. rewrite !bind_cons, fmap_app, IH.
      destruct (filter_unique (fun ll => cl ll) (vrange V i) (cl k) (Hnd i Hi)) as [(a & Ha & Ea & ->)|[Hn ->]].
      + rewrite filter_cons_True by (rewrite <- Ea; apply elem_of_list_fmap; eauto). reflexivity.
      + rewrite filter_cons_False by exact Hn. reflexivity.
    - intros k z H. apply elem_of_list_bind in H as (k' & H & Hk). apply elem_of_list_fmap in H as (ll & [= -> ->] & H). apply elem_of_list_filter in H as [H1 H2]. apply elem_of_range in H2.
      unfold unknowns, vrange. rewrite list_lookup_fmap, range_lookup by lia. cbn. f_equal. replace (rb i + (ll - rb i)) with ll by lia. exact H1.
  Qed.
End Pattern.
