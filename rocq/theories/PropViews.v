(** * PropViews: C01, C02 *)
From Verif Require Import Base SRMatrix ArrayView ViewSpec.

Global Instance holder_eq_dec : EqDecision holder.
Proof. solve_decision. Defined.

Section Views.
  Context {T : Type}.
  Implicit Types (h : heap T) (m : mem T).
  (** blocks owned by a view *)
  Definition own1 (x : option view) : list nat :=
    match x with
    | Some x => if owner x then match data x with Some (b, _) => [b] | None => [] end else []
    | None => []
    end.
  Definition owners (vs : list (option view)) : list nat := vs ≫= own1.
  Definition zero_off (x : option view) : Prop :=
    match x with Some x => owner x = true -> forall b o, data x = Some (b, o) -> o = 0 | None => True end.

  Lemma owners_app vs ws : owners (vs ++ ws) = owners vs ++ owners ws.
  Proof. unfold owners. apply bind_app. Qed.
  Lemma owners_split vs i x : vs !! i = Some x ->
    exists rest, owners vs ≡ₚ own1 x ++ rest /\ forall y, owners (<[i := y]> vs) ≡ₚ own1 y ++ rest.
  Proof.
    intros Hi. exists (owners (take i vs) ++ owners (drop (S i) vs)). split.
    - rewrite <- (take_drop_middle vs i x Hi) at 1. rewrite owners_app. change (owners (x :: drop (S i) vs)) with (own1 x ++ owners (drop (S i) vs)).
      rewrite !(assoc_L (++)). apply Permutation_app_tail. apply Permutation_app_comm.
    - intros y. assert (i < length vs) by (apply lookup_lt_is_Some; eauto).
      rewrite <- (take_drop_middle (<[i := y]> vs) i y) at 1 by (apply list_lookup_insert; assumption).
      rewrite take_insert by lia. rewrite drop_insert_gt by lia.
      rewrite owners_app. change (owners (y :: drop (S i) vs)) with (own1 y ++ owners (drop (S i) vs)).
      rewrite !(assoc_L (++)). apply Permutation_app_tail. apply Permutation_app_comm.
  Qed.
  Lemma owners_elem vs b : b ∈ owners vs <-> exists i x, vs !! i = Some (Some x) /\ owner x = true /\ exists o, data x = Some (b, o).
  Proof.
    unfold owners. rewrite elem_of_list_bind. split.
    - intros (y & Hb & Hy). apply elem_of_list_lookup in Hy as [i Hi]. destruct y as [x|]; simpl in Hb; [|apply elem_of_nil in Hb as []].
      destruct (owner x) eqn:E; [|apply elem_of_nil in Hb as []]. destruct (data x) as [[b' o]|] eqn:E2; [|apply elem_of_nil in Hb as []].
      apply elem_of_list_singleton in Hb as ->. exists i, x. eauto.
    - intros (i & x & Hi & Ho & o & Hd). exists (Some x). split; [|eapply elem_of_list_lookup_2; eauto]. simpl. rewrite Ho, Hd. left.
  Qed.
  Lemma owners_unique vs i j b : NoDup (owners vs) -> (exists x, vs !! i = Some x /\ b ∈ own1 x) -> (exists x, vs !! j = Some x /\ b ∈ own1 x) -> i = j.
  Proof.
    intros Hn (x & Hi & Hx) (y & Hj & Hy). destruct (decide (i = j)) as [|Hne]; [assumption|exfalso].
    destruct (owners_split vs i x Hi) as (rest & H1 & _). rewrite H1 in Hn. apply NoDup_app in Hn as (_ & Hn & _). apply (Hn b Hx).
    destruct (owners_split (<[i := None]> vs) j y) as (rest' & H3 & _); [rewrite list_lookup_insert_ne; assumption|].
    destruct (owners_split vs i x Hi) as (rest2 & H4 & H5). 
    specialize (H5 None). simpl in H5. rewrite H4 in H1. apply Permutation_app_inv_l in H1. rewrite <- H1, <- H5, H3. apply elem_of_app. left. exact Hy.
  Qed.

  (** ** Invariant: [os]: the blocks owned by views *)
  Record inv (os : list nat) h (w : list holder) : Prop := {
    i_len : length h = length w;
    i_nodup : NoDup os;
    i_own : forall b, b ∈ os -> w !! b = Some Views /\ live h b;
    i_back : forall b, w !! b = Some Views -> live h b -> b ∈ os;
    i_client : forall b, w !! b = Some Client -> live h b
  }.
  Lemma inv_perm os os' h w : os ≡ₚ os' -> inv os h w -> inv os' h w.
  Proof.
    intros Hp [H1 H2 H3 H4 H5]. split; auto.
    - rewrite <- Hp. exact H2.
    - intros b Hb. apply H3. rewrite Hp. exact Hb.
    - intros b Hb Hl. rewrite <- Hp. auto.
  Qed.
  Lemma inv_free b os h w : inv (b :: os) h w -> exists h', hfree h (Some (b, 0)) = Ok h' /\ inv os h' w.
  Proof.
    intros [H1 H2 H3 H4 H5]. destruct (H3 b) as (Hw & l & Hl); [left|]. simpl. rewrite Hl. eexists. split; [reflexivity|].
    apply NoDup_cons in H2 as [Hnb H2]. assert (b < length h) by (apply lookup_lt_is_Some; eauto). split.
    - rewrite insert_length. exact H1.
    - exact H2.
    - intros b' Hb'. destruct (H3 b') as (Hw' & l' & Hl'); [right; exact Hb'|]. split; [exact Hw'|]. exists l'. rewrite list_lookup_insert_ne; [exact Hl'|]. intros ->. contradiction.
    - intros b' Hw' (l' & Hl'). destruct (decide (b = b')) as [->|Hne]; [rewrite list_lookup_insert in Hl' by lia; discriminate|].
      rewrite list_lookup_insert_ne in Hl' by exact Hne. specialize (H4 b' Hw' (ex_intro _ _ Hl')). apply elem_of_cons in H4 as [->|H4]; [contradiction|exact H4].
    - intros b' Hw'. destruct (decide (b = b')) as [->|Hne]; [congruence|]. destruct (H5 b' Hw') as (l' & Hl'). exists l'. rewrite list_lookup_insert_ne by exact Hne. exact Hl'.
  Qed.
  Lemma live_snoc h x b : live (h ++ [x]) b <-> live h b \/ b = length h /\ exists l, x = Some l.
  Proof.
    unfold live. split.
    - intros (l & Hl). apply lookup_app_Some in Hl as [Hl|[Hl Hb]]; [left; eauto|]. right. apply list_lookup_singleton_Some in Hb as [Hb ->]. split; [lia|eauto].
    - intros [(l & Hl)|(-> & l & ->)]; exists l; [apply lookup_app_l_Some; exact Hl|]. apply list_lookup_middle. reflexivity.
  Qed.
  Lemma snoc_lookup_lt {A} (l : list A) x b : b < length l -> (l ++ [x]) !! b = l !! b.
  Proof. intros. apply lookup_app_l. assumption. Qed.
  Lemma inv_alloc os h w l o : inv os h w -> inv (if decide (o = Views) then length h :: os else os) (h ++ [Some l]) (w ++ [o]) \/ o = Gone.
  Proof.
    intros [H1 H2 H3 H4 H5]. destruct (decide (o = Gone)) as [->|Hg]; [right; reflexivity|left].
    assert (forall b, b ∈ os -> b < length w) as Hlt by (intros b Hb; apply lookup_lt_is_Some; destruct (H3 b Hb); eauto).
    split.
    - rewrite !app_length, H1. reflexivity.
    - destruct (decide (o = Views)); [|exact H2]. constructor; [|exact H2]. intros Hb. specialize (Hlt _ Hb). lia.
    - intros b Hb. rewrite live_snoc.
      assert (b ∈ os \/ b = length h /\ o = Views) as [Hb'|[-> ->]].
      { destruct (decide (o = Views)); [apply elem_of_cons in Hb as [->|]; auto|auto]. }
      + destruct (H3 b Hb') as [Hw Hl]. rewrite snoc_lookup_lt by (apply Hlt; exact Hb'). auto.
      + rewrite H1. rewrite list_lookup_middle by reflexivity. split; [reflexivity|right; eauto].
    - intros b Hw Hl. apply live_snoc in Hl as [Hl|[-> _]].
      + assert (b < length h) by (destruct Hl as [? Hl]; apply lookup_lt_is_Some; eauto). rewrite snoc_lookup_lt in Hw by lia.
        destruct (decide (o = Views)); [right|]; auto.
      + rewrite H1, list_lookup_middle in Hw by reflexivity. injection Hw as ->. rewrite decide_True by reflexivity. left.
    - intros b Hw. apply live_snoc. apply lookup_app_Some in Hw as [Hw|[Hw Hb]]; [left; auto|].
      apply list_lookup_singleton_Some in Hb as [Hb _]. right. split; [lia|eauto].
  Qed.
  Lemma inv_take os h w b : inv os h w -> w !! b = Some Client -> inv (b :: os) h (<[b := Views]> w).
  Proof.
    intros [H1 H2 H3 H4 H5] Hw. assert (b < length w) by (apply lookup_lt_is_Some; eauto). split.
    - rewrite insert_length. exact H1.
    - constructor; [|exact H2]. intros Hb. destruct (H3 b Hb). congruence.
    - intros b' Hb'. destruct (decide (b = b')) as [->|Hne].
      + rewrite list_lookup_insert by lia. auto.
      + rewrite list_lookup_insert_ne by exact Hne. apply H3. apply elem_of_cons in Hb' as [->|]; [contradiction|assumption].
    - intros b' Hw' Hl. destruct (decide (b = b')) as [->|Hne]; [left|]. rewrite list_lookup_insert_ne in Hw' by exact Hne. right. auto.
    - intros b' Hw'. destruct (decide (b = b')) as [->|Hne]; [rewrite list_lookup_insert in Hw' by lia; discriminate|].
      rewrite list_lookup_insert_ne in Hw' by exact Hne. auto.
  Qed.
  Lemma inv_client_free os h w b : inv os h w -> w !! b = Some Client ->
    exists h', hfree h (Some (b, 0)) = Ok h' /\ inv os h' (<[b := Gone]> w).
  Proof.
    intros [H1 H2 H3 H4 H5] Hw. destruct (H5 b Hw) as (l & Hl). simpl. rewrite Hl. eexists. split; [reflexivity|].
    assert (b < length w) by (apply lookup_lt_is_Some; eauto). assert (forall b', b' ∈ os -> b <> b') as Hne by (intros b' Hb' ->; destruct (H3 b' Hb'); congruence). split.
    - rewrite !insert_length. exact H1.
    - exact H2.
    - intros b' Hb'. destruct (H3 b' Hb') as (Hw' & l' & Hl'). split; [rewrite list_lookup_insert_ne by auto; exact Hw'|]. exists l'. rewrite list_lookup_insert_ne by auto. exact Hl'.
    - intros b' Hw' Hl'. destruct (decide (b = b')) as [->|Hn]; [rewrite list_lookup_insert in Hw' by lia; discriminate|].
      destruct Hl' as [l' Hl']. rewrite list_lookup_insert_ne in Hw' by exact Hn. rewrite list_lookup_insert_ne in Hl' by exact Hn. apply H4; [exact Hw'|]. exists l'. exact Hl'.
    - intros b' Hw'. destruct (decide (b = b')) as [->|Hn]; [rewrite list_lookup_insert in Hw' by lia; discriminate|].
      rewrite list_lookup_insert_ne in Hw' by exact Hn. destruct (H5 b' Hw') as [l' Hl']. exists l'. rewrite list_lookup_insert_ne by exact Hn. exact Hl'.
  Qed.

  (** ** The whole state *)
  Record good m (s : ledger) : Prop := {
    g_inv : inv (owners (views m)) (hp m) (who s);
    g_alive : forall v, alive s !! v = Some true <-> exists x, views m !! v = Some (Some x);
    g_len : length (views m) = length (alive s);
    g_off : Forall zero_off (views m)
  }.
  (** freeing what a view owns *)
  Lemma inv_drop os h w x : inv (own1 (Some x) ++ os) h w -> zero_off (Some x) ->
    exists h', (if owner x then hfree h (data x) else Ok h) = Ok h' /\ inv os h' w.
  Proof.
    intros H Hz. simpl in *. destruct (owner x); [|eauto]. destruct (data x) as [[b o]|]; [|simpl; eauto].
    rewrite (Hz eq_refl b o eq_refl) in *. apply inv_free. exact H.
  Qed.
  (** results of the operations on views *)
  Lemma alive_snoc vs (a : list bool) y : length vs = length a ->
    (forall v, a !! v = Some true <-> exists x : view, vs !! v = Some (Some x)) ->
    forall v, (a ++ [true]) !! v = Some true <-> exists x, (vs ++ [Some y]) !! v = Some (Some x).
  Proof.
    intros Hl H v. destruct (decide (v < length a)).
    - rewrite !snoc_lookup_lt by lia. apply H.
    - destruct (decide (v = length a)) as [->|].
      + rewrite list_lookup_middle by reflexivity. rewrite <- Hl, list_lookup_middle by reflexivity. split; eauto.
      + rewrite !lookup_ge_None_2 by (rewrite app_length; simpl; lia). split; [discriminate|intros (? & ?); discriminate].
  Qed.
  Lemma alive_insert vs (a : list bool) i y z b : vs !! i = Some z -> length vs = length a ->
    (b = true <-> exists x : view, y = Some x) ->
    (forall v, a !! v = Some true <-> exists x : view, vs !! v = Some (Some x)) ->
    forall v, (<[i := b]> a) !! v = Some true <-> exists x, (<[i := y]> vs) !! v = Some (Some x).
  Proof.
    intros Hi Hl Hb H v. assert (i < length vs) by (apply lookup_lt_is_Some; eauto). destruct (decide (i = v)) as [->|Hne].
    - rewrite !list_lookup_insert by lia. split.
      + intros E. injection E as ->. destruct (proj1 Hb eq_refl) as [x ->]. eauto.
      + intros (x & E). injection E as ->. f_equal. apply Hb. eauto.
    - rewrite !list_lookup_insert_ne by exact Hne. apply H.
  Qed.
  Lemma alive_same vs (a : list bool) i y z : vs !! i = Some (Some z) -> length vs = length a ->
    (forall v, a !! v = Some true <-> exists x : view, vs !! v = Some (Some x)) ->
    forall v, a !! v = Some true <-> exists x, (<[i := Some y]> vs) !! v = Some (Some x).
  Proof.
    intros Hi Hl H v. assert (i < length vs) by (apply lookup_lt_is_Some; eauto). destruct (decide (i = v)) as [->|Hne].
    - rewrite list_lookup_insert by lia. rewrite H. split; eauto.
    - rewrite list_lookup_insert_ne by exact Hne. apply H.
  Qed.
  Lemma push_good h vs w a x : inv (own1 (Some x) ++ owners vs) h w -> zero_off (Some x) ->
    (forall v, a !! v = Some true <-> exists x : view, vs !! v = Some (Some x)) -> length vs = length a -> Forall zero_off vs ->
    good (Mem h (vs ++ [Some x])) (Ledger w (a ++ [true])).
  Proof.
    intros Hi Hz Ha Hl Hf. split; simpl.
    - rewrite owners_app. eapply inv_perm; [|exact Hi]. rewrite Permutation_app_comm. apply Permutation_app_head. unfold owners. cbn. rewrite app_nil_r. reflexivity.
    - apply alive_snoc; assumption.
    - rewrite !app_length, Hl. reflexivity.
    - apply Forall_app. split; [exact Hf|]. constructor; [exact Hz|constructor].
  Qed.

  Lemma step_good m s o : good m s -> legal s o -> exists m', vstep m o = Ok m' /\ good m' (after s o).
  Proof.
    intros [Hi Ha Hl Hf] Ho. destruct m as [h vs], s as [w a]. simpl in *.
    assert (forall v, a !! v = Some true -> exists x, vs !! v = Some (Some x) /\ getv (Mem h vs) v = Ok x /\ zero_off (Some x)) as Hget.
    { intros v Hv. apply Ha in Hv as [x Hx]. exists x. split; [exact Hx|]. split; [unfold getv; simpl; rewrite Hx; reflexivity|].
      apply (proj1 (Forall_lookup _ _) Hf v). exact Hx. }
    assert (forall v x, vs !! v = Some (Some x) -> inv (own1 (Some x) ++ owners (<[v := Some view_null]> vs)) h w) as Hsplit.
    { intros v x Hx. destruct (owners_split vs v (Some x) Hx) as (rest & H1 & H2). eapply inv_perm; [|exact Hi]. rewrite H1, H2. reflexivity. }
    assert (forall p, may_hand w p -> forall os h', inv os h' w -> length h' = length w -> inv (own1 (Some (View p 0 true)) ++ os) h' (hand w p)) as Hhand.
    { intros [[b o']|] Hp os h' Hos _; simpl in *; [|exact Hos]. destruct Hp as [_ Hp]. apply inv_take; assumption. }
    assert (forall os h' w', inv os h' w' -> forall (g : option (nat -> T)) n, let '(p, h'') := halloc h' g n in
      inv (own1 (Some (View p n true)) ++ os) h'' (alloced w' g) /\ zero_off (Some (View p n true))) as Halloc.
    { intros os h' w' Hos [g|] n; simpl.
      - split; [|intros _ b o' E; congruence]. destruct (inv_alloc os h' w' (g <$> seq 0 n) Views Hos) as [H|H]; [|discriminate]. exact H.
      - split; [exact Hos|]. intros _ b o' E. discriminate. }
    assert (forall v x y h' w', vs !! v = Some (Some x) -> zero_off (Some y) ->
      inv (own1 (Some y) ++ owners (<[v := Some view_null]> vs)) h' w' -> good (Mem h' (<[v := Some y]> vs)) (Ledger w' a)) as Hupd.
    { intros v x y h' w' Hx Hy H. split; simpl.
      - destruct (owners_split vs v (Some x) Hx) as (rest & H1 & H2). eapply inv_perm; [|exact H]. rewrite !H2. reflexivity.
      - apply alive_same with (z := x); assumption.
      - rewrite insert_length. exact Hl.
      - apply Forall_insert; assumption. }
    destruct o; simpl in *.
    - (* Null *) eexists. split; [reflexivity|]. apply push_good; auto. discriminate.
    - (* Alloc *) specialize (Halloc _ _ _ Hi g n). unfold view_alloc. destruct (halloc h g n) as [p h'']. destruct Halloc. eexists. split; [reflexivity|]. apply push_good; auto.
    - (* Wrap *) eexists. split; [reflexivity|]. apply push_good; auto. discriminate.
    - (* WrapOwn *) eexists. split; [reflexivity|]. destruct own.
      + apply push_good; auto.
        * apply Hhand; auto. apply (i_len _ _ _ Hi).
        * intros _ b o' E. simpl in E. rewrite E in Ho. apply (Ho eq_refl).
      + apply push_good; auto. discriminate.
    - (* Move *) destruct (Hget v Ho) as (x & Hx & -> & Hz). simpl. eexists. split; [reflexivity|].
      apply push_good; auto.
      + destruct x as [d l ow]. apply (Hsplit v _ Hx).
      + apply alive_same with (z := x); assumption.
      + rewrite insert_length. exact Hl.
      + apply Forall_insert; [exact Hf|]. discriminate.
    - (* MoveConst *) destruct (Hget v Ho) as (x & Hx & -> & Hz). simpl.
      assert (view_move_to_const elided h x = Ok (View (data x) (len x) (owner x), view_null, h)) as ->.
      { unfold view_move_to_const. destruct elided; reflexivity. }
      simpl. eexists. split; [reflexivity|]. apply push_good; auto.
      + apply (Hsplit v _ Hx).
      + apply alive_same with (z := x); assumption.
      + rewrite insert_length. exact Hl.
      + apply Forall_insert; [exact Hf|]. discriminate.
    - (* Resize *) destruct (Hget v Ho) as (x & Hx & -> & Hz). cbn [bind]. unfold view_resize.
      destruct (inv_drop _ _ _ _ (Hsplit v x Hx) Hz) as (h' & -> & Hi'). cbn [bind].
      specialize (Halloc _ _ _ Hi' g n). destruct (halloc h' g n) as [p h'']. destruct Halloc as [H1 H2]. eexists. split; [reflexivity|]. apply Hupd with (x := x); assumption.
    - (* Rewrap *) destruct (Hget v Ho) as (x & Hx & -> & Hz). cbn [bind]. unfold view_rewrap.
      destruct (inv_drop _ _ _ _ (Hsplit v x Hx) Hz) as (h' & -> & Hi'). cbn [bind]. eexists. split; [reflexivity|]. apply Hupd with (x := x); [assumption|discriminate|exact Hi'].
    - (* Take *) destruct Ho as [Ho Hp]. destruct (Hget v Ho) as (x & Hx & -> & Hz). cbn [bind]. unfold view_take_control.
      destruct (inv_drop _ _ _ _ (Hsplit v x Hx) Hz) as (h' & -> & Hi'). cbn [bind]. eexists. split; [reflexivity|]. apply Hupd with (x := x); [assumption| |].
      + intros _ b o' E. simpl in E. rewrite E in Hp. apply Hp.
      + apply Hhand; auto. apply (i_len _ _ _ Hi').
    - (* Destroy *) destruct (Hget v Ho) as (x & Hx & -> & Hz). cbn [bind]. unfold view_destroy.
      destruct (inv_drop _ _ _ _ (Hsplit v x Hx) Hz) as (h' & -> & Hi'). cbn [bind]. eexists. split; [reflexivity|]. split; simpl.
      + destruct (owners_split vs v (Some x) Hx) as (rest & H1 & H2). eapply inv_perm; [|exact Hi']. rewrite !H2. reflexivity.
      + eapply alive_insert; eauto. split; [discriminate|intros [? ?]; discriminate].
      + rewrite !insert_length. exact Hl.
      + apply Forall_insert; [exact Hf|exact I].
    - (* ClientAlloc *) eexists. split; [reflexivity|]. split; simpl; auto.
      destruct (inv_alloc _ _ _ l Client Hi) as [H|H]; [exact H|discriminate].
    - (* ClientFree *) destruct (inv_client_free _ _ _ _ Hi Ho) as (h' & E & Hi'). simpl in E. rewrite E. cbn [bind]. eexists. split; [reflexivity|]. split; simpl; auto.
  Qed.
  Lemma run_good ops : forall m s, good m s -> legal_all s ops -> exists m', vrun m ops = Ok m' /\ good m' (ledger_after s ops).
  Proof.
    induction ops as [|o ops IH]; intros m s Hg Hl; simpl in *; [eauto|].
    destruct Hl as [H1 H2]. destruct (step_good m s o Hg H1) as (m' & -> & Hg'). apply IH; assumption.
  Qed.
End Views.

(** For every history in which the client keeps to the contract ([legal_all]), from empty memory:
    nothing undefined happens (in particular no block is freed twice); the client's own
    blocks are still allocated; a block that belongs to the views is allocated exactly if one
    living view owns it, and then only one does; so once no view is alive all of them are freed. *)
Theorem C01_freed_once : forall (T : Type) (ops : list (op T)), legal_all (Ledger [] []) ops ->
  exists m, vrun (Mem [] []) ops = Ok m /\
    let L := ledger_after (Ledger [] []) ops in
    length (hp m) = length (who L) /\
    (forall b, who L !! b = Some Client -> live (hp m) b) /\
    (forall b, who L !! b = Some Views -> live (hp m) b <-> exists v, owns m v b) /\
    (forall b v1 v2, owns m v1 b -> owns m v2 b -> v1 = v2) /\
    (forall v b, owns m v b -> who L !! b = Some Views /\ alive L !! v = Some true) /\
    ((forall v, alive L !! v <> Some true) -> forall b, who L !! b = Some Views -> ~ live (hp m) b).
Proof.
  intros T ops Hl. destruct (run_good ops (Mem [] []) (Ledger [] [])) as (m & E & [Hi Ha Hle Hf]); [|exact Hl|].
  { split; simpl; [split; simpl| |reflexivity|constructor].
    - reflexivity.
    - constructor.
    - intros b Hb. apply elem_of_nil in Hb as [].
    - intros b Hb. discriminate.
    - intros b Hb. discriminate.
    - intros v. split; [discriminate|intros (x & Hx); discriminate]. }
  exists m. split; [exact E|]. intros L. fold L in Hi, Ha, Hle.
  assert (forall b, b ∈ owners (views m) <-> exists v, owns m v b) as Hown.
  { intros b. rewrite owners_elem. unfold owns. split.
    - intros (i & x & H1 & H2 & o & H3). exists i, x, o. auto.
    - intros (i & x & o & H1 & H2 & H3). exists i, x. eauto. }
  assert (forall b, who L !! b = Some Views -> live (hp m) b <-> exists v, owns m v b) as Hlive.
  { intros b Hb. rewrite <- Hown. split; [apply (i_back _ _ _ Hi); exact Hb|intros H; apply (i_own _ _ _ Hi), H]. }
  assert (forall v b, owns m v b -> who L !! b = Some Views /\ alive L !! v = Some true) as Hov.
  { intros v b H. split; [apply (i_own _ _ _ Hi), Hown; eauto|]. apply Ha. destruct H as (x & o & H & _). eauto. }
  split; [apply (i_len _ _ _ Hi)|]. split; [apply (i_client _ _ _ Hi)|]. split; [exact Hlive|]. split; [|split; [exact Hov|]].
  - intros b v1 v2 H1 H2. apply (owners_unique (views m) v1 v2 b (i_nodup _ _ _ Hi)).
    + destruct H1 as (x & o & H1 & H3 & H4). exists (Some x). split; [exact H1|]. simpl. rewrite H3, H4. left.
    + destruct H2 as (x & o & H2 & H3 & H4). exists (Some x). split; [exact H2|]. simpl. rewrite H3, H4. left.
  - intros Hd b Hb Hlv. apply Hlive in Hlv as [v Hv]; [|exact Hb]. apply (Hd v). apply (Hov v b Hv).
Qed.
(** a history with every kind of operation; at its end no view is alive, blocks 1, 2, 3 and 4 were the views' *)
Definition exH : list (op nat) :=
  [ClientAlloc [7; 8]; Alloc 3 (Some (fun i => i)); Wrap (Some (0, 1)) 1; ClientAlloc [1]; Move 0; MoveConst 2 false;
   WrapOwn (Some (2, 0)) 1 true; Resize 3 2 (Some (fun i => 0)); Null; Take 5 None 0; Rewrap 4 (Some (0, 0)) 2;
   ClientAlloc [5; 6]; Take 1 (Some (4, 0)) 2; Move 1; Destroy 0; Destroy 1; Destroy 2; Destroy 6; Destroy 3; Destroy 4; Destroy 5].
Example C01_case : legal_all (Ledger [] []) exH /\
  ledger_after (Ledger [] []) exH = Ledger [Client; Views; Views; Views; Views] [false; false; false; false; false; false; false] /\
  vrun (Mem [] []) exH = Ok (Mem [Some [7; 8]; None; None; None; None] [None; None; None; None; None; None; None]).
Proof. split; [|split; reflexivity]. simpl. repeat split; auto. Qed.
(** outside of the contract: the same block handed over twice is freed twice *)
Example C01_two_owners : vrun (Mem [] []) [ClientAlloc [1]; WrapOwn (Some (0, 0)) 1 true; WrapOwn (Some (0, 0)) 1 true; Destroy 0; Destroy 1] = UB.
Proof. reflexivity. Qed.

(** ** Matrix storage *)
(** Plain move: the new storage has the views and counts the source had, so stands for
    the same matrix and is destroyed with the same effect; the source keeps its counts but has only
    empty views, and its destruction does nothing. *)
Theorem C02_move : forall (F : Type) (hi : heap nat) (hf : heap F) s d s', stor_move s = (d, s') ->
  stor_mat hi hf d = stor_mat hi hf s /\ s_nbrows d = s_nbrows s /\ s_nnzb d = s_nnzb s /\ s_nbstored d = s_nbstored s /\
  stor_destroy hi hf d = stor_destroy hi hf s /\
  stor_mat hi hf s' = Some (SR [] [] [] [] [] (s_nbrows s) (s_nnzb s) (s_nbstored s)) /\
  (forall hi hf, @stor_destroy F hi hf s' = Ok (hi, hf)).
Proof.
  intros F hi hf [[d1 l1 o1] [d2 l2 o2] [d3 l3 o3] [d4 l4 o4] [d5 l5 o5] n z b] d s' E. injection E as <- <-. repeat split.
Qed.
(** Moving to const: the same, except that the counts of the source become zero. *)
Theorem C02_move_to_const : forall (F : Type) elided (hi : heap nat) (hf : heap F) s,
  exists d s', stor_move_to_const elided hi hf s = Ok (d, s', hi, hf) /\
  stor_mat hi hf d = stor_mat hi hf s /\ s_nbrows d = s_nbrows s /\ s_nnzb d = s_nnzb s /\ s_nbstored d = s_nbstored s /\
  stor_destroy hi hf d = stor_destroy hi hf s /\
  stor_mat hi hf s' = Some (SR [] [] [] [] [] 0 0 0) /\
  (forall hi hf, @stor_destroy F hi hf s' = Ok (hi, hf)).
Proof.
  intros F elided hi hf [[d1 l1 o1] [d2 l2 o2] [d3 l3 o3] [d4 l4 o4] [d5 l5 o5] n z b]. do 2 eexists. split.
  - unfold stor_move_to_const, view_move_to_const. destruct elided; reflexivity.
  - repeat split.
Qed.
(** The array lengths agree with the counts, for blocks of size [bs] *)
Definition sized (bs : nat) (s : stor) : Prop :=
  len (s_browptr s) = s_nbrows s + 1 /\ len (s_bcolind s) = s_nbstored s /\ len (s_vals s) = s_nbstored s * bs * bs /\
  len (s_diagind s) = s_nbrows s /\ len (s_browendptr s) = s_nbrows s.
(** Sharing: the same matrix; destroying the shared storage frees nothing. *)
Theorem C02_share : forall (F : Type) (hi : heap nat) (hf : heap F) s bs, sized bs s ->
  stor_mat hi hf (stor_share_with_const s bs) = stor_mat hi hf s /\
  forall hi hf, @stor_destroy F hi hf (stor_share_with_const s bs) = Ok (hi, hf).
Proof.
  intros F hi hf s bs (H1 & H2 & H3 & H4 & H5). split; [|reflexivity]. unfold stor_mat. simpl. rewrite H1, H2, H3, H4, H5. reflexivity.
Qed.
(** ... but the shared storage has no matrix any more once an owning source is destroyed; *)
Theorem C02_share_dangles : forall (F : Type) (hi hi' : heap nat) (hf hf' : heap F) s bs b o,
  stor_destroy hi hf s = Ok (hi', hf') -> owner (s_browptr s) = true -> data (s_browptr s) = Some (b, o) ->
  stor_mat hi' hf' (stor_share_with_const s bs) = None.
Proof.
  intros F hi hi' hf hf' s bs b o E Ho Hd. unfold stor_destroy in E.
  apply bind_Ok in E as (h1 & _ & E). apply bind_Ok in E as (h2 & _ & E). apply bind_Ok in E as (h3 & _ & E). apply bind_Ok in E as (h4 & _ & E). apply bind_Ok in E as (h5 & E5 & E).
  injection E as -> ->. unfold view_destroy in E5. rewrite Ho, Hd in E5. simpl in E5.
  unfold stor_mat. simpl. rewrite Hd. simpl. destruct (h4 !! b) as [[l|]|] eqn:Eb; try discriminate. destruct (o =? 0); [|discriminate]. injection E5 as <-.
  rewrite list_lookup_insert by (apply lookup_lt_is_Some; eauto). reflexivity.
Qed.
(** ... and sharing an empty storage gives one that claims an array it does not have. *)
Theorem C02_share_empty_refuted : forall (F : Type) (hi : heap nat) (hf : heap F) bs,
  stor_mat hi hf stor_null = Some (SR [] [] [] [] [] 0 0 0) /\ stor_mat hi hf (stor_share_with_const stor_null bs) = None.
Proof. intros. split; reflexivity. Qed.
(** a 2x2 matrix whose storage owns all its arrays except the row ends *)
Definition exS : stor := Stor (View (Some (0, 0)) 3 true) (View (Some (1, 0)) 3 true) (View (Some (0, 0)) 3 true) (View (Some (2, 0)) 2 true)
  (View (Some (0, 1)) 2 false) 2 3 3.
Definition exHi : heap nat := [Some [0; 2; 3]; Some [0; 1; 1]; Some [0; 2]].
Definition exHf : heap nat := [Some [5; 6; 7]].
Example C02_case : sized 1 exS /\ stor_mat exHi exHf exS = Some (SR [0; 2; 3] [0; 1; 1] [5; 6; 7] [0; 2] [2; 3] 2 3 3) /\
  stor_destroy exHi exHf exS = Ok ([None; None; None], [None]).
Proof. split; [repeat split|split; reflexivity]. Qed.

Print Assumptions C01_freed_once.
Print Assumptions C02_move.
Print Assumptions C02_move_to_const.
Print Assumptions C02_share.
Print Assumptions C02_share_dangles.
Print Assumptions C02_share_empty_refuted.
