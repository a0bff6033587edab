(** * PropRaw: C03 *)
From Verif Require Import Base SRMatrix Nd ArrayView ViewSpec PropViews.

Lemma arr_length {T} (h : heap T) p n l : arr h p n = Some l -> length l = n.
Proof.
  unfold arr. destruct p as [[b o]|].
  - destruct (h !! b) as [[l'|]|]; try discriminate. destruct (decide _); [|discriminate]. intros E. injection E as <-. rewrite take_length, drop_length. lia.
  - destruct (decide _) as [->|]; [|discriminate]. intros E. injection E as <-. reflexivity.
Qed.
Lemma hread_arr {T} (h X : heap T) p n l i a : arr h p n = Some l -> l !! i = Some a -> hread (h ++ X) p i = Ok a.
Proof.
  unfold arr, hread. destruct p as [[b o]|].
  - destruct (h !! b) as [[l'|]|] eqn:E; try discriminate. destruct (decide _); [|discriminate]. intros E' Hi. injection E' as <-.
    rewrite (lookup_app_l_Some _ _ _ _ E). apply get_Some. apply lookup_take_Some in Hi as [Hi _]. rewrite lookup_drop in Hi. exact Hi.
  - destruct (decide _); [|discriminate]. intros E Hi. injection E as <-. discriminate.
Qed.
Lemma hwrite_new {T} (h X : heap T) k l i a : X !! k = Some (Some l) -> i < length l ->
  hwrite (h ++ X) (Some (length h + k, 0)) i a = Ok (h ++ <[k := Some (<[i := a]> l)]> X).
Proof.
  intros Hk Hi. unfold hwrite. rewrite lookup_app_r, Nat.add_comm, Nat.add_sub, Hk by lia. simpl. rewrite set_Ok by exact Hi. simpl.
  rewrite Nat.add_comm, insert_app_r_alt by lia. rewrite Nat.add_comm, Nat.add_sub. reflexivity.
Qed.
Lemma arr_agree {T} (h h' : heap T) p n : (forall b o, p = Some (b, o) -> h' !! b = h !! b) -> arr h' p n = arr h p n.
Proof. intros H. unfold arr. destruct p as [[b o]|]; [|reflexivity]. rewrite (H b o eq_refl). reflexivity. Qed.
(** a write changes one block only *)
Lemma hwrite_frame {T} (h h' : heap T) b o i a : hwrite h (Some (b, o)) i a = Ok h' -> length h' = length h /\ forall b', b' <> b -> h' !! b' = h !! b'.
Proof.
  simpl. destruct (h !! b) as [[l|]|]; try discriminate. intros E. apply bind_Ok in E as (l' & _ & E). injection E as <-.
  split; [apply insert_length|]. intros b' Hb'. apply list_lookup_insert_ne. congruence.
Qed.

(** A full matrix: the rows follow each other, everything stored is in some row *)
Definition full {F} (M : srmat F) : Prop :=
  length (browptr M) = nbrows M + 1 /\ browptr M !! nbrows M = Some (nbstored M) /\ nnzb M = nbstored M /\
  forall i, i < nbrows M -> browendptr M !! i = browptr M !! (i + 1).
(** the blocks raw matrix [r] points to *)
Definition iblocks (r : raw) : list nat :=
  fst <$> omap id [r_browptr r; r_bcolind r; r_diagind r; r_browendptr r].
Definition fblocks (r : raw) : list nat := fst <$> omap id [r_vals r].

Section Copy.
  Context {F : Type} (bs : nat) (g1 g2 g4 : nat -> nat) (g3 : nat -> F) (hi : heap nat) (hf : heap F) (r : raw) (M : srmat F).
  Hypothesis HM : raw_mat bs hi hf r = Some M.
  Hypothesis Hend : browptr M !! nbrows M = Some (nbstored M).

  Lemma raw_parts : arr hi (r_browptr r) (r_nbrows r + 1) = Some (browptr M) /\ arr hi (r_bcolind r) (r_nbstored r) = Some (bcolind M) /\
    arr hf (r_vals r) (r_nbstored r * (bs * bs)) = Some (vals M) /\ arr hi (r_diagind r) (r_nbrows r) = Some (diagind M) /\
    arr hi (r_browendptr r) (r_nbrows r) = Some (browendptr M) /\ nbrows M = r_nbrows r /\ nnzb M = r_nnzb r /\ nbstored M = r_nbstored r.
  Proof.
    clear Hend. unfold raw_mat in HM.
    destruct (arr hi (r_browptr r) _) eqn:E1; [|discriminate]. destruct (arr hi (r_bcolind r) _) eqn:E2; [|discriminate].
    destruct (arr hf (r_vals r) _) eqn:E3; [|discriminate]. destruct (arr hi (r_diagind r) _) eqn:E4; [|discriminate].
    destruct (arr hi (r_browendptr r) _) eqn:E5; [|discriminate]. simpl in HM. injection HM as <-. simpl. auto 10.
  Qed.

  Lemma copy_arrays : let n := r_nbrows r in let n1 := r_nbstored r in
    nok (copyRaw_arrays bs g1 g2 g4 g3 hi hf r) (fun x => x =
      (Some (length hi, 0), Some (length hi + 1, 0), Some (length hf, 0), Some (length hi + 2, 0),
       hi ++ [Some (browptr M); Some (bcolind M); Some (diagind M)], hf ++ [Some (vals M)])).
  Proof.
    intros n n1. destruct raw_parts as (A1 & A2 & A3 & A4 & A5 & N1 & N2 & N3).
    pose proof (arr_length _ _ _ _ A1) as L1. pose proof (arr_length _ _ _ _ A2) as L2. pose proof (arr_length _ _ _ _ A3) as L3.
    pose proof (arr_length _ _ _ _ A4) as L4.
    unfold copyRaw_arrays. fold n.
    cbn [halloc]. eapply nok_bind with (P := fun x => x = n1).
      { apply nok_lift. rewrite (hread_arr _ _ _ _ _ _ _ A1 (eq_trans (f_equal (lookup _) (eq_sym eq_refl)) (eq_trans (f_equal (fun k => browptr M !! k) (eq_sym N1)) Hend))). simpl. exact N3. }
      intros ? ->. rewrite <- !(assoc_L (++)). cbn [app].
      replace (length (hi ++ [Some (g1 <$> seq 0 (n + 1)); Some (g2 <$> seq 0 n1)])) with (length hi + 2) by (rewrite app_length; reflexivity).
      replace (length (hi ++ [Some (g1 <$> seq 0 (n + 1))])) with (length hi + 1) by (rewrite app_length; reflexivity).
      set (b0 := g1 <$> seq 0 (n + 1)). set (c0 := g2 <$> seq 0 n1). set (d0 := g4 <$> seq 0 n). set (v0 := g3 <$> seq 0 (n1 * bs * bs)).
      assert (length b0 = n + 1) as Lb by (unfold b0; rewrite fmap_length, seq_length; reflexivity).
      assert (length c0 = n1) as Lc by (unfold c0; rewrite fmap_length, seq_length; reflexivity).
      assert (length d0 = n) as Ld by (unfold d0; rewrite fmap_length, seq_length; reflexivity).
      assert (length v0 = n1 * (bs * bs)) as Lv by (unfold v0; rewrite fmap_length, seq_length; lia).
      eapply nok_bind with (P := fun '(h, f) => h = hi ++ [Some b0; Some (bcolind M); Some d0] /\ f = hf ++ [Some (vals M)]).
      { apply nok_par_for with (I := fun dn '(h, f) => exists c v, h = hi ++ [Some b0; Some c; Some d0] /\ f = hf ++ [Some v] /\
          length c = n1 /\ length v = n1 * (bs * bs) /\ (forall i, i ∈ dn -> c !! i = bcolind M !! i) /\
          (forall i j, i ∈ dn -> j < bs * bs -> v !! (i * (bs * bs) + j) = vals M !! (i * (bs * bs) + j))).
        - exists c0, v0. split; [reflexivity|]. split; [reflexivity|]. split; [exact Lc|]. split; [exact Lv|]. split; intros i; [|intros j]; intros Hi; apply elem_of_nil in Hi as [].
        - intros dn i [h f] Hdn Hi Hni (c & v & -> & -> & L5 & L6 & Hc & Hv).
          destruct (lookup_lt_is_Some_2 (bcolind M) i) as [ci Hci]; [lia|]. rewrite (hread_arr _ _ _ _ _ _ _ A2 Hci). cbn [bind].
          rewrite hwrite_new with (l := c); [|reflexivity|lia]. cbn [bind]. change (<[1:=Some (<[i:=ci]> c)]> [Some b0; Some c; Some d0]) with [Some b0; Some (<[i := ci]> c); Some d0].
          eapply ok_bind.
          { apply ok_for_post with (I := fun j f => exists v', f = hf ++ [Some v'] /\ length v' = n1 * (bs * bs) /\
              (forall j', j' < j -> v' !! (i * (bs * bs) + j') = vals M !! (i * (bs * bs) + j')) /\
              (forall k, (forall j', j' < j -> k <> i * (bs * bs) + j') -> v' !! k = v !! k)) (Q := fun f => exists v', f = hf ++ [Some v'] /\ length v' = n1 * (bs * bs) /\
              (forall j', j' < bs * bs -> v' !! (i * (bs * bs) + j') = vals M !! (i * (bs * bs) + j')) /\
              (forall k, (forall j', j' < bs * bs -> k <> i * (bs * bs) + j') -> v' !! k = v !! k)).
            - lia.
            - exists v. split; [reflexivity|]. split; [exact L6|]. split; [intros; lia|auto].
            - intros j f Hj (v' & -> & L7 & H1 & H2). assert (i * (bs * bs) + j < n1 * (bs * bs)) as Hlt by nia.
              destruct (lookup_lt_is_Some_2 (vals M) (i * (bs * bs) + j)) as [a Ha]; [rewrite L3; exact Hlt|].
              rewrite (hread_arr _ _ _ _ _ _ _ A3 Ha). cbn [bind]. pose proof (hwrite_new hf [Some v'] 0 v' (i * (bs * bs) + j) a eq_refl ltac:(lia)) as E.
              rewrite Nat.add_0_r in E. rewrite E. simpl. eexists. split; [reflexivity|]. rewrite insert_length. split; [exact L7|]. split.
              + intros j' Hj'. destruct (decide (j = j')) as [<-|Hne]; [rewrite list_lookup_insert by lia; auto|]. rewrite list_lookup_insert_ne by lia. apply H1. lia.
              + intros k Hk. rewrite list_lookup_insert_ne by (intros <-; apply (Hk j); lia). apply H2. intros j' Hj'. apply Hk. lia.
            - intros f Hf. exact Hf. }
          intros f (v' & -> & L7 & H1 & H2). simpl. exists (<[i := ci]> c), v'. rewrite insert_length. split; [reflexivity|]. split; [reflexivity|]. split; [exact L5|]. split; [exact L7|]. split.
          + intros k Hk. destruct (decide (i = k)) as [->|Hne]; [rewrite list_lookup_insert by lia; auto|]. rewrite list_lookup_insert_ne by exact Hne.
            apply elem_of_app in Hk as [Hk|Hk]; [auto|]. apply elem_of_list_singleton in Hk. congruence.
          + intros k j Hk Hj. destruct (decide (i = k)) as [->|Hne]; [apply H1; exact Hj|].
            apply elem_of_app in Hk as [Hk|Hk]; [|apply elem_of_list_singleton in Hk; congruence].
            rewrite H2; [auto|]. intros j' Hj' E. apply Hne. assert (k = (k * (bs * bs) + j) / (bs * bs)) as Ek by (rewrite Nat.div_add_l, Nat.div_small by lia; lia).
            rewrite E, Nat.div_add_l, Nat.div_small in Ek by lia. lia.
        - intros l [h f] Hl (c & v & -> & -> & L5 & L6 & Hc & Hv). assert (forall i, i < n1 -> i ∈ l) as Hin by (intros i Hi; rewrite Hl; apply elem_of_range; lia).
          replace c with (bcolind M); [replace v with (vals M); [auto|]|].
          + apply list_eq_lt; [rewrite L3, L6; reflexivity|]. intros k Hk. rewrite L3 in Hk. assert (0 < bs * bs) by (destruct (bs * bs); lia).
            pose proof (Nat.div_mod_eq k (bs * bs)) as Ek. rewrite Nat.mul_comm in Ek. rewrite Ek. symmetry. apply Hv; [|apply Nat.mod_upper_bound; lia].
            apply Hin. apply Nat.div_lt_upper_bound; [lia|]. fold n1 in Hk. lia.
          + apply list_eq_lt; [rewrite L2, L5; reflexivity|]. intros k Hk. symmetry. apply Hc, Hin. fold n1 in L2. lia. }
      intros [h f] [-> ->].
      eapply nok_bind with (P := fun h => h = hi ++ [Some (browptr M); Some (bcolind M); Some d0]).
      { apply nok_par_for with (I := fun dn h => exists c, h = hi ++ [Some c; Some (bcolind M); Some d0] /\ length c = n + 1 /\ (forall i, i ∈ dn -> c !! i = browptr M !! i)).
        - exists b0. split; [reflexivity|]. split; [exact Lb|]. intros i Hi. apply elem_of_nil in Hi as [].
        - intros dn i h Hdn Hi Hni (c & -> & L5 & Hc). destruct (lookup_lt_is_Some_2 (browptr M) i) as [ci Hci]; [lia|]. rewrite (hread_arr _ _ _ _ _ _ _ A1 Hci). cbn [bind].
          pose proof (hwrite_new hi [Some c; Some (bcolind M); Some d0] 0 c i ci eq_refl ltac:(lia)) as E. rewrite Nat.add_0_r in E. rewrite E. simpl.
          eexists. split; [reflexivity|]. rewrite insert_length. split; [exact L5|]. intros k Hk.
          destruct (decide (i = k)) as [->|Hne]; [rewrite list_lookup_insert by lia; auto|]. rewrite list_lookup_insert_ne by exact Hne.
          apply elem_of_app in Hk as [Hk|Hk]; [auto|]. apply elem_of_list_singleton in Hk. congruence.
        - intros l h Hl (c & -> & L5 & Hc). do 2 f_equal. f_equal. apply list_eq_lt; [lia|]. intros k Hk. apply Hc. rewrite Hl. apply elem_of_range. lia. }
      intros h ->.
      eapply nok_bind with (P := fun h => h = hi ++ [Some (browptr M); Some (bcolind M); Some (diagind M)]).
      { apply nok_par_for with (I := fun dn h => exists c, h = hi ++ [Some (browptr M); Some (bcolind M); Some c] /\ length c = n /\ (forall i, i ∈ dn -> c !! i = diagind M !! i)).
        - exists d0. split; [reflexivity|]. split; [exact Ld|]. intros i Hi. apply elem_of_nil in Hi as [].
        - intros dn i h Hdn Hi Hni (c & -> & L5 & Hc). destruct (lookup_lt_is_Some_2 (diagind M) i) as [ci Hci]; [fold n in L4; lia|]. rewrite (hread_arr _ _ _ _ _ _ _ A4 Hci). cbn [bind].
          rewrite hwrite_new with (l := c); [|reflexivity|lia]. simpl.
          eexists. split; [reflexivity|]. rewrite insert_length. split; [exact L5|]. intros k Hk.
          destruct (decide (i = k)) as [->|Hne]; [rewrite list_lookup_insert by lia; auto|]. rewrite list_lookup_insert_ne by exact Hne.
          apply elem_of_app in Hk as [Hk|Hk]; [auto|]. apply elem_of_list_singleton in Hk. congruence.
        - intros l h Hl (c & -> & L5 & Hc). do 4 f_equal. f_equal. f_equal. apply list_eq_lt; [fold n in L4; lia|]. intros k Hk. apply Hc. rewrite Hl. apply elem_of_range. lia. }
      intros h ->. apply nok_ret. reflexivity.
  Qed.
End Copy.

(** Copying a full matrix: under every schedule of the copying loops the result is the same matrix, in
    new blocks; all old blocks are as before. Whatever happens to old blocks later does not show in the copy,
    whatever happens to new blocks does not show in the original. Destroying the copy frees its four
    blocks and nothing else. *)
Theorem C03_copy : forall (F : Type) bs g1 g2 g4 (g3 : nat -> F) (hi : heap nat) (hf : heap F) r M,
  raw_mat bs hi hf r = Some M -> full M -> r_browendptr r <> None ->
  nok (copyRaw bs g1 g2 g4 g3 hi hf r) (fun '(r', hi', hf') =>
    raw_mat bs hi' hf' r' = Some M /\
    (forall b, b < length hi -> hi' !! b = hi !! b) /\ (forall b, b < length hf -> hf' !! b = hf !! b) /\
    Forall (fun b => length hi <= b < length hi') (iblocks r') /\ Forall (fun b => length hf <= b < length hf') (fblocks r') /\
    (forall hi2 hf2, (forall b, length hi <= b -> hi2 !! b = hi' !! b) -> (forall b, length hf <= b -> hf2 !! b = hf' !! b) ->
       raw_mat bs hi2 hf2 r' = Some M) /\
    (forall hi2 hf2, (forall b, b < length hi -> hi2 !! b = hi !! b) -> (forall b, b < length hf -> hf2 !! b = hf !! b) ->
       raw_mat bs hi2 hf2 r = Some M) /\
    exists hi2 hf2, destroyRaw hi' hf' r' = Ok (hi2, hf2) /\
      (forall b, b < length hi -> hi2 !! b = hi !! b) /\ (forall b, b < length hf -> hf2 !! b = hf !! b) /\
      (forall b, ~ live hi2 b \/ b < length hi) /\ (forall b, ~ live hf2 b \/ b < length hf)).
Proof.
  intros F bs g1 g2 g4 g3 hi hf r M HM (Hlen & Hend & Hnz & Hre) Hnn. unfold copyRaw.
  eapply nok_bind; [apply (copy_arrays bs g1 g2 g4 g3 hi hf r M HM Hend)|]. intros ? ->.
  destruct (raw_parts bs hi hf r M HM) as (A1 & A2 & A3 & A4 & A5 & N1 & N2 & N3).
  pose proof (arr_length _ _ _ _ A2) as L2. pose proof (arr_length _ _ _ _ A3) as L3. pose proof (arr_length _ _ _ _ A4) as L4. pose proof (arr_length _ _ _ _ A5) as L5.
  destruct (r_browendptr r) as [e|] eqn:Ee; [|contradiction]. apply nok_ret.
  set (hi' := hi ++ _). set (hf' := hf ++ _). set (r' := Raw _ _ _ _ _ _ _ _).
  assert (hi' !! length hi = Some (Some (browptr M))) as B0 by (unfold hi'; apply list_lookup_middle; reflexivity).
  assert (hi' !! (length hi + 1) = Some (Some (bcolind M))) as B1 by (unfold hi'; rewrite lookup_app_r, Nat.add_comm, Nat.add_sub by lia; reflexivity).
  assert (hi' !! (length hi + 2) = Some (Some (diagind M))) as B2 by (unfold hi'; rewrite lookup_app_r, Nat.add_comm, Nat.add_sub by lia; reflexivity).
  assert (hf' !! length hf = Some (Some (vals M))) as B3 by (unfold hf'; apply list_lookup_middle; reflexivity).
  assert (length hi' = length hi + 3) as LH by (unfold hi'; rewrite app_length; reflexivity).
  assert (length hf' = length hf + 1) as LF by (unfold hf'; rewrite app_length; reflexivity).
  assert (forall b, b < length hi -> hi' !! b = hi !! b) as O1 by (intros b Hb; unfold hi'; apply lookup_app_l; exact Hb).
  assert (forall b, b < length hf -> hf' !! b = hf !! b) as O2 by (intros b Hb; unfold hf'; apply lookup_app_l; exact Hb).
  assert (forall hi2 hf2, (forall b, length hi <= b -> hi2 !! b = hi' !! b) -> (forall b, length hf <= b -> hf2 !! b = hf' !! b) -> raw_mat bs hi2 hf2 r' = Some M) as HR.
  { intros hi2 hf2 H1 H2. unfold raw_mat, r'. cbn [r_browptr r_bcolind r_vals r_diagind r_browendptr r_nbrows r_nnzb r_nbstored].
    assert (arr hi2 (Some (length hi, 0)) (r_nbrows r + 1) = Some (browptr M)) as -> by (unfold arr; rewrite H1, B0 by lia; rewrite decide_True by lia; rewrite drop_0, take_ge by lia; reflexivity).
    assert (arr hi2 (Some (length hi + 1, 0)) (r_nbstored r) = Some (bcolind M)) as -> by (unfold arr; rewrite H1, B1 by lia; rewrite decide_True by lia; rewrite drop_0, take_ge by lia; reflexivity).
    assert (arr hf2 (Some (length hf, 0)) (r_nbstored r * (bs * bs)) = Some (vals M)) as -> by (unfold arr; rewrite H2, B3 by lia; rewrite decide_True by lia; rewrite drop_0, take_ge by lia; reflexivity).
    assert (arr hi2 (Some (length hi + 2, 0)) (r_nbrows r) = Some (diagind M)) as -> by (unfold arr; rewrite H1, B2 by lia; rewrite decide_True by lia; rewrite drop_0, take_ge by lia; reflexivity).
    assert (arr hi2 (if 0 <? r_nbrows r then padd (Some (length hi, 0)) 1 else None) (r_nbrows r) = Some (browendptr M)) as ->.
    { destruct (Nat.ltb_spec 0 (r_nbrows r)) as [Hp|Hp].
      - simpl. rewrite H1, B0 by lia. rewrite decide_True by lia. f_equal. apply list_eq_lt; [rewrite take_length, drop_length; lia|].
        intros k Hk. rewrite take_length, drop_length in Hk. rewrite lookup_take, lookup_drop by lia. rewrite Hre by lia. f_equal. lia.
      - simpl. rewrite decide_True by lia. f_equal. symmetry. apply nil_length_inv. lia. }
    cbn [mbind option_bind]. rewrite <- N1, <- N2, <- N3. destruct M. reflexivity. }
  split; [apply HR; auto|]. split; [exact O1|]. split; [exact O2|].
  split. { unfold iblocks, r'. simpl. destruct (0 <? r_nbrows r); simpl; repeat constructor; lia. }
  split. { unfold fblocks, r'. simpl. repeat constructor; lia. }
  split; [exact HR|]. split.
  { intros hi2 hf2 H1 H2. rewrite <- HM. unfold raw_mat.
    assert (forall p n l, arr hi p n = Some l -> arr hi2 p n = arr hi p n) as X1.
    { intros p n l Hp. apply arr_agree. intros b o ->. apply H1. unfold arr in Hp. destruct (hi !! b) eqn:E; [apply lookup_lt_is_Some; eauto|discriminate]. }
    assert (forall p n l, arr hf p n = Some l -> arr hf2 p n = arr hf p n) as X2.
    { intros p n l Hp. apply arr_agree. intros b o ->. apply H2. unfold arr in Hp. destruct (hf !! b) eqn:E; [apply lookup_lt_is_Some; eauto|discriminate]. }
    rewrite (X1 _ _ _ A1), (X1 _ _ _ A2), (X2 _ _ _ A3), (X1 _ _ _ A4), Ee, (X1 _ _ _ A5). reflexivity. }
  assert (forall b, live hi b -> b < length hi) as V1 by (intros b [l Hl]; apply lookup_lt_is_Some; eauto).
  unfold destroyRaw, r'. cbn [r_browptr r_bcolind r_vals r_diagind r_browendptr r_nbrows r_nnzb r_nbstored]. cbn [hfree]. rewrite B0. cbn [Nat.eqb bind].
  rewrite list_lookup_insert_ne by lia. rewrite B1. cbn [Nat.eqb bind]. rewrite !list_lookup_insert_ne by lia. rewrite B2. cbn [Nat.eqb bind]. rewrite B3. cbn [bind].
  rewrite <- N2, <- N3, Hnz, Nat.eqb_refl. cbn [negb bind]. do 2 eexists. split; [reflexivity|]. split; [|split; [|split]].
  - intros b Hb. rewrite !list_lookup_insert_ne by lia. auto.
  - intros b Hb. rewrite !list_lookup_insert_ne by lia. auto.
  - intros b. destruct (decide (b < length hi)); [auto|left]. intros [l Hl]. pose proof (lookup_lt_Some _ _ _ Hl) as Hlt. rewrite !insert_length, LH in Hlt.
    assert (b = length hi \/ b = length hi + 1 \/ b = length hi + 2) as [-> | [-> | ->]] by lia.
    + rewrite !list_lookup_insert_ne in Hl by lia. rewrite list_lookup_insert in Hl by lia. discriminate.
    + rewrite list_lookup_insert_ne in Hl by lia. rewrite list_lookup_insert in Hl by (rewrite insert_length; lia). discriminate.
    + rewrite list_lookup_insert in Hl by (rewrite !insert_length; lia). discriminate.
  - intros b. destruct (decide (b < length hf)); [auto|left]. intros [l Hl]. pose proof (lookup_lt_Some _ _ _ Hl) as Hlt. rewrite !insert_length, LF in Hlt.
    replace b with (length hf) in Hl by lia. rewrite list_lookup_insert in Hl by lia. discriminate.
Qed.
(** A matrix with fewer visible entries than stored ones, copied in spite of the warning in the
    header: destroying the copy is undefined (the row ends point into the row pointers). *)
Theorem C03_partial_view_refuted : forall (F : Type) bs g1 g2 g4 (g3 : nat -> F) (hi : heap nat) (hf : heap F) r M,
  raw_mat bs hi hf r = Some M -> browptr M !! nbrows M = Some (nbstored M) -> nnzb M <> nbstored M -> 0 < nbrows M ->
  nok (copyRaw bs g1 g2 g4 g3 hi hf r) (fun '(r', hi', hf') => destroyRaw hi' hf' r' = UB).
Proof.
  intros F bs g1 g2 g4 g3 hi hf r M HM Hend Hnz Hn. unfold copyRaw.
  eapply nok_bind; [apply (copy_arrays bs g1 g2 g4 g3 hi hf r M HM Hend)|]. intros ? ->.
  destruct (raw_parts bs hi hf r M HM) as (A1 & A2 & A3 & A4 & A5 & N1 & N2 & N3).
  destruct (r_browendptr r) as [e|] eqn:Ee.
  2:{ simpl in A5. destruct (decide _); [lia|discriminate]. }
  apply nok_ret.
  set (hi' := hi ++ _). set (hf' := hf ++ _).
  assert (hi' !! length hi = Some (Some (browptr M))) as B0 by (unfold hi'; apply list_lookup_middle; reflexivity).
  assert (hi' !! (length hi + 1) = Some (Some (bcolind M))) as B1 by (unfold hi'; rewrite lookup_app_r, Nat.add_comm, Nat.add_sub by lia; reflexivity).
  assert (hi' !! (length hi + 2) = Some (Some (diagind M))) as B2 by (unfold hi'; rewrite lookup_app_r, Nat.add_comm, Nat.add_sub by lia; reflexivity).
  assert (hf' !! length hf = Some (Some (vals M))) as B3 by (unfold hf'; apply list_lookup_middle; reflexivity).
  destruct (Nat.ltb_spec 0 (r_nbrows r)); [|lia].
  unfold destroyRaw. cbn [r_browptr r_bcolind r_vals r_diagind r_browendptr r_nbrows r_nnzb r_nbstored padd]. cbn [hfree]. rewrite B0. cbn [Nat.eqb bind].
  rewrite list_lookup_insert_ne by lia. rewrite B1. cbn [Nat.eqb bind]. rewrite !list_lookup_insert_ne by lia. rewrite B2. cbn [Nat.eqb bind]. rewrite B3. cbn [bind].
  destruct (Nat.eqb_spec (r_nnzb r) (r_nbstored r)) as [E|E]; [congruence|]. cbn [negb bind].
  rewrite !list_lookup_insert_ne by lia. rewrite list_lookup_insert; [reflexivity|]. apply lookup_lt_is_Some; eauto.
Qed.
(** Without row ends the copy is refused (after the four arrays have been allocated, which are lost). *)
Theorem C03_no_row_ends : forall (F : Type) bs g1 g2 g4 (g3 : nat -> F) (hi : heap nat) (hf : heap F) r M,
  raw_mat bs hi hf r = Some M -> browptr M !! nbrows M = Some (nbstored M) -> r_browendptr r = None ->
  forall o, copyRaw bs g1 g2 g4 g3 hi hf r o <-> o = Throw "CRawBSRMatrix does not have row end pointers!".
Proof.
  intros F bs g1 g2 g4 g3 hi hf r M HM Hend Hn o. unfold copyRaw. rewrite Hn.
  destruct (copy_arrays bs g1 g2 g4 g3 hi hf r M HM Hend) as [[x Hx] H]. split.
  - intros (y & Hy & Ho). specialize (H y Hy). destruct y as [a| | |]; simpl in H; try tauto. destruct a as [[[[[? ?] ?] ?] ?] ?]. exact Ho.
  - intros ->. exists x. split; [exact Hx|]. specialize (H x Hx). destruct x as [a| | |]; simpl in H; try tauto. destruct a as [[[[[? ?] ?] ?] ?] ?]. reflexivity.
Qed.
(** the matrix of [C02_case] as a raw matrix, and its upper triangle with the arrays of a 2x2 full matrix *)
Definition exR : raw := Raw (Some (0, 0)) (Some (1, 0)) (Some (0, 0)) (Some (2, 0)) (Some (0, 1)) 2 3 3.
Example C03_case : exists M, raw_mat 1 exHi exHf exR = Some M /\ full M /\ r_browendptr exR <> None.
Proof.
  eexists. split; [reflexivity|]. split; [|discriminate]. split; [reflexivity|]. split; [reflexivity|]. split; [reflexivity|].
  intros i Hi. simpl in Hi. do 2 (destruct i as [|i]; [reflexivity|]). lia.
Qed.
Example C03_partial_case : exists M, raw_mat 1 exHi exHf (Raw (Some (0, 0)) (Some (1, 0)) (Some (0, 0)) (Some (2, 0)) (Some (0, 1)) 2 2 3) = Some M /\
  browptr M !! nbrows M = Some (nbstored M) /\ nnzb M <> nbstored M /\ 0 < nbrows M.
Proof. eexists. split; [reflexivity|]. simpl. repeat split; lia. Qed.

Print Assumptions C03_copy.
Print Assumptions C03_partial_view_refuted.
Print Assumptions C03_no_row_ends.
