(** * CooBsr: proof about the conversion to block rows *)
From Verif Require Import Base Alg SRMatrix KernelFacts TriFacts Nd Reorder Coo CooSpec CooFacts.
From Coq Require Import ZArith.
Open Scope nat_scope.

Lemma lay_inj so bs p q p' q' : p < bs -> q < bs -> p' < bs -> q' < bs -> lay so bs p q = lay so bs p' q' -> p = p' /\ q = q'.
Proof. intros Hp Hq Hp' Hq'. destruct so; simpl; intros E; apply flat_eq in E; tauto. Qed.

Lemma ok_forl_rev {St} (I : nat -> St -> Prop) (body : nat -> St -> res St) lo hi s : lo <= hi ->
  I hi s -> (forall i s', lo <= i < hi -> I (i + 1) s' -> ok (body i s') (I i)) ->
  ok (forl (rev (range lo hi)) body s) (I lo).
Proof.
  intros Hle. remember (hi - lo) as k eqn:Ek. revert hi s Hle Ek.
  induction k as [|k IH]; intros hi s Hle Ek H0 Hb.
  - assert (hi = lo) as -> by lia. rewrite range_nil by lia. exact H0.
  - replace hi with (hi - 1 + 1) by lia. rewrite range_snoc by lia. rewrite rev_app_distr. simpl.
    eapply ok_bind; [apply Hb; [lia|]; replace (hi - 1 + 1) with hi by lia; exact H0|]. intros s' Hs'.
    apply IH; [lia|lia|exact Hs'|]. intros; apply Hb; [lia|assumption].
Qed.
Lemma find_from_spec x k : forall i l, i + k <= length l ->
  ok (find_from x k i l) (fun r => match r with
    | Some p => i <= p < i + k /\ l !! p = Some x
    | None => forall p, i <= p < i + k -> l !! p <> Some x end).
Proof.
  induction k as [|k IH]; intros i l Hl; cbn [find_from].
  - simpl. intros; lia.
  - destruct (lookup_lt_is_Some_2 l i) as [y Ey]; [lia|].
    eapply ok_bind; [eapply ok_get; [exact Ey|exact eq_refl]|]. intros ? <-.
    destruct (Nat.eqb_spec y x) as [->|Hne]; [simpl; split; [lia|exact Ey]|].
    eapply ok_mono; [apply IH; lia|]. intros [p|]; [intros [H1 H2]; split; [lia|exact H2]|].
    intros H p Hp. destruct (decide (p = i)) as [->|]; [congruence|apply H; lia].
Qed.

Section BSR.
  Context {F : Type} {O : SOps F}.
  Variable c : coo F.
  Variables (so : storage) (bs N : nat).
  Hypothesis Hc : coo_ok c.
  Hypothesis Hbs : 0 < bs.
  Hypothesis Hnr : nrows c = N * bs.
  Hypothesis Hnc : ncols c = N * bs.
  Notation es := (entries c).

  Lemma rows_sorted k k' e e' : k < k' -> es !! k = Some e -> es !! k' = Some e' -> rowind e <= rowind e'.
  Proof.
    intros Hk He He'. destruct (decide (rowind e <= rowind e')) as [|Hgt]; [assumption|exfalso].
    pose proof (co_row c Hc _ _ He) as [Hr _]. pose proof (co_row c Hc _ _ He') as [Hr' _].
    pose proof (proj1 (crp_delim c Hc (rowind e) k e Hr He) eq_refl).
    pose proof (proj1 (crp_delim c Hc (rowind e') k' e' Hr' He') eq_refl).
    pose proof (crp_mono c Hc (rowind e' + 1) (rowind e) ltac:(lia) ltac:(lia)). lia.
  Qed.
  Lemma bsdiv x : x < N * bs -> x / bs < N.
  Proof. intros H. apply Nat.div_lt_upper_bound; nia. Qed.

  (** position [a] separates the block rows below [b] from the others *)
  Definition sep (bl : list (nat * nat)) (b a : nat) : Prop :=
    a <= length bl /\ forall k x y, bl !! k = Some (x, y) -> (k < a <-> x < b).
  Definition listed (m : nat) (bl : list (nat * nat)) : Prop :=
    forall b cc, (b, cc) ∈ bl <-> exists k e, k < m /\ es !! k = Some e /\ b = rowind e / bs /\ cc = colind e / bs.
  (** the blocks are in the order in which the list of entries meets them *)
  Definition firsts (bl : list (nat * nat)) : Prop :=
    forall k1 k2 b1 c1 b2 c2, k1 < k2 -> bl !! k1 = Some (b1, c1) -> bl !! k2 = Some (b2, c2) ->
    exists m1 e1, es !! m1 = Some e1 /\ b1 = rowind e1 / bs /\ c1 = colind e1 / bs /\
      forall m2 e2, es !! m2 = Some e2 -> b2 = rowind e2 / bs -> c2 = colind e2 / bs -> m1 < m2.
  Definition binv (m : nat) (st : list nat * list Z * list nat * list bool) : Prop :=
    let '(bp, d, cs, tl) := st in
    exists bl, cs = snd <$> bl /\ (NoDup bl /\ firsts bl) /\ listed m bl /\ length bp = N + 1 /\ length tl = N /\ length d = N /\
    forall b, b < N ->
      (tl !! b = Some true /\ (exists a, bp !! b = Some a /\ sep bl b a) /\ (exists cc, (b, cc) ∈ bl) \/
       tl !! b = Some false /\ bp !! b = Some 0 /\ (forall cc, (b, cc) ∉ bl)) /\
      (forall k, bl !! k = Some (b, b) -> d !! b = Some (Z.of_nat k)) /\
      ((b, b) ∉ bl -> d !! b = Some (-1)%Z).

  Lemma listed_S m bl e b cc : listed m bl -> es !! m = Some e -> b = rowind e / bs -> cc = colind e / bs ->
    (b, cc) ∈ bl -> listed (m + 1) bl.
  Proof.
    intros H He -> -> Hin b' cc'. rewrite (H b' cc'). split.
    - intros (k & e' & Hk & R). exists k, e'. split; [lia|exact R].
    - intros (k & e' & Hk & He' & -> & ->). destruct (decide (k = m)) as [->|].
      + assert (e' = e) as -> by congruence. apply H in Hin. exact Hin.
      + exists k, e'. split; [lia|auto].
  Qed.
  Lemma listed_snoc m bl e b cc : listed m bl -> es !! m = Some e -> b = rowind e / bs -> cc = colind e / bs ->
    listed (m + 1) (bl ++ [(b, cc)]).
  Proof.
    intros H He -> -> b' cc'. rewrite elem_of_app, elem_of_list_singleton, (H b' cc'). split.
    - intros [(k & e' & Hk & R)|E].
      + exists k, e'. split; [lia|exact R].
      + injection E as -> ->. exists m, e. split; [lia|auto].
    - intros (k & e' & Hk & He' & -> & ->). destruct (decide (k = m)) as [->|].
      + right. assert (e' = e) as -> by congruence. reflexivity.
      + left. exists k, e'. split; [lia|auto].
  Qed.
  Lemma firsts_snoc m bl e b cc : listed m bl -> es !! m = Some e -> b = rowind e / bs -> cc = colind e / bs -> (b, cc) ∉ bl ->
    firsts bl -> firsts (bl ++ [(b, cc)]).
  Proof.
    intros H He -> -> Hnew Hf k1 k2 b1 c1 b2 c2 Hk K1 K2. apply lookup_lt_Some in K2 as L2. rewrite app_length in L2. simpl in L2.
    rewrite lookup_app_l in K1 by lia. destruct (decide (k2 < length bl)) as [Hlt|Hge].
    - rewrite lookup_app_l in K2 by exact Hlt. apply (Hf k1 k2 b1 c1 b2 c2 Hk K1 K2).
    - rewrite lookup_app_r in K2 by lia. replace (k2 - length bl) with 0 in K2 by lia. injection K2 as <- <-.
      apply elem_of_list_lookup_2, H in K1 as (m1 & e1 & Hm1 & He1 & -> & ->). exists m1, e1. split; [exact He1|]. split; [reflexivity|]. split; [reflexivity|].
      intros m2 e2 He2 E1 E2. destruct (decide (m2 < m)) as [Hlt|]; [exfalso|lia]. apply Hnew, H. exists m2, e2. auto.
  Qed.
  Lemma listed_le m bl e b cc : listed m bl -> es !! m = Some e -> (b, cc) ∈ bl -> b <= rowind e / bs.
  Proof.
    intros H He Hin. apply H in Hin as (k & e' & Hk & He' & -> & _). apply Nat.div_le_mono; [lia|]. apply (rows_sorted k m); auto.
  Qed.
  Lemma listed_lt m bl b cc : listed m bl -> (b, cc) ∈ bl -> b < N /\ cc < N.
  Proof.
    intros H Hin. apply H in Hin as (k & e & _ & He & -> & ->). destruct (co_row c Hc _ _ He). split; apply bsdiv; lia.
  Qed.

  Definition step1 (irow j : nat) (e : entry F) '((browptr, diagind, bcolidxs, tally) : list nat * list Z * list nat * list bool) :=
    let curbrow := irow / bs in
    let curbcol := colind e / bs in
    let bnnz := length bcolidxs in
    let! t := get tally curbrow in
    let! (browptr, tally) := if negb t then
        let! browptr := set browptr curbrow bnnz in
        let! tally := set tally curbrow true in
        Ok (browptr, tally)
      else Ok (browptr, tally) in
    let! start := get browptr curbrow in
    let! it := find_from curbcol (length bcolidxs - start) start bcolidxs in
    match it with
    | Some _ => Ok (browptr, diagind, bcolidxs, tally)
    | None =>
      let! diagind := if curbcol =? curbrow then set diagind curbrow (Z.of_nat bnnz) else Ok diagind in
      Ok (browptr, diagind, bcolidxs ++ [curbcol], tally)
    end.
  Lemma step1_spec m e st : es !! m = Some e -> binv m st -> ok (step1 (rowind e) m e st) (binv (m + 1)).
  Proof.
    destruct st as [[[bp d] cs] tl]. intros He (bl & -> & [Hnd Hfs] & Hl & Lp & Lt & Ld & H).
    set (b := rowind e / bs). set (cc := colind e / bs).
    assert (b < N) as Hb by (apply bsdiv; rewrite <- Hnr; apply (co_row c Hc _ _ He)).
    assert (length (snd <$> bl) = length bl) as Elen by apply fmap_length.
    cbn [step1]. fold b cc. rewrite Elen.
    (* the tally *)
    eapply ok_bind with (P := fun t => tl !! b = Some t). { apply ok_get_lt; [lia|auto]. }
    intros t Ht.
    eapply ok_bind with (P := fun '(bp', tl') => length bp' = N + 1 /\ length tl' = N /\ tl' !! b = Some true /\
      (exists a, bp' !! b = Some a /\ sep bl b a) /\ forall b', b' <> b -> bp' !! b' = bp !! b' /\ tl' !! b' = tl !! b').
    { destruct t; simpl negb; cbn iota.
      - simpl. destruct (H b Hb) as [[(_ & Ha & _)|(Hf & _)] _]; [|congruence]. auto 10.
      - rewrite set_Ok by lia. cbn [bind]. rewrite set_Ok by lia. cbn [bind]. simpl. rewrite !insert_length.
        split; [exact Lp|]. split; [exact Lt|]. split; [apply list_lookup_insert; lia|]. split.
        + exists (length bl). split; [apply list_lookup_insert; lia|]. split; [lia|]. intros k x y Hk.
          pose proof (lookup_lt_Some _ _ _ Hk). split; [|lia]. intros _.
          apply elem_of_list_lookup_2 in Hk as Hin. pose proof (listed_le m bl e x y Hl He Hin) as Hle. fold b in Hle.
          destruct (decide (x = b)) as [->|]; [exfalso|lia].
          destruct (H b Hb) as [[(Htt & _)|(_ & _ & Hno)] _]; [congruence|]. apply (Hno y Hin).
        + intros b' Hne. rewrite !list_lookup_insert_ne by auto. auto. }
    intros [bp' tl'] (Lp' & Lt' & Htb & (a & Ha & Hsep) & Hoth).
    eapply ok_bind; [eapply ok_get; [exact Ha|exact eq_refl]|]. intros ? <-.
    eapply ok_bind; [apply find_from_spec; destruct Hsep as [Hal _]; lia|]. intros it Hit.
    destruct it as [p|].
    - simpl. exists bl. destruct Hit as [Hp Hpx]. apply list_lookup_fmap_inv in Hpx as ([x y] & Ey & Hbp). simpl in Ey. subst y.
      assert (x = b) as ->.
      { pose proof (listed_le m bl e x cc Hl He (elem_of_list_lookup_2 _ _ _ Hbp)) as Hle. fold b in Hle.
        destruct Hsep as [_ Hsep]. specialize (Hsep p x cc Hbp). lia. }
      split; [reflexivity|]. split; [split; [exact Hnd|exact Hfs]|]. split; [apply (listed_S m bl e b cc); auto; apply elem_of_list_lookup_2 in Hbp; exact Hbp|].
      split; [exact Lp'|]. split; [exact Lt'|]. split; [exact Ld|].
      intros b' Hb'. destruct (H b' Hb') as [H1 H2]. split; [|exact H2].
      destruct (decide (b' = b)) as [->|Hne].
      + left. split; [exact Htb|]. split; [eauto|]. exists cc. apply elem_of_list_lookup_2 in Hbp. exact Hbp.
      + destruct (Hoth b' Hne) as [-> ->]. exact H1.
    - assert ((b, cc) ∉ bl) as Hnew.
      { intros Hin. apply elem_of_list_lookup in Hin as [k Hk]. destruct Hsep as [Hal Hsep]. pose proof (lookup_lt_Some _ _ _ Hk).
        apply (Hit k); [specialize (Hsep k b cc Hk); lia|]. rewrite list_lookup_fmap, Hk. reflexivity. }
      eapply ok_bind with (P := fun d' => length d' = N /\ (cc = b -> d' !! b = Some (Z.of_nat (length bl))) /\
        forall b', (b' <> b \/ cc <> b) -> d' !! b' = d !! b').
      { destruct (Nat.eqb_spec cc b) as [Eq|Hne].
        - apply ok_set; [lia|]. split; [rewrite insert_length; exact Ld|]. split; [intros _; apply list_lookup_insert; lia|].
          intros b' [Hne|Hne]; [apply list_lookup_insert_ne; auto|tauto].
        - simpl. split; [exact Ld|]. split; [tauto|]. auto. }
      intros d' (Ld' & Hd1 & Hd2). simpl. exists (bl ++ [(b, cc)]).
      split; [rewrite fmap_app; reflexivity|]. split.
      { split; [|apply (firsts_snoc m bl e); auto]. apply NoDup_app. split; [exact Hnd|]. split; [|apply NoDup_singleton].
        intros x Hx. rewrite elem_of_list_singleton. intros ->. tauto. }
      split; [apply (listed_snoc m bl e); auto|]. split; [exact Lp'|]. split; [exact Lt'|]. split; [exact Ld'|].
      assert (forall b0 a0, b0 <= b -> sep bl b0 a0 -> sep (bl ++ [(b, cc)]) b0 a0) as Hext.
      { intros b0 a0 Hle [Hal Hs0]. split; [rewrite app_length; lia|]. intros k x y Hk.
        destruct (decide (k < length bl)) as [Hlt|Hge].
        - rewrite lookup_app_l in Hk by exact Hlt. apply (Hs0 k x y Hk).
        - apply lookup_lt_Some in Hk as Hkl. rewrite app_length in Hkl. simpl in Hkl. rewrite lookup_app_r in Hk by lia.
          replace (k - length bl) with 0 in Hk by lia. injection Hk as <- <-. lia. }
      intros b' Hb'. destruct (H b' Hb') as [H1 [H2 H3]]. split.
      + destruct (decide (b' = b)) as [->|Hne].
        * left. split; [exact Htb|]. split; [exists a; split; [exact Ha|apply Hext; [lia|exact Hsep]]|].
          exists cc. apply elem_of_app. right. apply elem_of_list_singleton. reflexivity.
        * destruct (Hoth b' Hne) as [-> ->]. destruct H1 as [(Ht' & (a' & Ha' & Hs') & (cc' & Hin'))|(Ht' & Ha' & Hno')].
          -- left. split; [exact Ht'|]. split; [|exists cc'; apply elem_of_app; left; exact Hin'].
             exists a'. split; [exact Ha'|]. apply Hext; [|exact Hs']. apply (listed_le m bl e b' cc' Hl He Hin').
          -- right. split; [exact Ht'|]. split; [exact Ha'|]. intros cc' Hin'. apply elem_of_app in Hin' as [Hin'|Hin']; [apply (Hno' cc' Hin')|].
             apply elem_of_list_singleton in Hin'. congruence.
      + split.
        * intros k Hk. destruct (decide (k < length bl)) as [Hlt|Hge].
          -- rewrite lookup_app_l in Hk by exact Hlt. rewrite Hd2; [apply H2, Hk|].
             destruct (decide (b' = b)) as [->|]; [right|left; assumption]. intros ->. apply elem_of_list_lookup_2 in Hk. tauto.
          -- apply lookup_lt_Some in Hk as Hkl. rewrite app_length in Hkl. simpl in Hkl. rewrite lookup_app_r in Hk by lia.
             replace (k - length bl) with 0 in Hk by lia. injection Hk as E1 E2. subst b'. replace k with (length bl) by lia. apply Hd1. congruence.
        * intros Hni. rewrite elem_of_app, elem_of_list_singleton in Hni. rewrite Hd2; [apply H3; tauto|].
          destruct (decide (b' = b)) as [->|]; [right|left; assumption]. intros ->. tauto.
  Qed.

  (** after both loops over the row pointers *)
  Definition ptrs_ok (bl : list (nat * nat)) (bp : list nat) : Prop :=
    length bp = N + 1 /\ forall i, i <= N -> exists a, bp !! i = Some a /\ sep bl i a.
  Lemma fix_spec bl bp :
    (forall x y, (x, y) ∈ bl -> x < N) ->
    (forall k e, es !! k = Some e -> exists x y, (x, y) ∈ bl /\ x = rowind e / bs) ->
    (es = [] \/ exists k e, es !! k = Some e /\ rowind e < bs) ->
    (es = [] -> bl = []) ->
    length bp = N + 1 ->
    (forall b, b < N -> (exists a, bp !! b = Some a /\ sep bl b a) \/ bp !! b = Some 0 /\ (forall cc, (b, cc) ∉ bl)) ->
    ok (let! bp := set bp N (length bl) in
        forl (rev (range 1 N)) (fun i p => let! a := get p i in if a =? 0 then let! b := get p (i + 1) in set p i b else Ok p) bp) (ptrs_ok bl).
  Proof.
    intros Hlt Hall Hfirst Hemp Lp H. rewrite set_Ok by lia. cbn [bind].
    assert (sep bl N (length bl)) as HsN.
    { split; [lia|]. intros k x y Hk. pose proof (lookup_lt_Some _ _ _ Hk). apply elem_of_list_lookup_2, Hlt in Hk. lia. }
    assert (forall i a, 1 <= i -> sep bl i a -> a = 0 -> bl = []) as Hz.
    { intros i a Hi [Ha Hs] ->. destruct Hfirst as [E|(k & e & He & Hr)]; [apply Hemp, E|].
      destruct (Hall k e He) as (x & y & Hin & ->). apply elem_of_list_lookup in Hin as [k' Hk'].
      rewrite Nat.div_small in Hk' by exact Hr. specialize (Hs k' 0 y Hk'). lia. }
    destruct (decide (N = 0)) as [HN|HN].
    { rewrite range_nil by lia. simpl. split; [rewrite insert_length; exact Lp|]. intros i Hi. replace i with N by lia.
      exists (length bl). split; [apply list_lookup_insert; lia|exact HsN]. }
    eapply ok_mono; [apply ok_forl_rev with (I := fun j bp' => length bp' = N + 1 /\
      (forall i, j <= i <= N -> exists a, bp' !! i = Some a /\ sep bl i a) /\
      (forall b, b < j -> (exists a, bp' !! b = Some a /\ sep bl b a) \/ bp' !! b = Some 0 /\ (forall cc, (b, cc) ∉ bl)))|].
    - lia.
    - split; [rewrite insert_length; exact Lp|]. split.
      + intros i Hi. replace i with N by lia. exists (length bl). split; [apply list_lookup_insert; lia|exact HsN].
      + intros b Hb. rewrite list_lookup_insert_ne by lia. apply H. lia.
    - intros i p Hi (Lp' & H1 & H2). destruct (H1 (i + 1) ltac:(lia)) as (a1 & Ea1 & Hs1).
      destruct (lookup_lt_is_Some_2 p i) as [a Ea]; [lia|].
      eapply ok_bind; [eapply ok_get; [exact Ea|exact eq_refl]|]. intros ? <-.
      destruct (Nat.eqb_spec a 0) as [->|Hne].
      + eapply ok_bind; [eapply ok_get; [exact Ea1|exact eq_refl]|]. intros ? <-.
        apply ok_set; [lia|]. split; [rewrite insert_length; exact Lp'|]. split.
        * intros i' Hi'. destruct (decide (i = i')) as [<-|Hn].
          -- exists a1. split; [apply list_lookup_insert; lia|]. destruct (H2 i ltac:(lia)) as [(a & Ea' & Hsa)|(_ & Hno)].
             ++ assert (a = 0) as -> by congruence. pose proof (Hz i 0 ltac:(lia) Hsa eq_refl) as ->.
                destruct Hs1 as [Hl1 _]. split; [exact Hl1|]. intros k x y Hk. rewrite lookup_nil in Hk. discriminate.
             ++ destruct Hs1 as [Hl1 Hs1]. split; [exact Hl1|]. intros k x y Hk. rewrite (Hs1 k x y Hk).
                assert (x <> i); [|lia]. intros ->. apply (Hno y). apply elem_of_list_lookup_2 in Hk. exact Hk.
          -- rewrite list_lookup_insert_ne by exact Hn. apply H1. lia.
        * intros b Hb. rewrite list_lookup_insert_ne by lia. apply H2. lia.
      + simpl. split; [exact Lp'|]. split; [|intros; apply H2; lia]. intros i' Hi'. destruct (decide (i' = i)) as [->|]; [|apply H1; lia].
        destruct (H2 i ltac:(lia)) as [Hs|(E0 & _)]; [exact Hs|congruence].
    - intros bp' (Lp' & H1 & H2). split; [exact Lp'|]. intros i Hi. destruct (decide (i = 0)) as [->|]; [|apply H1; lia].
      destruct (H2 0 ltac:(lia)) as [Hs|(E0 & _)]; [exact Hs|]. exists 0. split; [exact E0|]. split; [lia|]. intros; lia.
  Qed.

  (** ** The matrix *)
  Definition dval (l : list (entry F)) (i j : nat) : F :=
    fold_left (fun acc e => if (rowind e =? i) && (colind e =? j) then value e else acc) l s0.
  Lemma dval_snoc l e i j : dval (l ++ [e]) i j = if (rowind e =? i) && (colind e =? j) then value e else dval l i j.
  Proof. unfold dval. rewrite fold_left_app. reflexivity. Qed.
  Definition vinv (bl : list (nat * nat)) (m : nat) (v : list F) : Prop :=
    length v = length bl * bs * bs /\ forall k x y p q, bl !! k = Some (x, y) -> p < bs -> q < bs ->
      v !! (k * (bs * bs) + lay so bs p q) = Some (dval (take m es) (x * bs + p) (y * bs + q)).
  Definition step2 (bp cs : list nat) (irow j : nat) (e : entry F) (vals : list F) : res (list F) :=
    let curbrow := irow / bs in
    let curcol := colind e in
    let curbcol := curcol / bs in
    let offset := match so with
      | RowMajor => (irow - curbrow * bs) * bs + (curcol - curbcol * bs)
      | ColMajor => (curcol - curbcol * bs) * bs + (irow - curbrow * bs) end in
    let! s := get bp curbrow in
    let! e' := get bp (curbrow + 1) in
    let! bcptr := if e' <? s then UB else find_from curbcol (e' - s) s cs in
    match bcptr with
    | None => Throw "abort"
    | Some b => set vals (b * bs * bs + offset) (value e)
    end.
  Lemma sep_mono bl a a' i : sep bl i a -> sep bl (i + 1) a' -> a <= a'.
  Proof.
    intros [L1 H1] [L2 H2]. destruct (decide (a = 0)) as [|Hne]; [lia|].
    destruct (lookup_lt_is_Some_2 bl (a - 1)) as [[x y] Exy]; [lia|]. specialize (H1 _ _ _ Exy). specialize (H2 _ _ _ Exy). lia.
  Qed.
  Lemma step2_spec bl bp m e v : NoDup bl -> listed (length es) bl -> ptrs_ok bl bp -> es !! m = Some e -> vinv bl m v ->
    ok (step2 bp (snd <$> bl) (rowind e) m e v) (vinv bl (m + 1)).
  Proof.
    intros Hnd Hl [Lp Hp] He [Lv Hv]. unfold step2.
    destruct (co_row c Hc _ _ He) as [Hr Hcl]. rewrite Hnr in Hr. rewrite Hnc in Hcl.
    set (b := rowind e / bs). set (cc := colind e / bs).
    assert (b < N) as Hb by (apply bsdiv; lia).
    destruct (Hp b ltac:(lia)) as (a & Ea & Hsa). destruct (Hp (b + 1) ltac:(lia)) as (a1 & Ea1 & Hsa1).
    eapply ok_bind; [eapply ok_get; [exact Ea|exact eq_refl]|]. intros ? <-.
    eapply ok_bind; [eapply ok_get; [exact Ea1|exact eq_refl]|]. intros ? <-.
    pose proof (sep_mono bl a a1 b Hsa Hsa1) as Hle. destruct (Nat.ltb_spec a1 a) as [|_]; [lia|].
    eapply ok_bind; [apply find_from_spec; rewrite fmap_length; destruct Hsa1; lia|]. intros it Hit.
    assert ((b, cc) ∈ bl) as Hin.
    { apply Hl. exists m, e. split; [apply lookup_lt_Some in He; exact He|auto]. }
    destruct it as [k|].
    2:{ exfalso. apply elem_of_list_lookup in Hin as [k Hk]. apply (Hit k).
        - destruct Hsa as [_ Hsa], Hsa1 as [_ Hsa1]. specialize (Hsa k b cc Hk). specialize (Hsa1 k b cc Hk). lia.
        - rewrite list_lookup_fmap, Hk. reflexivity. }
    destruct Hit as [Hka Hk]. apply list_lookup_fmap_inv in Hk as ([x y] & Ey & Hk). simpl in Ey. subst y.
    assert (x = b) as ->.
    { destruct Hsa as [_ Hsa], Hsa1 as [_ Hsa1]. specialize (Hsa k x cc Hk). specialize (Hsa1 k x cc Hk). lia. }
    pose proof (Nat.div_mod (rowind e) bs ltac:(lia)) as Er. pose proof (Nat.div_mod (colind e) bs ltac:(lia)) as Ec.
    fold b in Er. fold cc in Ec.
    pose proof (Nat.mod_upper_bound (rowind e) bs ltac:(lia)) as Hp0. pose proof (Nat.mod_upper_bound (colind e) bs ltac:(lia)) as Hq0.
    set (p0 := rowind e mod bs) in *. set (q0 := colind e mod bs) in *.
    assert (match so with
      | RowMajor => (rowind e - b * bs) * bs + (colind e - cc * bs)
      | ColMajor => (colind e - cc * bs) * bs + (rowind e - b * bs) end = lay so bs p0 q0) as ->.
    { replace (rowind e - b * bs) with p0 by nia. replace (colind e - cc * bs) with q0 by nia. destruct so; reflexivity. }
    replace (k * bs * bs + lay so bs p0 q0) with (k * (bs * bs) + lay so bs p0 q0) by nia.
    pose proof (lookup_lt_Some _ _ _ Hk) as Hkl. pose proof (lay_lt so bs p0 q0 Hp0 Hq0) as Hlay.
    assert (k * (bs * bs) + lay so bs p0 q0 < length v) as Hlen by (rewrite Lv; nia).
    apply ok_set; [exact Hlen|]. split; [rewrite insert_length; exact Lv|]. intros k' x' y' p q Hk' Hpb Hqb.
    rewrite Nat.add_1_r, (take_S_r es m e He), dval_snoc.
    destruct (decide (k = k' /\ p0 = p /\ q0 = q)) as [(<- & <- & <-)|Hne].
    - assert (x' = b /\ y' = cc) as [-> ->] by (rewrite Hk in Hk'; injection Hk'; auto).
      rewrite list_lookup_insert by exact Hlen. replace (rowind e =? b * bs + p0) with true by (symmetry; apply Nat.eqb_eq; lia).
      replace (colind e =? cc * bs + q0) with true by (symmetry; apply Nat.eqb_eq; lia). reflexivity.
    - pose proof (lay_lt so bs p q Hpb Hqb) as Hlay'. rewrite list_lookup_insert_ne.
      2:{ intros E. apply flat_eq in E as [<- E]; [|assumption..]. apply lay_inj in E; tauto. }
      rewrite (Hv k' x' y' p q Hk' Hpb Hqb). f_equal.
      destruct (Nat.eqb_spec (rowind e) (x' * bs + p)) as [E1|]; [|reflexivity].
      destruct (Nat.eqb_spec (colind e) (y' * bs + q)) as [E2|]; [|reflexivity]. exfalso. apply Hne.
      replace (rowind e) with (b * bs + p0) in E1 by nia. replace (colind e) with (cc * bs + q0) in E2 by nia.
      apply flat_eq in E1 as [<- <-]; [|assumption..]. apply flat_eq in E2 as [<- <-]; [|assumption..].
      split; [|auto]. apply (NoDup_lookup bl k k' (b, cc) Hnd Hk Hk').
  Qed.

  Lemma convertToBSR_first gp gi gv gd : (es = [] \/ exists k e, es !! k = Some e /\ rowind e < bs) ->
    ok (convertToBSR so bs gp gi gv gd c) (fun '(M, d) => exists bl, (NoDup bl /\ firsts bl) /\ listed (length es) bl /\ nbrows M = N /\
      ptrs_ok bl (browptr M) /\ bcolind M = snd <$> bl /\ vinv bl (length es) (vals M) /\ wf_end M /\
      nnzb M = length bl /\ nbstored M = length bl /\ diagind M = Z.to_nat <$> d /\ length d = N /\
      forall b, b < N -> (forall k, bl !! k = Some (b, b) -> d !! b = Some (Z.of_nat k)) /\ ((b, b) ∉ bl -> d !! b = Some (-1)%Z)).
  Proof.
    intros Hfirst. unfold convertToBSR. assert (nrows c / bs = N) as -> by (rewrite Hnr; apply Nat.div_mul; lia).
    eapply ok_bind with (P := fun d => d = replicate N (-1)%Z).
    { apply (ok_fill _ N (fun _ => Ok (-1)%Z) (fun _ => (-1)%Z)); [apply alloc_length|reflexivity|].
      apply list_eq_lt; [rewrite fmap_length, seq_length, replicate_length; reflexivity|]. intros k Hk.
      rewrite fmap_length, seq_length in Hk. rewrite list_lookup_fmap, lookup_seq_lt, lookup_replicate_2 by exact Hk. reflexivity. }
    intros ? ->.
    eapply ok_bind with (P := fun p => p = replicate (N + 1) 0).
    { apply (ok_fill _ (N + 1) (fun _ => Ok 0) (fun _ => 0)); [apply alloc_length|reflexivity|].
      apply list_eq_lt; [rewrite fmap_length, seq_length, replicate_length; reflexivity|]. intros k Hk.
      rewrite fmap_length, seq_length in Hk. rewrite list_lookup_fmap, lookup_seq_lt, lookup_replicate_2 by exact Hk. reflexivity. }
    intros ? ->.
    eapply ok_bind with (P := binv (length es)).
    { eapply (ok_entries c Hc) with (I := binv) (body := step1).
      - exists []. split; [reflexivity|]. split; [split; [constructor|intros ? ? ? ? ? ? _ Hno; discriminate Hno]|]. split.
        + intros b cc. split; [intros H; apply elem_of_nil in H as []|intros (k & e & Hk & _); lia].
        + rewrite !replicate_length. split; [reflexivity|]. split; [reflexivity|]. split; [reflexivity|]. intros b Hb. split.
          * right. rewrite !lookup_replicate_2 by lia. split; [reflexivity|]. split; [reflexivity|]. intros cc H. apply elem_of_nil in H as [].
          * split; [intros k Hk; rewrite lookup_nil in Hk; discriminate|]. intros _. apply lookup_replicate_2, Hb.
      - intros k e s He _ _ HI. apply step1_spec; assumption.
      - auto. }
    intros [[[bp d] cs] tl] (bl & -> & [Hnd Hfs] & Hl & Lp & Lt & Ld & H). rewrite fmap_length.
    rewrite <- (bind_assoc (set bp N (length bl))).
    eapply ok_bind; [apply (fix_spec bl bp)|].
    - intros x y Hin. apply (listed_lt _ _ _ _ Hl Hin).
    - intros k e He. exists (rowind e / bs), (colind e / bs). split; [|reflexivity]. apply Hl. exists k, e. split; [apply lookup_lt_Some in He; exact He|auto].
    - exact Hfirst.
    - intros E. destruct bl as [|[x y] bl']; [reflexivity|]. exfalso. assert ((x, y) ∈ (x, y) :: bl') as Hin by constructor.
      apply Hl in Hin as (k & e & Hk & He & _). rewrite E in He. rewrite lookup_nil in He. discriminate.
    - exact Lp.
    - intros b Hb. destruct (H b Hb) as [[(_ & Ha & _)|(_ & Ha & Hno)] _]; auto.
    - intros bp' Hbp'.
      eapply ok_bind with (P := fun v => v = replicate (length bl * bs * bs) s0).
      { apply (ok_fill _ (length bl * bs * bs) (fun _ => Ok s0) (fun _ => s0)); [apply alloc_length|reflexivity|].
        apply list_eq_lt; [rewrite fmap_length, seq_length, replicate_length; reflexivity|]. intros k Hk.
        rewrite fmap_length, seq_length in Hk. rewrite list_lookup_fmap, lookup_seq_lt, lookup_replicate_2 by exact Hk. reflexivity. }
      intros ? ->.
      eapply ok_bind with (P := fun x => x = snd <$> bl).
      { eapply ok_fill with (h := fun i => (snd <$> bl) !!! i); [apply alloc_length| |].
        - intros i Hi. apply get_Some. apply list_lookup_lookup_total_lt. rewrite fmap_length. exact Hi.
        - apply list_eq_lt; [rewrite !fmap_length, seq_length; reflexivity|]. intros k Hk. rewrite fmap_length, seq_length in Hk.
          rewrite (list_lookup_fmap _ (seq 0 _)), lookup_seq_lt by exact Hk. simpl. symmetry. apply list_lookup_lookup_total_lt. rewrite fmap_length. exact Hk. }
      intros ? ->.
      eapply ok_bind with (P := vinv bl (length es)).
      { eapply (ok_entries c Hc) with (I := vinv bl) (body := step2 bp' (snd <$> bl)).
        - split; [apply replicate_length|]. intros k x y p q Hk Hp Hq. pose proof (lookup_lt_Some _ _ _ Hk). pose proof (lay_lt so bs p q Hp Hq).
          rewrite lookup_replicate_2 by nia. reflexivity.
        - intros k e v He _ _ HI. apply step2_spec; auto.
        - auto. }
      intros v Hv. simpl. exists bl. destruct Hbp' as [Lp' Hp'].
      split; [split; [exact Hnd|exact Hfs]|]. split; [exact Hl|]. split; [reflexivity|]. split; [split; assumption|]. split; [reflexivity|]. split; [exact Hv|]. split.
      { split; simpl.
        - rewrite take_length, drop_length, Lp'. lia.
        - intros i Hi. rewrite lookup_take, lookup_drop by exact Hi. unfold rp. cbn [browptr]. rewrite (Nat.add_comm i 1).
          apply list_lookup_lookup_total_lt. lia. }
      split; [reflexivity|]. split; [reflexivity|]. split; [reflexivity|]. split; [exact Ld|]. intros b Hb. apply (H b Hb).
  Qed.
  Lemma convertToBSR_spec gp gi gv gd : (es = [] \/ exists k e, es !! k = Some e /\ rowind e < bs) ->
    ok (convertToBSR so bs gp gi gv gd c) (fun '(M, d) => exists bl, NoDup bl /\ listed (length es) bl /\ nbrows M = N /\
      ptrs_ok bl (browptr M) /\ bcolind M = snd <$> bl /\ vinv bl (length es) (vals M) /\ wf_end M /\
      nnzb M = length bl /\ nbstored M = length bl /\ diagind M = Z.to_nat <$> d /\ length d = N /\
      forall b, b < N -> (forall k, bl !! k = Some (b, b) -> d !! b = Some (Z.of_nat k)) /\ ((b, b) ∉ bl -> d !! b = Some (-1)%Z)).
  Proof. intros H. eapply ok_mono; [apply convertToBSR_first, H|]. intros [M d] (bl & [H1 _] & H2). exists bl. auto. Qed.
End BSR.
