(** * ColMatRing: the column-storage product and the backward Gauss-Seidel solve over a ring *)
From Verif Require Import Base Alg SRMatrix Nd Matvec MatvecFacts MatvecMain KernelFacts TriSpec TriFacts Sgs SgsForms SgsMain Reorder ReorderFacts ColMat ColMatFacts ColMatMain Own.
From Coq Require Import ZArith.
Open Scope nat_scope.

(** The number in row [I], column [J] of a column-stored matrix *)
Definition cdense {F} {O : SOps F} so bs (C : bscmat F) (I J : nat) : F :=
  match pos (as_sr C) (J / bs) (I / bs) with Some k => bent so bs (cvals C) k (I mod bs) (J mod bs) | None => s0 end.
Lemma stored_cdense {F} {O : SOps F} so bs (C : bscmat F) (M : srmat F) I J : 0 < bs ->
  stored bs (as_sr C) (J / bs) (I / bs) = stored bs M (I / bs) (J / bs) -> cdense so bs C I J = bdense so bs M I J.
Proof.
  intros Hb. unfold stored, cdense, bdense.
  assert (forall v k, bent so bs v k (I mod bs) (J mod bs) = default s0 (take (bs * bs) (drop (k * (bs * bs)) v) !! lay so bs (I mod bs) (J mod bs))) as Hbent.
  { intros v k. unfold bent. rewrite lookup_take, lookup_drop; [reflexivity|]. apply lay_lt; apply Nat.mod_upper_bound; lia. }
  destruct (pos (as_sr C) _ _) as [k|], (pos M _ _) as [k'|]; simpl; intros H; try discriminate; [|reflexivity].
  injection H as H. rewrite !Hbent, H. reflexivity.
Qed.

Section Product.
  Context {F : Type} {O : SOps F} {R : CRing F}.
  Add Ring Fr : cring.
  Local Open Scope s_scope.
  Variables (so : storage) (bs : nat) (C : bscmat F) (a : F) (x : list F).
  Notation T := (as_sr C).
  Notation n := (nbcols C).
  Hypothesis Hw : wf_pat T.
  Hypothesis Hn : wf_nodup T.
  Hypothesis Hv : length (cvals C) = (nnz T * (bs * bs))%nat.
  Hypothesis Hx : length x = (n * bs)%nat.

  Definition cval (j ii kb : nat) : F := a * bsum bs (fun q => bent so bs (cvals C) ii kb q * vat x (j * bs + q)).
  Lemma blk_times_seg_gen ii c : (ii < nnz T)%nat -> (c < n)%nat ->
    ok (blk_times_seg so bs (fun v => a * v) (cvals C) x ii c) (fun t => t = (cval c ii) <$> seq 0 bs).
  Proof.
    intros Hi Hc. eapply ok_mono; [apply ok_mapr with (Q := fun p t => t = cval c ii p)|].
    - intros p p' Hp. apply lookup_seq in Hp as [-> Hp].
      eapply ok_for_post with (I := fun q acc => acc = bsum q (fun q => a * bent so bs (cvals C) ii p q * vat x (c * bs + q))).
      + lia.
      + reflexivity.
      + intros q acc Hq ->. cbn [Nat.add]. pose proof (lay_lt so bs p q Hp ltac:(lia)).
        assert (ii * (bs * bs) + lay so bs p q < length (cvals C))%nat by nia.
        rewrite vat_get by assumption. cbn [bind]. rewrite vat_get by (rewrite Hx; nia). cbn [bind].
        replace (q + 1)%nat with (S q) by lia. reflexivity.
      + intros t ->. unfold cval. rewrite <- bsum_mul_l. apply bsum_ext. intros. ring.
    - intros t [Hl Ht]. rewrite seq_length in Hl. apply list_eq_lt; [rewrite fmap_length, seq_length; exact Hl|].
      intros p Hp. rewrite list_lookup_fmap, lookup_seq_lt by lia. simpl.
      destruct (lookup_lt_is_Some_2 t p) as [v E]; [lia|]. rewrite E. f_equal. apply Ht, E.
  Qed.
  Definition good_upd (u : nat * nat * nat) : Prop := let '(j, ii, kb) := u in inrow T j ii /\ (kb < bs)%nat.
  Definition utgt (I : nat) (u : nat * nat * nat) : F := let '(j, ii, kb) := u in if decide (col T ii * bs + kb = I)%nat then cval j ii kb else s0.
  Definition step : nat * nat * nat -> list F -> res (list F) := fun '(jcol, ii, kb) z =>
      let! irow := get (browind C) ii in
      let! inter := blk_times_seg so bs (fun v => a * v)%s (cvals C) x ii jcol in
      let! t := get inter kb in
      let! zi := get z (irow * bs + kb) in
      set z (irow * bs + kb) (zi + t)%s.
  Lemma doall_spec l : forall z, length z = (n * bs)%nat -> (forall u, u ∈ l -> good_upd u) ->
    ok (doall l step z) (fun z' => length z' = (n * bs)%nat /\ forall I, (I < n * bs)%nat -> vat z' I = vat z I + lsum (utgt I) l).
  Proof.
    induction l as [|[[j ii] kb] l IH]; intros z Hz Hg.
    - simpl. split; [exact Hz|]. intros. ring.
    - destruct (Hg (j, ii, kb) ltac:(constructor)) as [Hin Hkb]. pose proof (inrow_lt T j ii Hw Hin) as Hlt.
      pose proof (wf_col T Hw ii Hlt) as Hcol. simpl in Hcol.
      eapply ok_bind with (P := fun z1 => z1 = <[(col T ii * bs + kb)%nat := vat z (col T ii * bs + kb) + cval j ii kb]> z).
      { unfold step. eapply ok_bind; [eapply ok_get; [apply (wf_bcolind T _ Hw); exact Hlt|exact eq_refl]|]. intros ? <-.
        eapply ok_bind; [apply blk_times_seg_gen; [exact Hlt|apply Hin]|]. intros ? ->.
        assert (get (cval j ii <$> seq 0 bs) kb = Ok (cval j ii kb)) as ->.
        { apply get_Some. rewrite list_lookup_fmap, lookup_seq_lt by lia. reflexivity. }
        cbn [bind]. rewrite vat_get by nia. cbn [bind]. apply ok_set; [nia|]. reflexivity. }
      intros ? ->. eapply ok_mono; [apply IH|].
      + rewrite insert_length. exact Hz.
      + intros u Hu. apply Hg. constructor. exact Hu.
      + intros z' [Hl H]. split; [exact Hl|]. intros I HI. rewrite (H I HI). cbn [lsum]. simpl.
        destruct (decide (col T ii * bs + kb = I)%nat) as [<-|Hne].
        * rewrite (vat_eq _ _ (vat z (col T ii * bs + kb) + cval j ii kb)) by (apply list_lookup_insert; nia). ring.
        * unfold vat at 1. rewrite list_lookup_insert_ne by exact Hne. fold (vat z I). ring.
  Qed.
  Definition upds : list (nat * nat * nat) :=
    concat ((fun j => concat ((fun ii => (fun kb => (j, ii, kb)) <$> seq 0 bs) <$> range (rp T j) (rp T (j + 1)))) <$> seq 0 n).
  Lemma updates_spec : updates bs C = Ok upds.
  Proof.
    unfold updates. enough (ok (mapr (fun jcol =>
      let! lo := get (bcolptr C) jcol in
      let! hi := get (bcolptr C) (jcol + 1) in
      Ok (concat ((fun ii => (fun kb => (jcol, ii, kb)) <$> seq 0 bs) <$> range lo hi))) (seq 0 n))
      (fun l => l = (fun j => concat ((fun ii => (fun kb => (j, ii, kb)) <$> seq 0 bs) <$> range (rp T j) (rp T (j + 1)))) <$> seq 0 n)) as H.
    { apply ok_inv in H as (l & -> & ->). reflexivity. }
    eapply ok_mono; [apply ok_mapr with (Q := fun j l => l = concat ((fun ii => (fun kb => (j, ii, kb)) <$> seq 0 bs) <$> range (rp T j) (rp T (j + 1))))|].
    - intros k j Hj. apply lookup_seq in Hj as [-> Hj].
      eapply ok_bind; [eapply ok_get; [apply (wf_browptr T _ Hw); simpl; lia|exact eq_refl]|]. intros ? <-.
      eapply ok_bind; [eapply ok_get; [apply (wf_browptr T _ Hw); simpl; lia|exact eq_refl]|]. intros ? <-. reflexivity.
    - intros l [Hl H]. rewrite seq_length in Hl. apply list_eq_lt; [rewrite fmap_length, seq_length; exact Hl|].
      intros j Hj. destruct (lookup_lt_is_Some_2 l j Hj) as [v E]. rewrite E, list_lookup_fmap, lookup_seq_lt by lia. simpl. f_equal. apply (H j v E).
  Qed.
  Lemma elem_of_concat {B} (u : B) ls : u ∈ concat ls <-> exists l, u ∈ l /\ l ∈ ls.
  Proof.
    rewrite elem_of_list_In, in_concat. split; intros (l & H1 & H2); exists l; rewrite ?elem_of_list_In in *; auto.
  Qed.
  Lemma upds_good u : u ∈ upds -> good_upd u.
  Proof.
    unfold upds. rewrite elem_of_concat. intros (l & Hu & Hl). apply elem_of_list_fmap in Hl as (j & -> & Hj).
    apply elem_of_concat in Hu as (l & Hu & Hl). apply elem_of_list_fmap in Hl as (ii & -> & Hii).
    apply elem_of_list_fmap in Hu as (kb & -> & Hkb). apply elem_of_range in Hii. apply elem_of_seq in Hj, Hkb.
    split; [split; simpl; lia|lia].
  Qed.
  Lemma lsum_concat {A} (f : A -> F) ls : lsum f (concat ls) = lsum (fun l => lsum f l) ls.
  Proof. induction ls as [|l ls IH]; simpl; [reflexivity|]. rewrite lsum_app, IH. reflexivity. Qed.
  Lemma lsum_fmap {A B} (f : B -> F) (g : A -> B) l : lsum f (g <$> l) = lsum (fun a => f (g a)) l.
  Proof. induction l as [|a' l IH]; simpl; [reflexivity|]. f_equal. exact IH. Qed.
  Lemma lsum_seq (f : nat -> F) m : lsum f (seq 0 m) = bsum m f.
  Proof.
    induction m as [|m IH]; [reflexivity|]. replace (S m) with (m + 1)%nat at 1 by lia. rewrite seq_app, lsum_app, IH. simpl. ring.
  Qed.
  Lemma cdense_flat i p j q : (p < bs)%nat -> (q < bs)%nat ->
    cdense so bs C (i * bs + p) (j * bs + q) = match pos T j i with Some k => bent so bs (cvals C) k p q | None => s0 end.
  Proof. intros Hp Hq. unfold cdense. rewrite !flat_div, !flat_mod by done. reflexivity. Qed.
  Lemma upds_sum i p : (i < n)%nat -> (p < bs)%nat ->
    lsum (utgt (i * bs + p)) upds = a * bsum (n * bs) (fun J => cdense so bs C (i * bs + p) J * vat x J).
  Proof.
    intros Hi Hp. unfold upds. rewrite lsum_concat, lsum_fmap, lsum_seq, bsum_flat, <- bsum_mul_l.
    apply bsum_ext. intros j Hj. rewrite lsum_concat, lsum_fmap.
    rewrite (lsum_ext _ (fun ii => if decide (col T ii = i) then cval j ii p else s0)).
    2: { intros ii _. rewrite lsum_fmap, lsum_seq. destruct (decide (col T ii = i)) as [<-|Hne].
      - rewrite (bsum_single bs p); [simpl; rewrite decide_True by reflexivity; reflexivity|exact Hp|].
        intros kb Hkb Hk. simpl. apply decide_False. lia.
      - apply bsum_zero. intros kb Hkb. simpl. apply decide_False. intros E. apply flat_eq in E; tauto. }
    rewrite (row_sum T j _ _ (fun _ => True)); auto; [|intros k [_ Hk]; tauto].
    simpl nbrows. rewrite (bsum_single n i).
    - rewrite decide_True by done. destruct (pos T j i) as [k|] eqn:E.
      + apply pos_Some in E as E'; [|exact Hj]. rewrite decide_True by apply E'. unfold cval. f_equal.
        apply bsum_ext. intros q Hq. rewrite cdense_flat, E by done. reflexivity.
      + rewrite bsum_zero; [ring|]. intros q Hq. rewrite cdense_flat, E by done. ring.
    - exact Hi.
    - intros c Hc Hci. rewrite decide_True by done. destruct (pos T j c) as [k|] eqn:E; [|reflexivity].
      apply pos_Some in E as E'; [|exact Hj]. rewrite decide_False; [reflexivity|]. destruct E' as [_ ->]. exact Hci.
  Qed.
  Lemma bcsc_gemv3_spec b y z : length z = (n * bs)%nat -> length (arg_y y z) = (n * bs)%nat ->
    nok (bcsc_gemv3 so bs C a x b y z) (fun z' => length z' = (n * bs)%nat /\ forall I, (I < n * bs)%nat ->
      vat z' I = a * bsum (n * bs) (fun J => cdense so bs C I J * vat x J) + b * vat (arg_y y z) I).
  Proof.
    intros Hz Hy. unfold bcsc_gemv3.
    eapply nok_bind with (P := fun z1 => length z1 = (n * bs)%nat /\ forall I, (I < n * bs)%nat -> vat z1 I = b * vat (arg_y y z) I).
    { apply nok_par_for_map with (g := fun i => b * vat (arg_y y z) i).
      - lia.
      - intros i s Hi Hs Hsi.
        assert (arg_y y s !! i = Some (vat (arg_y y z) i)) as E.
        { rewrite <- vat_Some by lia. destruct y; [reflexivity|]. exact Hsi. }
        apply get_Some in E. rewrite E. cbn [bind]. apply set_Ok. lia.
      - intros s' Hs' Hin _. split; [lia|]. intros i Hi. apply vat_eq, Hin. lia. }
    intros z1 [Hz1 H1]. rewrite updates_spec.
    eapply nok_bind; [apply nok_lift; exact eq_refl|]. intros ? <-.
    assert (forall l, l ≡ₚ upds -> ok (doall l step z1) (fun z' => length z' = (n * bs)%nat /\ forall I, (I < n * bs)%nat ->
      vat z' I = a * bsum (n * bs) (fun J => cdense so bs C I J * vat x J) + b * vat (arg_y y z) I)) as Hall.
    { intros l Hp. eapply ok_mono; [apply doall_spec; [exact Hz1|]|].
      - intros u Hu. apply upds_good. rewrite <- Hp. exact Hu.
      - intros z' [Hl H]. split; [exact Hl|]. intros I HI. rewrite (H I HI), (lsum_perm _ _ _ Hp), (H1 I HI).
        destruct (unflat bs n I HI) as (i & p & -> & Hi & Hp'). rewrite upds_sum by done. ring. }
    split.
    - exists (doall upds step z1), upds. split; reflexivity.
    - intros o (l & Hp & ->). apply Hall, Hp.
  Qed.
End Product.

(** ** Backward Gauss-Seidel *)
Section BGS.
  Context {F : Type} {O : SOps F} {R : CRing F}.
  Add Ring Fr2 : cring.
  Local Open Scope s_scope.
  Variables (C : bscmat F) (db rr : list F).
  Notation T := (as_sr C).
  Notation n := (nbcols C).
  Hypothesis Hw : wf_pat T.
  Hypothesis Hs : wf_sorted T.
  Hypothesis Hv : length (cvals C) = nnz T.
  Hypothesis Hdb : length db = n.
  Hypothesis Hrr : length rr = n.
  Hypothesis Hdg : forall j, (j < n)%nat -> exists d, pos T j j = Some d /\ cdiagind C !! j = Some (Z.of_nat d).
  Notation A := (fun i j => dense T j i).

  Lemma lsum_one (f : nat -> F) u : lsum f [u] = f u. Proof. simpl. ring. Qed.
  (** the solution, column [j] and later ones being done *)
  Definition binv (j : nat) (st : list F * list F) : Prop := let '(temp, zz) := st in
    length temp = n /\ length zz = n /\
    (forall i, (i < j)%nat -> vat temp i = vat rr i * vat db i - bsum n (fun c => if decide (j <= c)%nat then A i c * vat zz c * vat db i else s0)) /\
    (forall i, (j <= i < n)%nat -> vat zz i = vat rr i * vat db i - bsum n (fun c => if decide (i < c)%nat then A i c * vat zz c * vat db i else s0)).
  Lemma column_step j temp zz : (j < n)%nat -> binv (j + 1) (temp, zz) -> ok (csc_bgs_column C db j (temp, zz)) (binv j).
  Proof.
    intros Hj (L1 & L2 & H1 & H2). unfold csc_bgs_column.
    rewrite vat_get by lia. cbn [bind]. rewrite set_Ok by lia. cbn [bind].
    destruct (Hdg j Hj) as (d & Hd & Ed). apply pos_Some in Hd as Hd'; [|exact Hj]. destruct Hd' as [Hdin Hdcol].
    eapply ok_bind; [eapply ok_get; [exact Ed|exact eq_refl]|]. intros ? <-.
    eapply ok_bind; [eapply ok_get; [apply (wf_browptr T j Hw); simpl; lia|exact eq_refl]|]. intros ? <-. rewrite Nat2Z.id.
    set (zz1 := <[j:=vat temp j]> zz).
    assert (length zz1 = n) as L3 by (unfold zz1; rewrite insert_length; exact L2).
    assert (vat zz1 j = vat temp j) as Ezj by (apply vat_eq, list_lookup_insert; lia).
    assert (forall c, c <> j -> vat zz1 c = vat zz c) as Ezo by (intros c Hc; unfold vat, zz1; rewrite list_lookup_insert_ne by auto; reflexivity).
    assert (forall x, (rp T j <= x < d)%nat -> inrow T j x /\ (x < nnz T)%nat /\ (col T x < j)%nat) as Hbef.
    { intros x Hx. assert (inrow T j x) as Hin by (split; [exact Hj|]; destruct Hdin; lia).
      split; [exact Hin|]. split; [apply (inrow_lt T j x Hw Hin)|]. rewrite <- Hdcol. apply (Hs j); [exact Hj|lia|lia|apply Hdin]. }
    eapply ok_bind with (P := fun temp' => length temp' = n /\ forall i, (i < n)%nat ->
      vat temp' i = vat temp i - lsum (fun ii => if decide (col T ii = i) then vat (cvals C) ii * vat zz1 j * vat db i else s0) (range (rp T j) d)).
    { eapply ok_mono; [apply ok_forl with (I := fun l temp' => length temp' = n /\ forall i, (i < n)%nat ->
        vat temp' i = vat temp i - lsum (fun ii => if decide (col T ii = i) then vat (cvals C) ii * vat zz1 j * vat db i else s0) l)|].
      - split; [exact L1|]. intros i Hi. simpl. ring.
      - intros dn ii rest t' E [Lt Ht]. assert (ii ∈ rev (range (rp T j) d)) as Hii by (rewrite E; apply elem_of_app; right; constructor).
        rewrite <- Permutation_rev in Hii. apply elem_of_range in Hii. destruct (Hbef ii Hii) as (Hin & Hlt & Hcol).
        eapply ok_bind; [eapply ok_get; [apply (wf_bcolind T ii Hw Hlt)|exact eq_refl]|]. intros ? <-.
        rewrite vat_get by lia. cbn [bind]. rewrite vat_get by lia. cbn [bind]. rewrite vat_get by lia. cbn [bind]. rewrite vat_get by lia. cbn [bind].
        apply ok_set; [lia|]. split; [rewrite insert_length; exact Lt|]. intros i Hi. rewrite lsum_app, lsum_one. cbv beta.
        destruct (decide (col T ii = i)) as [<-|Hne].
        + rewrite (vat_eq _ _ (vat t' (col T ii) - vat (cvals C) ii * vat zz1 j * vat db (col T ii))) by (apply list_lookup_insert; lia). rewrite Ht by lia. ring.
        + unfold vat at 1. rewrite list_lookup_insert_ne by exact Hne. fold (vat t' i). rewrite Ht by exact Hi. ring.
      - intros t' [Lt Ht]. split; [exact Lt|]. intros i Hi. rewrite Ht by exact Hi. f_equal. apply lsum_perm. symmetry. apply Permutation_rev. }
    intros temp' [Lt Ht].
    assert (forall i, (i < j)%nat -> vat temp' i = vat temp i - A i j * vat zz1 j * vat db i) as Ht'.
    { intros i Hi. rewrite Ht by lia. f_equal.
      rewrite (row_sum T j _ _ (fun c => c < j)%nat); [|exact Hw|apply sorted_nodup, Hs|exact Hj|lia|destruct Hdin; lia|].
      - simpl nbrows. rewrite (bsum_single n i).
        + rewrite decide_True by exact Hi. unfold dense. destruct (pos T j i) as [k|] eqn:E; [|ring].
          apply pos_Some in E as E'; [|exact Hj]. rewrite decide_True by apply E'. reflexivity.
        + lia.
        + intros c Hc Hci. destruct (decide (c < j)%nat); [|reflexivity]. destruct (pos T j c) as [k|] eqn:E; [|reflexivity].
          apply pos_Some in E as E'; [|exact Hj]. rewrite decide_False; [reflexivity|]. destruct E' as [_ ->]. exact Hci.
      - intros x Hx. split; [intros Hx'; apply Hbef; exact Hx'|]. intros Hc. split; [apply Hx|].
        destruct (decide (x < d)%nat); [assumption|]. exfalso.
        destruct (decide (x = d)) as [->|]; [lia|]. pose proof (Hs j d x Hj ltac:(apply Hdin) ltac:(lia) ltac:(apply Hx)). lia. }
    simpl. split; [exact Lt|]. split; [exact L3|]. split.
    - intros i Hi. rewrite Ht' by exact Hi. rewrite H1 by lia.
      assert (forall X Y Z, Z = X + Y -> vat rr i * vat db i - X - Y = vat rr i * vat db i - Z) as Hr by (intros X Y Z ->; ring). apply Hr. clear Hr.
      rewrite <- (bsum_delta n j (fun c => A i c * vat zz1 c * vat db i)) by exact Hj. rewrite <- bsum_add. apply bsum_ext. intros c Hc.
      destruct (decide (j <= c)%nat), (decide (j + 1 <= c)%nat), (decide (c = j)); try lia; rewrite ?Ezo by lia; ring.
    - intros i Hi. destruct (decide (i = j)) as [->|Hne].
      + rewrite Ezj, H1 by lia. f_equal. apply bsum_ext. intros c Hc.
        destruct (decide (j + 1 <= c)%nat), (decide (j < c)%nat); try lia; rewrite ?Ezo by lia; reflexivity.
      + rewrite Ezo, H2 by lia. f_equal. apply bsum_ext. intros c Hc.
        destruct (decide (i < c)%nat); [rewrite Ezo by lia|]; reflexivity.
  Qed.
  Lemma sweep_spec temp zz : length temp = n -> length zz = n -> (forall i, (i < n)%nat -> vat temp i = vat rr i * vat db i) ->
    ok (forl (rev (seq 0 n)) (csc_bgs_column C db) (temp, zz)) (binv 0).
  Proof.
    intros L1 L2 Ht.
    assert (forall m st, (m <= n)%nat -> binv m st -> ok (forl (rev (seq 0 m)) (csc_bgs_column C db) st) (binv 0)) as H.
    { induction m as [|m IH]; intros st Hm Hst; [exact Hst|].
      replace (S m) with (m + 1)%nat by lia. rewrite seq_app, rev_app_distr. cbn [seq rev app forl Nat.add].
      destruct st as [t z]. eapply ok_bind; [apply column_step; [lia|]|].
      - replace (m + 1)%nat with (S m) by lia. exact Hst.
      - intros st' Hst'. apply IH; [lia|exact Hst']. }
    apply H; [lia|]. split; [exact L1|]. split; [exact L2|]. split; [|intros; lia].
    intros i Hi. rewrite Ht by exact Hi. rewrite bsum_zero; [ring|]. intros c Hc. apply decide_False. lia.
  Qed.
  Lemma apply_spec k temp zz : (1 <= k)%nat -> length temp = n -> length zz = n ->
    nok (csc_bgs_apply C db (one_thread C k) temp rr zz) (fun z => exists t, binv 0 (t, z)).
  Proof.
    intros Hk L1 L2. unfold csc_bgs_apply.
    eapply nok_bind with (P := fun t => length t = n).
    { apply nok_par_for_map with (g := fun _ => s0).
      - lia.
      - intros i s Hi Hl _. apply set_Ok. lia.
      - intros s Hl _ _. lia. }
    clear temp L1. intros temp L1.
    assert (length (one_thread C k) = k) as -> by apply replicate_length.
    eapply nok_bind with (P := binv 0).
    { eapply nok_nfor with (I := fun m st => length st.1 = n /\ length st.2 = n /\ (0 < m -> binv 0 st)%nat).
      - lia.
      - split; [exact L1|]. split; [exact L2|]. lia.
      - intros m [t z] Hm (Lt & Lz & _). simpl in Lt, Lz.
        eapply nok_bind; [apply nok_lift; eapply ok_get; [apply lookup_replicate_2; lia|exact eq_refl]|]. intros ? <-.
        eapply nok_bind with (P := fun t => length t = n /\ forall i, (i < n)%nat -> vat t i = vat rr i * vat db i).
        { apply nok_par_for_map with (g := fun i => vat rr i * vat db i).
          - lia.
          - intros i s Hi Hl _. rewrite !vat_get by lia. cbn [bind]. apply set_Ok. lia.
          - intros s Hl Hin _. split; [lia|]. intros i Hi. apply vat_eq, Hin. lia. }
        intros t' [Lt' Ht']. apply nok_lift. eapply ok_mono; [apply sweep_spec; auto|].
        intros [t2 z2] Hb. split; [apply Hb|]. split; [apply Hb|]. auto.
      - intros [t z] (_ & _ & H). apply H. lia. }
    intros [t z] Hb. apply nok_ret. exists t. exact Hb.
  Qed.
  (** ... is the solution of the triangular system *)
  Lemma binv_solves t z : (forall i, (i < n)%nat -> vat db i * A i i = s1) -> binv 0 (t, z) -> is_prod n (upper A) z rr.
  Proof.
    intros Hd (_ & Lz & _ & H) i Hi. specialize (H i ltac:(lia)). specialize (Hd i Hi).
    rewrite (bsum_ext n _ (fun c => (if decide (c = i) then A i c * vat z c else s0) + (if decide (i < c)%nat then A i c * vat z c else s0))).
    2: { intros c Hc. unfold upper. destruct (decide (i <= c)%nat), (decide (c = i)), (decide (i < c)%nat); try lia; ring. }
    rewrite bsum_add, (bsum_delta n i (fun c => A i c * vat z c)) by exact Hi. rewrite H at 1.
    rewrite (bsum_ext n (fun c => if decide (i < c)%nat then A i c * vat z c * vat db i else s0) (fun c => (if decide (i < c)%nat then A i c * vat z c else s0) * vat db i)).
    2: { intros c Hc. destruct (decide (i < c)%nat); ring. }
    rewrite bsum_mul_r. set (S := bsum n _). cbv beta in *. transitivity ((vat db i * A i i) * (vat rr i - S) + S); [ring|]. rewrite Hd. ring.
  Qed.
End BGS.
