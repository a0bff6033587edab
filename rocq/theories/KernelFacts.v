(** * KernelFacts: safety and values of the row kernels *)
From Verif Require Import Base Alg SRMatrix Async AsyncTheory AsyncSystem Kernels.

Lemma exec_plift {V A} (m : list V) (r : res A) a : r = Ok a -> exec m (plift r) = Ok (a, m).
Proof. intros ->. reflexivity. Qed.

Section PMap.
  Context {V : Type}.
  Lemma wp_pmap {B} rd wr (f : nat -> @P V B) l (Q : nat -> B -> Prop) :
    (forall k a, l !! k = Some a -> wp rd wr (f a) (Q k)) ->
    wp rd wr (pmap f l) (fun bs => length bs = length l /\ forall k b, bs !! k = Some b -> Q k b).
  Proof.
    revert Q. induction l as [|a l IH]; intros Q H; cbn [pmap].
    - split; [reflexivity|]. intros k b Hk. rewrite lookup_nil in Hk. discriminate.
    - apply wp_bind. eapply wp_post; [apply (H 0 a eq_refl)|]. intros b Hb.
      apply wp_bind. eapply wp_post; [apply (IH (fun k => Q (S k))); intros k a' Hk; apply (H (S k) a' Hk)|].
      intros bs [Hl Hk]. split; [simpl; lia|]. intros [|k] b' Hb'; simpl in Hb'.
      + injection Hb' as <-. exact Hb.
      + apply Hk. exact Hb'.
  Qed.
End PMap.

Section Safety.
  Context {F : Type} {O : SOps F}.
  Implicit Types (vals ms : list F) (colind : list nat) (D : nat -> Prop).

  Lemma wp_sdot D vals colind lo hi (init : F) :
    lo <= hi ->
    (forall j, lo <= j < hi -> j < length vals /\ exists c, colind !! j = Some c /\ D c) ->
    wp (fun l _ => D l) nowr (sdot vals colind lo hi init) (fun _ => True).
  Proof.
    intros Hle H. unfold sdot. apply (wp_pfor_post _ _ _ _ _ _ (fun _ _ => True)); auto.
    intros j inter Hj _. destruct (H j Hj) as (Hv & c & Hc & HD).
    apply wp_bind, wp_plift. apply ok_get_lt; [exact Hv|]. intros v _.
    apply wp_bind, wp_plift. eapply ok_get; [exact Hc|].
    apply wp_bind. apply wp_pread; [exists init; exact HD|]. intros x _. exact I.
  Qed.

  Lemma vadd_length (a b : list F) n : length a = n -> length b = n -> length (vadd a b) = n.
  Proof. intros. unfold vadd. rewrite zip_with_length. lia. Qed.
  Lemma vsub_length (a b : list F) n : length a = n -> length b = n -> length (vsub a b) = n.
  Proof. intros. unfold vsub. rewrite zip_with_length. lia. Qed.
  Lemma bzero_length bs : length (bzero (F:=F) bs) = bs.
  Proof. apply replicate_length. Qed.
  Lemma lay_lt so bs p q : p < bs -> q < bs -> lay so bs p q < bs * bs.
  Proof. destruct so; simpl; nia. Qed.

  Lemma ok_bmatvec so bs vals base v :
    base + bs * bs <= length vals -> length v = bs ->
    ok (bmatvec so bs vals base v) (fun u => length u = bs).
  Proof.
    intros Hb Hv. unfold bmatvec. eapply ok_mono.
    - apply (ok_mapr _ _ (fun _ _ => True)). intros k p Hk.
      apply elem_of_list_lookup_2, elem_of_seq in Hk.
      apply (ok_for_post _ _ _ _ (fun _ _ => True)); [lia|auto| |auto].
      intros q acc Hq _. pose proof (lay_lt so bs p q ltac:(lia) ltac:(lia)).
      eapply ok_bind; [apply (ok_get_lt _ _ (fun _ => True)); [lia|auto]|]. intros b _.
      eapply ok_bind; [apply (ok_get_lt _ _ (fun _ => True)); [lia|auto]|]. intros x _. exact I.
    - intros u [Hu _]. rewrite Hu. apply seq_length.
  Qed.
  Lemma ok_getseg bs (v : list F) i :
    i * bs + bs <= length v -> ok (getseg bs v i) (fun u => length u = bs).
  Proof.
    intros H. unfold getseg. eapply ok_mono.
    - apply (ok_mapr _ _ (fun _ _ => True)). intros k p Hk.
      apply elem_of_list_lookup_2, elem_of_seq in Hk. apply ok_get_lt; [lia|auto].
    - intros u [Hu _]. rewrite Hu. apply seq_length.
  Qed.

  Lemma wp_bdot D so bs vals colind lo hi (init : list F) :
    lo <= hi -> length init = bs ->
    (forall j, lo <= j < hi -> (j + 1) * (bs * bs) <= length vals /\
       exists c, colind !! j = Some c /\ forall q, q < bs -> D (c * bs + q)) ->
    wp (fun l _ => D l) nowr (bdot so bs vals colind lo hi init) (fun u => length u = bs).
  Proof.
    intros Hle Hi H. unfold bdot. apply (wp_pfor_post _ _ _ _ _ _ (fun _ u => length u = bs)); auto.
    intros j inter Hj Hint. destruct (H j Hj) as (Hv & c & Hc & HD).
    apply wp_bind, wp_plift. eapply ok_get; [exact Hc|].
    apply wp_bind. eapply wp_post.
    - apply (wp_pmap _ _ _ _ (fun _ _ => True)). intros k p Hk.
      apply elem_of_list_lookup_2, elem_of_seq in Hk.
      apply (wp_pfor_post _ _ _ _ _ _ (fun _ _ => True)); [lia|auto| |auto].
      intros q acc Hq _. pose proof (lay_lt so bs p q ltac:(lia) ltac:(lia)).
      apply wp_bind, wp_plift. apply ok_get_lt; [nia|]. intros b _.
      apply wp_bind. apply wp_pread; [exists acc; apply HD; lia|]. intros x _. exact I.
    - intros u [Hu _]. rewrite seq_length in Hu. simpl. apply vadd_length; auto.
  Qed.
End Safety.

Section Values.
  Context {F : Type} {O : SOps F} {R : CRing F}.
  Add Ring Fr : cring.
  Implicit Types (vals ms : list F) (colind : list nat).
  Open Scope s_scope.

  Lemma lsum_snoc_range f lo j : (lo <= j)%nat -> lsum f (range lo (j + 1)) = lsum f (range lo j) + f j.
  Proof. intros H. rewrite range_snoc by done. rewrite lsum_app. simpl. ring. Qed.
  Lemma range_same lo : range lo lo = [].
  Proof. apply range_nil. lia. Qed.

  Lemma exec_sdot ms vals colind lo hi init :
    (lo <= hi)%nat -> (hi <= length vals)%nat -> (hi <= length colind)%nat ->
    (forall j, (lo <= j < hi)%nat -> (colind !!! j < length ms)%nat) ->
    exec ms (sdot vals colind lo hi init) =
      Ok (init + lsum (fun j => vat vals j * vat ms (colind !!! j)) (range lo hi), ms).
  Proof.
    intros Hle Hv Hc Hm.
    destruct (exec_wp ms (sdot vals colind lo hi init)
      (fun a => a = init + lsum (fun j => vat vals j * vat ms (colind !!! j)) (range lo hi)))
      as (a & He & Ha); [|rewrite He; rewrite Ha; reflexivity].
    unfold sdot.
    apply (wp_pfor_post _ _ _ _ _ _ (fun j a => a = init + lsum (fun j => vat vals j * vat ms (colind !!! j)) (range lo j)));
      [exact Hle| | |auto].
    - rewrite range_same. simpl. ring.
    - intros j inter Hj ->. apply wp_bind, wp_plift.
      eapply ok_get; [apply vat_Some; lia|].
      apply wp_bind, wp_plift. eapply ok_get; [apply list_lookup_lookup_total_lt; lia|].
      apply wp_bind. apply wp_pread; [eexists; apply vat_Some, Hm, Hj|].
      intros x Hx. apply vat_eq in Hx. simpl. rewrite lsum_snoc_range by lia. rewrite Hx. ring.
  Qed.

  Lemma vat_vadd a b p : length a = length b -> vat (vadd a b) p = vat a p + vat b p.
  Proof.
    intros H. unfold vat, vadd. rewrite lookup_zip_with.
    destruct (a !! p) as [x|] eqn:Ea; simpl.
    - destruct (b !! p) as [y|] eqn:Eb; simpl; [reflexivity|].
      apply lookup_lt_Some in Ea. apply lookup_ge_None in Eb. lia.
    - destruct (b !! p) as [y|] eqn:Eb; simpl; [|ring].
      apply lookup_lt_Some in Eb. apply lookup_ge_None in Ea. lia.
  Qed.
  Lemma vat_vsub a b p : length a = length b -> vat (vsub a b) p = vat a p - vat b p.
  Proof.
    intros H. unfold vat, vsub. rewrite lookup_zip_with.
    destruct (a !! p) as [x|] eqn:Ea; simpl.
    - destruct (b !! p) as [y|] eqn:Eb; simpl; [reflexivity|].
      apply lookup_lt_Some in Ea. apply lookup_ge_None in Eb. lia.
    - destruct (b !! p) as [y|] eqn:Eb; simpl; [|ring].
      apply lookup_lt_Some in Eb. apply lookup_ge_None in Ea. lia.
  Qed.
  Lemma vat_bzero bs p : vat (bzero bs) p = s0.
  Proof.
    unfold vat, bzero. destruct (replicate bs s0 !! p) as [x|] eqn:E; [|reflexivity].
    apply lookup_replicate in E as [-> _]. reflexivity.
  Qed.

  Lemma ok_bmatvec_val so bs vals base v :
    (base + bs * bs <= length vals)%nat -> length v = bs ->
    exists u, bmatvec so bs vals base v = Ok u /\ length u = bs /\
      forall p, (p < bs)%nat -> vat u p = bsum bs (fun q => vat vals (base + lay so bs p q) * vat v q).
  Proof.
    intros Hb Hv.
    assert (ok (bmatvec so bs vals base v) (fun u => length u = bs /\
      forall p, (p < bs)%nat -> vat u p = bsum bs (fun q => vat vals (base + lay so bs p q) * vat v q))) as H.
    { unfold bmatvec. eapply ok_mono.
      - apply (ok_mapr _ _ (fun p x => x = bsum bs (fun q => vat vals (base + lay so bs p q) * vat v q))).
        intros k p Hk. pose proof (elem_of_list_lookup_2 _ _ _ Hk) as Hin. apply elem_of_seq in Hin.
        assert (p = k) as ->.
        { apply lookup_seq in Hk. lia. }
        apply (ok_for_post _ _ _ _ (fun q acc => acc = bsum q (fun q => vat vals (base + lay so bs k q) * vat v q)));
          [lia|reflexivity| |auto].
        intros q acc Hq ->. pose proof (lay_lt so bs k q ltac:(lia) ltac:(lia)).
        rewrite vat_get by lia. simpl. rewrite vat_get by lia. simpl.
        replace (q + 1)%nat with (S q) by lia. reflexivity.
      - intros u [Hu Hk]. rewrite seq_length in Hu. split; [exact Hu|].
        intros p Hp. apply Hk. apply vat_Some. lia. }
    apply ok_inv in H as (u & E & Hu). exists u. split; [exact E|exact Hu].
  Qed.
  Lemma getseg_val bs (v : list F) i :
    (i * bs + bs <= length v)%nat ->
    exists u, getseg bs v i = Ok u /\ length u = bs /\ forall p, (p < bs)%nat -> vat u p = vat v (i * bs + p).
  Proof.
    intros H.
    assert (ok (getseg bs v i) (fun u => length u = bs /\ forall p, (p < bs)%nat -> vat u p = vat v (i * bs + p))) as Hok.
    { unfold getseg. eapply ok_mono.
      - apply (ok_mapr _ _ (fun p x => x = vat v (i * bs + p))). intros k p Hk.
        pose proof (elem_of_list_lookup_2 _ _ _ Hk) as Hin. apply elem_of_seq in Hin.
        assert (p = k) as -> by (apply lookup_seq in Hk; lia).
        eapply ok_get; [apply vat_Some; lia|reflexivity].
      - intros u [Hu Hk]. rewrite seq_length in Hu. split; [exact Hu|].
        intros p Hp. apply Hk. apply vat_Some. lia. }
    apply ok_inv in Hok as (u & E & Hu). exists u. split; [exact E|exact Hu].
  Qed.

  Lemma exec_bdot ms so bs vals colind lo hi init :
    (lo <= hi)%nat -> (hi * (bs * bs) <= length vals)%nat -> (hi <= length colind)%nat -> length init = bs ->
    (forall j q, (lo <= j < hi)%nat -> (q < bs)%nat -> (colind !!! j * bs + q < length ms)%nat) ->
    exists u, exec ms (bdot so bs vals colind lo hi init) = Ok (u, ms) /\ length u = bs /\
      forall p, (p < bs)%nat -> vat u p = vat init p +
        lsum (fun j => bsum bs (fun q => bent so bs vals j p q * vat ms (colind !!! j * bs + q))) (range lo hi).
  Proof.
    intros Hle Hv Hc Hi Hm.
    set (f := fun p j => bsum bs (fun q => bent so bs vals j p q * vat ms (colind !!! j * bs + q))).
    destruct (exec_wp ms (bdot so bs vals colind lo hi init)
      (fun a => length a = bs /\ forall p, (p < bs)%nat -> vat a p = vat init p + lsum (f p) (range lo hi)))
      as (a & He & Ha); [|exists a; split; [exact He|exact Ha]].
    unfold bdot.
    apply (wp_pfor_post _ _ _ _ _ _ (fun j a => length a = bs /\ forall p, (p < bs)%nat -> vat a p = vat init p + lsum (f p) (range lo j)));
      [exact Hle| | |auto].
    - split; [exact Hi|]. intros p Hp. rewrite range_same. simpl. ring.
    - intros j inter Hj [Hl Hint].
      apply wp_bind, wp_plift. eapply ok_get; [apply list_lookup_lookup_total_lt; lia|].
      apply wp_bind. eapply wp_post.
      + apply (wp_pmap _ _ _ _ (fun p x => x = f p j)). intros k p Hk.
        pose proof (elem_of_list_lookup_2 _ _ _ Hk) as Hin. apply elem_of_seq in Hin.
        assert (p = k) as -> by (apply lookup_seq in Hk; lia).
        apply (wp_pfor_post _ _ _ _ _ _ (fun q acc => acc = bsum q (fun q => bent so bs vals j k q * vat ms (colind !!! j * bs + q))));
          [lia|reflexivity| |auto].
        intros q acc Hq ->. pose proof (lay_lt so bs k q ltac:(lia) ltac:(lia)).
        apply wp_bind, wp_plift. eapply ok_get; [apply vat_Some; nia|].
        apply wp_bind. apply wp_pread; [eexists; apply vat_Some, Hm; lia|].
        intros x Hx. apply vat_eq in Hx. simpl. replace (q + 1)%nat with (S q) by lia. simpl.
        rewrite Hx. reflexivity.
      + intros u [Hu Hk]. rewrite seq_length in Hu. simpl. split; [apply vadd_length; auto|].
        intros p Hp. rewrite vat_vadd by lia. rewrite (Hint p Hp), lsum_snoc_range by lia.
        rewrite (Hk p (vat u p)) by (apply vat_Some; lia). ring.
  Qed.
End Values.
