(** * PropIluIndex: C90 *)
From Verif Require Import Base Alg SRMatrix Helpers IluPattern IluPatternFacts IluIndex Inst.
From Coq Require Import ZArith.
Open Scope nat_scope.

(** ** Specification: the number of products l_it * u_tj, t < min(i,j), over all stored (i,j) with (i,t) and (t,j) stored *)
Definition products {A} (M : srmat A) : nat :=
  foldr Nat.add 0 ((fun j => length (filter (fun t => is_Some (pos M (rowof M j) t) /\ is_Some (pos M t (col M j)))
    (seq 0 (Nat.min (rowof M j) (col M j))))) <$> seq 0 (nnz M)).

(** ** Loops that agree *)
Lemma for_n_cong {St} (Inv : St -> Prop) (f g : nat -> St -> res St) n : forall i s s1,
  (forall i s s1, Inv s -> f i s = Ok s1 -> g i s = Ok s1 /\ Inv s1) -> Inv s -> for_n n i f s = Ok s1 -> for_n n i g s = Ok s1 /\ Inv s1.
Proof.
  induction n as [|n IH]; intros i s s1 H Hi E; simpl in *; [injection E as <-; auto|].
  apply bind_Ok in E as (s' & E1 & E2). destruct (H _ _ _ Hi E1) as [E3 Hi']. rewrite E3. simpl. apply IH; auto.
Qed.
Lemma kscan_cong {A St} (M : srmat A) (Inv : St -> Prop) (f g : nat -> nat -> St -> res St) b c n : forall k s s1,
  (forall k p s s1, Inv s -> f k p s = Ok s1 -> g k p s = Ok s1 /\ Inv s1) -> Inv s -> kscan M b c f n k s = Ok s1 -> kscan M b c g n k s = Ok s1 /\ Inv s1.
Proof.
  induction n as [|n IH]; intros k s s1 H Hi E; simpl in *; [injection E as <-; auto|].
  apply bind_Ok in E as (ck & E1 & E). rewrite E1. cbn [bind]. destruct (ck <? b); [|injection E as <-; auto].
  apply bind_Ok in E as (lo & E2 & E). rewrite E2. cbn [bind]. apply bind_Ok in E as (hi & E3 & E). rewrite E3. cbn [bind].
  apply bind_Ok in E as (ip & E4 & E). rewrite E4. cbn [bind]. apply bind_Ok in E as (s' & E5 & E).
  destruct ip as [p|].
  - destruct (H _ _ _ _ Hi E5) as [E6 Hi']. rewrite E6. cbn [bind]. apply IH; auto.
  - injection E5 as <-. cbn [bind]. apply IH; auto.
Qed.
Lemma scan_cong {A St} (M : srmat A) (Inv : St -> Prop) (f g : nat -> nat -> St -> res St) i j s s1 :
  (forall k p s s1, Inv s -> f k p s = Ok s1 -> g k p s = Ok s1 /\ Inv s1) -> Inv s -> scan_entry M i j f s = Ok s1 -> scan_entry M i j g s = Ok s1 /\ Inv s1.
Proof.
  intros H Hi E. unfold scan_entry in *. apply bind_Ok in E as (c & E1 & E). rewrite E1. cbn [bind]. apply bind_Ok in E as (rs & E2 & E). rewrite E2. cbn [bind].
  apply bind_Ok in E as (re & E3 & E). rewrite E3. cbn [bind]. destruct (c <? i); revert E; apply kscan_cong; auto.
Qed.
Lemma rows_cong {A St} (M : srmat A) (Inv : St -> Prop) (f g : nat -> nat -> St -> res St) s s1 :
  (forall i j s s1, Inv s -> f i j s = Ok s1 -> g i j s = Ok s1 /\ Inv s1) -> Inv s -> for_rows M f s = Ok s1 -> for_rows M g s = Ok s1 /\ Inv s1.
Proof.
  intros H Hi. unfold for_rows, for_. apply for_n_cong; [|exact Hi]. clear s s1 Hi. intros i s s1 Hi E.
  apply bind_Ok in E as (rs & E1 & E). rewrite E1. cbn [bind]. apply bind_Ok in E as (re & E2 & E). rewrite E2. cbn [bind].
  revert E. apply for_n_cong; auto.
Qed.
Lemma for_n_keepi {St} (P : nat -> St -> Prop) (f : nat -> St -> res St) n : forall i s s1,
  (forall k s s1, i <= k < i + n -> P k s -> f k s = Ok s1 -> P (k + 1) s1) -> P i s -> for_n n i f s = Ok s1 -> P (i + n) s1.
Proof.
  induction n as [|n IH]; intros i s s1 H Hi E; simpl in *; [injection E as <-; rewrite Nat.add_0_r; exact Hi|].
  apply bind_Ok in E as (s' & E1 & E2). replace (i + S n) with (i + 1 + n) by lia. apply (IH (i + 1) s' s1); [|apply (H i s); [lia|exact Hi|exact E1]|exact E2].
  intros k t t1 Hk. apply H. lia.
Qed.
Lemma for_n_two {St} (P : nat -> St -> Prop) (f : nat -> St -> res St) n : forall i s,
  (forall k s, i <= k < i + n -> P k s -> f k s = UB \/ exists s1, f k s = Ok s1 /\ P (k + 1) s1) -> P i s -> for_n n i f s = UB \/ exists s1, for_n n i f s = Ok s1.
Proof.
  induction n as [|n IH]; intros i s H Hi; simpl in *; [eauto|].
  destruct (H i s ltac:(lia) Hi) as [E|(s' & E & Hi')]; rewrite E; simpl; [auto|]. apply IH; [|exact Hi']. intros k t Hk. apply H. lia.
Qed.

Lemma for_n_eqi {St} (P : nat -> St -> Prop) (f g : nat -> St -> res St) n : forall i s,
  (forall k s, i <= k < i + n -> P k s -> f k s = g k s /\ forall s1, g k s = Ok s1 -> P (k + 1) s1) -> P i s -> for_n n i f s = for_n n i g s.
Proof.
  induction n as [|n IH]; intros i s H Hi; simpl in *; [reflexivity|].
  destruct (H i s ltac:(lia) Hi) as [-> Hn]. destruct (g i s) as [s'| | |] eqn:E; try reflexivity. simpl. apply IH; [|apply Hn; reflexivity]. intros k t Hk. apply H. lia.
Qed.

(** ** The running sums *)
Section Scan.
  Context (imax : nat) (v : list nat).
  Definition scanned (i : nat) (v' : list nat) : Prop := length v' = length v /\
    (forall k, k < i -> v' !! k = Some (psum v (k + 1))) /\ (forall k, i <= k -> v' !! k = v !! k) /\ (forall k, 1 <= k < i -> psum v (k + 1) <= imax).
  Lemma scan_step i v' : 1 <= i < length v -> scanned i v' ->
    exists a b, get v' i = Ok a /\ get v' (i - 1) = Ok b /\ a + b = psum v (i + 1) /\ (psum v (i + 1) <= imax -> scanned (i + 1) (<[i := a + b]> v')).
  Proof.
    intros Hi (L & H1 & H2 & H3). destruct (lookup_lt_is_Some_2 v i) as [a Ha]; [lia|]. exists a, (psum v i).
    assert (a + psum v i = psum v (i + 1)) as Es by (rewrite (psum_S v i a Ha); lia).
    split; [apply get_Some; rewrite H2 by lia; exact Ha|]. split; [apply get_Some; rewrite H1 by lia; f_equal; f_equal; lia|]. split; [exact Es|].
    intros Hle. split; [rewrite insert_length; exact L|]. split; [|split].
    - intros k Hk. destruct (decide (i = k)) as [->|Hn]; [rewrite list_lookup_insert, Es by lia; reflexivity|]. rewrite list_lookup_insert_ne by exact Hn. apply H1. lia.
    - intros k Hk. rewrite list_lookup_insert_ne by lia. apply H2. lia.
    - intros k Hk. destruct (decide (k = i)) as [->|]; [exact Hle|]. apply H3. lia.
  Qed.
  Lemma scanned_0 : 0 < length v -> scanned 1 v.
  Proof.
    intros Hl. split; [reflexivity|]. split; [|split; [auto|intros k Hk; lia]]. intros k Hk. replace k with 0 by lia.
    destruct (lookup_lt_is_Some_2 v 0 Hl) as [a Ha]. rewrite (psum_S v 0 a Ha), Ha. reflexivity.
  Qed.
  Lemma scan_fits : 0 < length v -> psum v (length v) <= imax -> inclusive_scan_int imax v = inclusive_scan v.
  Proof.
    intros Hl Hs. unfold inclusive_scan_int, inclusive_scan, for_. apply (for_n_eqi scanned); [|apply scanned_0, Hl].
    intros k s Hk Hi. destruct (scan_step k s ltac:(lia) Hi) as (a & b & E1 & E2 & E3 & Hn). rewrite E1, E2. cbn [bind].
    assert (psum v (k + 1) <= imax) as Hle by (etransitivity; [apply (psum_mono v (k + 1) (length v)); lia|exact Hs]).
    unfold chk. destruct (Nat.leb_spec (a + b) imax); [|lia]. cbn [bind]. split; [reflexivity|]. intros s1 E.
    rewrite set_Ok in E by (destruct Hi as [-> _]; lia). injection E as <-. auto.
  Qed.
  Lemma scan_over : v !! 0 = Some 0 -> imax < psum v (length v) -> inclusive_scan_int imax v = UB.
  Proof.
    intros H0 Hs. pose proof (lookup_lt_Some _ _ _ H0) as Hl. unfold inclusive_scan_int, for_. set (f := fun _ _ => _).
    assert (forall k s, 1 <= k < 1 + (length v - 1) -> scanned k s -> f k s = UB \/ exists s1, f k s = Ok s1 /\ scanned (k + 1) s1) as Hf.
    { intros k s Hk Hi. destruct (scan_step k s ltac:(lia) Hi) as (a & b & E1 & E2 & E3 & Hn). unfold f. rewrite E1, E2. cbn [bind]. unfold chk.
      destruct (Nat.leb_spec (a + b) imax); [|left; reflexivity]. right. cbn [bind]. rewrite set_Ok by (destruct Hi as [-> _]; lia). eexists. split; [reflexivity|]. apply Hn. lia. }
    destruct (for_n_two scanned f (length v - 1) 1 v Hf (scanned_0 Hl)) as [E|[s1 E]]; [exact E|exfalso].
    assert (scanned (1 + (length v - 1)) s1) as (_ & _ & _ & H).
    { revert E. apply for_n_keepi; [|apply scanned_0, Hl]. intros k s s2 Hk Hi E. destruct (Hf k s Hk Hi) as [E'|(s3 & E' & H')]; congruence. }
    destruct (decide (length v = 1)) as [E1|Hn]; [rewrite E1, <- (Nat.add_0_l 1), (psum_S v 0 0 H0) in Hs; unfold psum in Hs; simpl in Hs; lia|].
    specialize (H (length v - 1) ltac:(lia)). replace (length v - 1 + 1) with (length v) in H by lia. lia.
  Qed.
End Scan.

Section Wrap.
  Context (imax : nat).
  Lemma wrap_fits (z : Z) : (0 <= z <= Z.of_nat imax)%Z -> wrap imax z = z.
  Proof. intros H. unfold wrap. rewrite Z.mod_small by lia. lia. Qed.
  Lemma accumulate_fits (l : list nat) : forall a, a + foldr Nat.add 0 l <= imax ->
    foldl (fun (a : Z) (x : nat) => wrap imax (a + Z.of_nat x)) (Z.of_nat a) l = Z.of_nat (foldl Nat.add a l).
  Proof.
    induction l as [|x l IH]; intros a H; [reflexivity|]. cbn [foldl foldr] in *. rewrite wrap_fits by lia. rewrite <- Nat2Z.inj_add. apply IH. lia.
  Qed.
End Wrap.

(** ** The positions *)
Section Fits.
  Context {A : Type} (M : srmat A) (imax : nat).
  Hypotheses (Hw : wf_pat M) (Hd : wf_diag M) (Hs : wf_sorted M).
  Let cnt := fun j => length (tms M j).
  Let fl := for_rows M (fun irow j '(numpos, posptr) =>
      let! numpos := scan_entry M irow j (fun _ _ numpos =>
        let! x := get numpos j in set numpos j (x + 1)) numpos in
      let! x := get numpos j in
      let! posptr := set posptr (j + 1) x in
      Ok (numpos, posptr)).
  Lemma first_loop : fl (replicate (nnz M) 0, <[0 := 0]> (replicate (nnz M + 1) 0)) = Ok (cnt <$> seq 0 (nnz M), 0 :: (cnt <$> seq 0 (nnz M))).
  Proof.
    assert (ok (fl (replicate (nnz M) 0, <[0 := 0]> (replicate (nnz M + 1) 0))) (fun s => s = (cnt <$> seq 0 (nnz M), 0 :: (cnt <$> seq 0 (nnz M))))) as H.
    2: { apply ok_inv in H as (p & H & ->). exact H. }
    apply (ok_for_rows M _ _ (fun j (s : list nat * list nat) =>
      s = ((cnt <$> seq 0 j) ++ replicate (nnz M - j) 0, 0 :: (cnt <$> seq 0 j) ++ replicate (nnz M - j) 0))); auto.
    - simpl. rewrite Nat.sub_0_r, Nat.add_comm. reflexivity.
    - intros i j s Hj ->. pose proof (inrow_lt M i j Hw Hj) as Hjl.
      rewrite (scan_entry_spec M Hw Hd Hs i j _ _ Hj).
      replace (nnz M - j) with (S (nnz M - (j + 1))) by lia. cbn [replicate].
      rewrite (count_fold j (tms M j) _ 0).
      2: { rewrite lookup_app_r by (rewrite fmap_length, seq_length; lia).
           rewrite fmap_length, seq_length, Nat.sub_diag. reflexivity. }
      cbn [bind]. rewrite (insert_app_r_alt _ _ j) by (rewrite fmap_length, seq_length; lia).
      rewrite fmap_length, seq_length, Nat.sub_diag. simpl.
      assert ((cnt <$> seq 0 (j + 1)) = (cnt <$> seq 0 j) ++ [cnt j]) as Hsn.
      { rewrite seq_app, fmap_app. reflexivity. }
      assert (get ((cnt <$> seq 0 j) ++ length (tms M j) :: replicate (nnz M - (j + 1)) 0) j = Ok (cnt j)) as ->.
      { apply get_Some. rewrite lookup_app_r by (rewrite fmap_length, seq_length; lia).
        rewrite fmap_length, seq_length, Nat.sub_diag. reflexivity. }
      cbn [bind]. rewrite set_Ok.
      2: { simpl. rewrite app_length, fmap_length, seq_length. simpl. lia. }
      simpl. rewrite Hsn, <- !app_assoc. simpl. f_equal. f_equal.
      replace (j + 1) with (S j) by lia. simpl.
      rewrite (insert_app_r_alt _ _ j) by (rewrite fmap_length, seq_length; lia).
      rewrite fmap_length, seq_length, Nat.sub_diag. reflexivity.
    - intros s ->. rewrite Nat.sub_diag, !app_nil_r. reflexivity.
  Qed.
  Lemma ptr_sum : psum (0 :: (cnt <$> seq 0 (nnz M))) (length (0 :: (cnt <$> seq 0 (nnz M)))) = length (allterms M (nnz M)).
  Proof. unfold psum. rewrite firstn_all. cbn [foldr]. rewrite Nat.add_0_l. apply foldr_lengths. Qed.
  Lemma browptr_end : get (browptr M) (nbrows M) = Ok (nnz M).
  Proof. apply get_Some, wf_browptr; [auto|lia]. Qed.

  Lemma int_over : nnz M < imax -> imax < length (allterms M (nnz M)) -> compute_ILU_positions_int imax M = UB.
  Proof.
    intros Hn Ht. unfold compute_ILU_positions_int. rewrite browptr_end. cbn [bind]. cbv zeta. unfold chk at 1.
    destruct (Nat.leb_spec (nnz M + 1) imax); [|lia]. cbn [bind]. rewrite set_Ok by (rewrite replicate_length; lia). cbn [bind].
    fold fl. rewrite first_loop. cbn [bind]. rewrite scan_over; [reflexivity|reflexivity|]. rewrite ptr_sum. exact Ht.
  Qed.
  Lemma int_fits : nnz M < imax -> length (allterms M (nnz M)) <= imax -> compute_ILU_positions_int imax M = Ok (positions M).
  Proof.
    intros Hn Ht. pose proof (compute_ILU_positions_spec M Hw Hd Hs) as E.
    unfold compute_ILU_positions_int, compute_ILU_positions in *. rewrite browptr_end in *. cbn [bind] in *. cbv zeta in *. unfold chk at 1.
    destruct (Nat.leb_spec (nnz M + 1) imax); [|lia]. cbn [bind]. rewrite set_Ok in * by (rewrite replicate_length; lia). cbn [bind] in *.
    fold fl in E |- *. rewrite first_loop in *. cbn [bind] in *.
    assert (foldl Nat.add 0 (cnt <$> seq 0 (nnz M)) = length (allterms M (nnz M))) as Htot.
    { rewrite foldl_add. simpl. apply foldr_lengths. }
    rewrite scan_fits by (rewrite ?ptr_sum; simpl; lia || exact Ht).
    apply bind_Ok in E as (pp & E1 & E). rewrite E1. cbn [bind].
    assert (forall (l : list nat), foldr Nat.add 0 l <= imax ->
      foldl (fun (a : Z) (x : nat) => wrap imax (a + Z.of_nat x)) 0%Z l = Z.of_nat (foldl Nat.add 0 l)) as Hacc by (intros l Hl; apply (accumulate_fits imax l 0); lia).
    rewrite Hacc by (unfold cnt; rewrite foldr_lengths; exact Ht).
    destruct (Z.ltb_spec (Z.of_nat (foldl Nat.add 0 (cnt <$> seq 0 (nnz M)))) 0); [lia|]. rewrite Nat2Z.id.
    apply bind_Ok in E as ([lo up] & E2 & E). assert (positions M = IluPos pp lo up) as Hp by congruence. rewrite Hp. clear Hp E.
    pose (Inv := fun s : list nat * list nat => length (fst s) <= imax).
    edestruct (rows_cong M Inv) as [E3 _]; [|..|exact E2|]; [| |rewrite E3; reflexivity].
    2: { unfold Inv. simpl. rewrite replicate_length, Htot. exact Ht. }
    clear E2. intros i j [l u] s1 Hi E. unfold Inv in *. simpl in Hi. apply bind_Ok in E as ([[o l'] u'] & E2 & E). injection E as <-.
    pose (Inv' := fun s : nat * list nat * list nat => length (snd (fst s)) <= imax).
    edestruct (scan_cong M Inv') as [E3 H3]; [|..|exact E2|]; [| |rewrite E3; split; [reflexivity|exact H3]].
    2: { exact Hi. }
    clear. intros k p [[o l] u] s1 Hi E. unfold Inv' in *. simpl in Hi.
    apply bind_Ok in E as (q & E1 & E). rewrite E1. cbn [bind]. apply bind_Ok in E as (l' & E2 & E). apply bind_Ok in E as (u' & E3 & E). injection E as <-.
    unfold set in E2. destruct (decide (q + o < length l)); [|discriminate]. injection E2 as <-.
    unfold chk at 1. destruct (Nat.leb_spec (q + o) imax); [|lia]. cbn [bind]. rewrite set_Ok by assumption. cbn [bind]. rewrite E3. cbn [bind].
    unfold chk. destruct (Nat.leb_spec (o + 1) imax); [|lia]. cbn [bind]. split; [reflexivity|]. simpl. rewrite insert_length. exact Hi.
  Qed.
End Fits.

Section Count.
  Context {A : Type} (M : srmat A).
  Hypotheses (Hw : wf_pat M) (Hd : wf_diag M) (Hs : wf_sorted M).
  Lemma tms_count j : j < nnz M ->
    length (filter (fun t => is_Some (pos M (rowof M j) t) /\ is_Some (pos M t (col M j))) (seq 0 (Nat.min (rowof M j) (col M j)))) = length (tms M j).
  Proof.
    intros Hj. pose proof (inrow_rowof M j Hw Hj) as Hr. destruct (terms_keys M Hs (rowof M j) (col M j) (proj1 Hr)) as [_ Hnd].
    fold (tms M j) in Hnd. transitivity (length (col M <$> (tms M j).*1)); [|rewrite !fmap_length; reflexivity].
    apply Permutation_length, NoDup_Permutation; [apply NoDup_filter, NoDup_seq|exact Hnd|].
    intros t. rewrite elem_of_list_filter, elem_of_seq. split.
    - intros [[[k Hk] [p Hp]] Ht]. apply elem_of_list_fmap. exists k. split; [apply pos_Some in Hk as [_ Hk]; [auto|apply Hr]|].
      apply elem_of_list_fmap. exists (k, p). split; [reflexivity|]. apply (elem_tms M Hw Hs); [exact Hj|]. exists t. repeat split; auto; lia.
    - intros Ht. apply elem_of_list_fmap in Ht as (k & -> & Hk). apply elem_of_list_fmap in Hk as ([k' p] & -> & Hkp). simpl.
      apply (elem_tms M Hw Hs) in Hkp as (t & H1 & H2 & H3 & H4); [|exact Hj]. pose proof H3 as H3'. apply pos_Some in H3' as [_ <-]; [|apply Hr].
      rewrite H3, H4. split; [split; eauto|lia].
  Qed.
  Lemma products_terms : products M = length (allterms M (nnz M)).
  Proof.
    rewrite <- foldr_lengths. unfold products. f_equal. apply list_fmap_ext. intros x j Hj. apply lookup_seq in Hj as [-> Hj]. apply tms_count. lia.
  Qed.
End Count.

(** The positions are computed as they should be whenever the number of products fits in the index type ... *)
Theorem C90_fits : forall (A : Type) (M : srmat A) imax, wf_pat M -> wf_diag M -> wf_sorted M ->
  nnz M < imax -> products M <= imax ->
  exists P, compute_ILU_positions M = Ok P /\ compute_ILU_positions_int imax M = Ok P.
Proof.
  intros A M imax Hw Hd Hs Hn Hp. rewrite (products_terms M Hw Hs) in Hp. exists (positions M).
  split; [apply compute_ILU_positions_spec; auto|apply int_fits; auto].
Qed.
(** ... and only then: otherwise an addition overflows. *)
Theorem C90_overflow : forall (A : Type) (M : srmat A) imax, wf_pat M -> wf_diag M -> wf_sorted M ->
  nnz M < imax -> imax < products M -> compute_ILU_positions_int imax M = UB.
Proof. intros A M imax Hw Hd Hs Hn Hp. rewrite (products_terms M Hw Hs) in Hp. apply int_over; auto. Qed.
(** A matrix with at most [k] entries in each row is fine if [k] times its number of entries fits. *)
Theorem C90_sparse : forall (A : Type) (M : srmat A) imax k, wf_pat M -> wf_diag M -> wf_sorted M ->
  (forall i, i < nbrows M -> rp M (i + 1) - rp M i <= k) -> nnz M < imax -> nnz M * k <= imax ->
  exists P, compute_ILU_positions M = Ok P /\ compute_ILU_positions_int imax M = Ok P.
Proof.
  intros A M imax k Hw Hd Hs Hk Hn Hi. apply C90_fits; auto. rewrite (products_terms M Hw Hs), <- foldr_lengths.
  assert (forall m, m <= nnz M -> foldr Nat.add 0 ((fun j => length (tms M j)) <$> seq 0 m) <= m * k) as X; [|specialize (X (nnz M) ltac:(lia)); lia].
  induction m as [|m IH]; intros Hm; [simpl; lia|]. specialize (IH ltac:(lia)).
  rewrite seq_S, fmap_app, foldr_app. cbn [fmap list_fmap foldr].
  assert (forall l x, foldr Nat.add x l = x + foldr Nat.add 0 l) as Hf by (intros l x; induction l as [|y l IHl]; simpl; [lia|rewrite IHl; lia]).
  rewrite Hf. assert (length (tms M (0 + m)) <= k); [|rewrite Nat.mul_succ_l; cbn [Nat.add] in *; lia]. rewrite Nat.add_0_l. unfold tms, terms.
  assert (forall f (l : list nat), length (omap f l : list (nat * nat)) <= length l) as Ho.
  { intros f l. unfold omap. induction l as [|y l IHl]; cbn [list_omap length]; [lia|]. destruct (f y); cbn [length]; lia. }
  etransitivity; [apply Ho|]. rewrite range_length. apply Hk. apply (inrow_rowof M m Hw). lia.
Qed.

(** ** The dense matrices *)
Definition dense {A} (a : A) (n : nat) : srmat A :=
  SR ((fun i => i * n) <$> seq 0 (n + 1)) ((fun j => j mod n) <$> seq 0 (n * n)) (replicate (n * n) a) ((fun i => i * n + i) <$> seq 0 n)
    ((fun i => (i + 1) * n) <$> seq 0 n) n (n * n) (n * n).
Section Dense.
  Context {A : Type} (a : A) (n : nat).
  Let M := dense a n.
  Lemma dense_rp i : i <= n -> rp M i = i * n.
  Proof. intros H. unfold rp, M. simpl. rewrite list_lookup_total_alt, list_lookup_fmap, lookup_seq_lt by lia. reflexivity. Qed.
  Lemma dense_col j : j < n * n -> col M j = j mod n.
  Proof. intros H. unfold col, M. simpl. rewrite list_lookup_total_alt, list_lookup_fmap, lookup_seq_lt by lia. reflexivity. Qed.
  Lemma dense_dg i : i < n -> dg M i = i * n + i.
  Proof. intros H. unfold dg, M. simpl. rewrite list_lookup_total_alt, list_lookup_fmap, lookup_seq_lt by lia. reflexivity. Qed.
  Lemma dense_nnz : nnz M = n * n.
  Proof. unfold nnz. apply dense_rp. simpl. lia. Qed.
  Lemma dense_in i c : i < n -> c < n -> i * n + c < n * n /\ (i * n + c) mod n = c /\ (i * n + c) / n = i.
  Proof.
    intros Hi Hc. split; [nia|]. rewrite (Nat.add_comm (i * n)), Nat.mod_add, Nat.div_add, Nat.mod_small, Nat.div_small by lia. lia.
  Qed.
  Lemma dense_pat : wf_pat M.
  Proof.
    split.
    - simpl. rewrite fmap_length, seq_length. reflexivity.
    - apply dense_rp. lia.
    - intros i Hi. simpl in Hi. rewrite !dense_rp by lia. nia.
    - rewrite dense_nnz. simpl. rewrite fmap_length, seq_length. reflexivity.
    - intros j Hj. rewrite dense_nnz in Hj. rewrite dense_col by exact Hj. simpl. apply Nat.mod_upper_bound. intros ->. simpl in Hj. lia.
  Qed.
  Lemma dense_inrow i j : inrow M i j <-> i < n /\ exists c, c < n /\ j = i * n + c.
  Proof.
    unfold inrow. cbn [nbrows M dense]. split.
    - intros [Hi Hj]. rewrite !dense_rp in Hj by lia. split; [exact Hi|]. exists (j - i * n). lia.
    - intros [Hi (c & Hc & ->)]. rewrite !dense_rp by lia. lia.
  Qed.
  Lemma dense_diag : wf_diag M.
  Proof.
    split; [simpl; rewrite fmap_length, seq_length; reflexivity|]. intros i Hi. simpl in Hi. rewrite dense_dg, !dense_rp by lia.
    destruct (dense_in i i Hi Hi) as (H1 & H2 & _). rewrite dense_col by exact H1. split; [lia|exact H2].
  Qed.
  Lemma dense_sorted : wf_sorted M.
  Proof.
    intros i j1 j2 Hi H1 H2 H3. simpl in Hi. rewrite dense_rp in H1 by lia. rewrite dense_rp in H3 by lia.
    replace j1 with (i * n + (j1 - i * n)) by lia. replace j2 with (i * n + (j2 - i * n)) by lia.
    destruct (dense_in i (j1 - i * n)) as (A1 & B1 & _); try lia. destruct (dense_in i (j2 - i * n)) as (A2 & B2 & _); try lia.
    rewrite !dense_col, B1, B2 by assumption. lia.
  Qed.
  Lemma dense_pos i c : i < n -> c < n -> is_Some (pos M i c).
  Proof.
    intros Hi Hc. destruct (pos M i c) eqn:E; [eauto|exfalso]. destruct (dense_in i c Hi Hc) as (H1 & H2 & _).
    apply (proj1 (pos_None M i c Hi) E (i * n + c)); [apply dense_inrow; eauto|]. rewrite dense_col by exact H1. exact H2.
  Qed.
  Lemma sum_add (l : list nat) x : foldr Nat.add x l = x + foldr Nat.add 0 l.
  Proof. induction l as [|y l IHl]; simpl; [lia|rewrite IHl; lia]. Qed.
  Lemma sum_app (l l' : list nat) : foldr Nat.add 0 (l ++ l') = foldr Nat.add 0 l + foldr Nat.add 0 l'.
  Proof. rewrite foldr_app, sum_add. lia. Qed.
  Lemma sum_min i m : m <= n -> 2 * foldr Nat.add 0 ((fun c => Nat.min i c) <$> seq 0 m) =
    if decide (m <= i) then m * (m - 1) else i * (i - 1) + 2 * (i * (m - i)).
  Proof.
    induction m as [|m IH]; intros Hm; [destruct (decide _); simpl; lia|]. rewrite seq_S, fmap_app, sum_app. cbn [fmap list_fmap foldr]. rewrite Nat.add_0_l, Nat.add_0_r, Nat.mul_add_distr_l, IH by lia.
    destruct (decide (m <= i)), (decide (S m <= i)); try lia.
    - rewrite Nat.min_r by lia. replace (S m - 1) with m by lia. destruct m; [lia|]. replace (S m - 1) with m by lia. lia.
    - rewrite Nat.min_l by lia. replace m with i by lia. replace (S i - i) with 1 by lia. lia.
  Qed.
  Lemma sum_rows m : m <= n ->
    (12 * Z.of_nat (foldr Nat.add 0 ((fun j => Nat.min (j / n) (j mod n)) <$> seq 0 (m * n)))%nat =
     let x := Z.of_nat m in 6 * Z.of_nat n * x * (x - 1) - (x - 1) * x * (2 * x - 1) - 3 * x * (x - 1))%Z.
  Proof.
    induction m as [|m IH]; intros Hm; [simpl; lia|]. specialize (IH ltac:(lia)).
    replace (S m * n) with (m * n + n) by lia. rewrite seq_app, fmap_app, sum_app. cbn [Nat.add].
    assert (((fun j => Nat.min (j / n) (j mod n)) <$> seq (m * n) n) = ((fun c => Nat.min m c) <$> seq 0 n)) as ->.
    { apply list_eq. intros k. rewrite !list_lookup_fmap. destruct (decide (k < n)) as [Hk|Hk].
      - rewrite !lookup_seq_lt by exact Hk. simpl. destruct (dense_in m k) as (_ & H1 & H2); try lia. rewrite H1, H2. reflexivity.
      - rewrite !lookup_seq_ge by lia. reflexivity. }
    pose proof (sum_min m n ltac:(lia)) as E. destruct (decide (n <= m)); [lia|].
    rewrite Nat2Z.inj_add, Z.mul_add_distr_l, IH. set (T := foldr Nat.add 0 ((fun c => Nat.min m c) <$> seq 0 n)) in *. clearbody T. clear IH.
    assert (2 * Z.of_nat T = Z.of_nat m * (Z.of_nat m - 1) + 2 * (Z.of_nat m * (Z.of_nat n - Z.of_nat m)))%Z as E'.
    { destruct m as [|m]; [simpl in *; lia|]. replace (S m - 1) with m in E by lia. nia. }
    cbv zeta. rewrite Nat2Z.inj_succ. nia.
  Qed.
  Lemma dense_products : (6 * Z.of_nat (products M) = Z.of_nat n * (Z.of_nat n - 1) * (2 * Z.of_nat n - 1))%Z.
  Proof.
    unfold products. rewrite dense_nnz.
    assert (((fun j => length (filter (fun t => is_Some (pos M (rowof M j) t) /\ is_Some (pos M t (col M j))) (seq 0 (Nat.min (rowof M j) (col M j))))) <$> seq 0 (n * n))
      = ((fun j => Nat.min (j / n) (j mod n)) <$> seq 0 (n * n))) as ->.
    { apply list_fmap_ext. intros x j Hx. apply lookup_seq in Hx as [-> Hx]. simpl. rewrite dense_col by exact Hx.
      assert (n <> 0) as Hn by (intros ->; simpl in Hx; lia). assert (x / n < n) as Hd by (apply Nat.div_lt_upper_bound; lia).
      pose proof (Nat.mod_upper_bound x n Hn) as Hm.
      assert (rowof M x = x / n) as ->.
      { apply rowof_inrow; [apply dense_pat|]. apply dense_inrow. split; [exact Hd|]. exists (x mod n). split; [exact Hm|]. rewrite (Nat.div_mod x n Hn) at 1. lia. }
      assert (forall l, (forall t, t ∈ l -> t < n) -> length (filter (fun t => is_Some (pos M (x / n) t) /\ is_Some (pos M t (x mod n))) l) = length l) as Hall.
      { induction l as [|t l IH]; intros Hl; [reflexivity|]. pose proof (Hl t (elem_of_list_here _ _)) as Ht.
        rewrite filter_cons_True by (split; apply dense_pos; assumption). cbn [length]. f_equal. apply IH. intros u Hu. apply Hl. right. exact Hu. }
      rewrite Hall; [apply seq_length|]. intros t Ht. apply elem_of_seq in Ht. lia. }
    pose proof (sum_rows n ltac:(lia)) as E. cbv zeta in E. nia.
  Qed.
End Dense.

(** For the dense matrices the number of products is the sum of the first squares ... *)
Theorem C90_dense : forall (A : Type) (a : A) n,
  wf_pat (dense a n) /\ wf_diag (dense a n) /\ wf_sorted (dense a n) /\ nnz (dense a n) = n * n /\
  (6 * Z.of_nat (products (dense a n)) = Z.of_nat n * (Z.of_nat n - 1) * (2 * Z.of_nat n - 1))%Z.
Proof.
  intros A a n. split; [apply dense_pat|]. split; [apply dense_diag|]. split; [apply dense_sorted|]. split; [apply dense_nnz|apply dense_products].
Qed.
(** ... so for indices of 32 bits the set-up of ILU is undefined already for a matrix with 1862 rows and 3467044
    entries, while all the entries could be numbered 600 times over; with 1861 rows it is not. *)
Definition int_max : nat := Z.to_nat (2 ^ 31 - 1).
Theorem C90_int_refuted : forall (A : Type) (a : A),
  (exists M : srmat A, wf_pat M /\ wf_diag M /\ wf_sorted M /\ Z.of_nat (nbrows M) = 1862%Z /\ Z.of_nat (nnz M) = 3467044%Z /\
     compute_ILU_positions_int int_max M = UB) /\
  forall n, (Z.of_nat n <= 1861)%Z -> exists P, compute_ILU_positions_int int_max (dense a n) = Ok P.
Proof.
  intros A a. assert (Z.of_nat int_max = 2147483647)%Z as Hi by (unfold int_max; rewrite Z2Nat.id by lia; reflexivity).
  revert Hi. generalize int_max. intros imax Hi. split.
  - assert (exists n, Z.of_nat n = 1862%Z) as [n Hn] by (exists (Z.to_nat 1862); apply Z2Nat.id; lia).
    destruct (C90_dense A a n) as (H1 & H2 & H3 & H4 & H5). exists (dense a n). rewrite Hn in H5.
    assert (Z.of_nat (nnz (dense a n)) = 3467044%Z) as Hz by (rewrite H4, Nat2Z.inj_mul, Hn; reflexivity).
    split; [exact H1|]. split; [exact H2|]. split; [exact H3|]. split; [exact Hn|]. split; [exact Hz|].
    apply (C90_overflow A _ _ H1 H2 H3); lia.
  - intros n Hn. destruct (C90_dense A a n) as (H1 & H2 & H3 & H4 & H5).
    destruct (C90_fits A (dense a n) imax H1 H2 H3) as (P & _ & E); [| |exists P; exact E].
    + rewrite H4. apply Nat2Z.inj_lt. rewrite Hi, Nat2Z.inj_mul. nia.
    + apply Nat2Z.inj_le. rewrite Hi.
      assert (Z.of_nat n * (Z.of_nat n - 1) * (2 * Z.of_nat n - 1) <= 1861 * 1860 * 3721)%Z; [|lia].
      destruct n as [|n]; [simpl; lia|]. apply Z.mul_le_mono_nonneg; try nia.
Qed.
(** the hypotheses of the theorems on small index types: the dense 3x3 matrix has 5 products *)
Example C90_case : products (dense tt 3) = 5 /\
  (exists P, compute_ILU_positions_int 11 (dense tt 3) = Ok P) /\ compute_ILU_positions_int 9 (dense tt 3) = UB /\
  products (dense tt 4) = 14 /\ compute_ILU_positions_int 20 (dense tt 4) <> UB /\ products (dense tt 6) = 55 /\ compute_ILU_positions_int 40 (dense tt 6) = UB.
Proof.
  split; [reflexivity|]. split; [eexists; vm_compute; reflexivity|]. split; [vm_compute; reflexivity|]. split; [reflexivity|].
  split; [vm_compute; discriminate|]. split; vm_compute; reflexivity.
Qed.

Print Assumptions C90_fits.
Print Assumptions C90_overflow.
Print Assumptions C90_sparse.
Print Assumptions C90_dense.
Print Assumptions C90_int_refuted.
