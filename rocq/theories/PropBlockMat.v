(** * C15, C17, C55, C56: zeroing, scaling, diagonal queries, construction and comparison *)
From Verif Require Import Base Alg SRMatrix Nd Coo CooFacts CooBsr ColMat BlockMat AssemblySpec AssemblyFacts PropAssembly Inst.
From Coq Require Import QArith.Qcanon ZArith.
Open Scope nat_scope.

(** ** C15 *)
(** a loop that changes the entries lo, ..., lo+n-1 one by one *)
Lemma ok_for_change {V} (f : V -> V) lo n (body : nat -> list V -> res (list V)) (v : list V) (Q : list V -> Prop) :
  lo + n <= length v ->
  (forall k v' x, k < n -> length v' = length v -> v' !! (lo + k) = Some x -> v !! (lo + k) = Some x -> body k v' = Ok (<[lo + k := f x]> v')) ->
  (forall v', length v' = length v -> (forall p, v' !! p = if decide (lo <= p < lo + n) then f <$> v !! p else v !! p) -> Q v') ->
  ok (for_ 0 n body v) Q.
Proof.
  intros Hn Hb HQ.
  eapply ok_for_post with (I := fun k v' => length v' = length v /\ forall p, v' !! p = if decide (lo <= p < lo + k) then f <$> v !! p else v !! p).
  - lia.
  - split; [reflexivity|]. intros p. rewrite decide_False by lia. reflexivity.
  - intros k v' Hk [Hl H]. destruct (lookup_lt_is_Some_2 v (lo + k)) as [x Hx]; [lia|].
    rewrite (Hb k v' x); [|lia|exact Hl|rewrite H, decide_False by lia; exact Hx|exact Hx]. simpl. rewrite insert_length. split; [exact Hl|].
    intros p. destruct (decide (lo + k = p)) as [<-|Hne].
    + rewrite list_lookup_insert by lia. rewrite decide_True by lia. rewrite Hx. reflexivity.
    + rewrite list_lookup_insert_ne by exact Hne. rewrite H. repeat case_decide; try reflexivity; lia.
  - intros v' [Hl H]. apply HQ; assumption.
Qed.
(** the same by blocks, in any order: block j is the entries j*m, ..., j*m+m-1 *)
Lemma nok_par_blocks {V} (f : V -> V) n m (J : nat -> nat) (body : nat -> list V -> res (list V)) (v : list V) (Q : list V -> Prop) :
  (forall i, i < n -> J i * m + m <= length v) ->
  (forall i i', i < n -> i' < n -> J i = J i' -> i = i') ->
  (forall i v', i < n -> length v' = length v -> (forall k, k < m -> v' !! (J i * m + k) = v !! (J i * m + k)) ->
     ok (body i v') (fun v'' => length v'' = length v /\ forall p, v'' !! p = if decide (J i * m <= p < J i * m + m) then f <$> v' !! p else v' !! p)) ->
  (forall v', length v' = length v ->
     (forall p, (exists i, i < n /\ J i * m <= p < J i * m + m) -> v' !! p = f <$> v !! p) ->
     (forall p, ~ (exists i, i < n /\ J i * m <= p < J i * m + m) -> v' !! p = v !! p) -> Q v') ->
  nok (par_for 0 n body v) Q.
Proof.
  intros Hl Hinj Hb HQ.
  apply (nok_par_for 0 n body v (fun dn v' => length v' = length v /\
     (forall p, (exists i, i ∈ dn /\ J i * m <= p < J i * m + m) -> v' !! p = f <$> v !! p) /\
     (forall p, ~ (exists i, i ∈ dn /\ J i * m <= p < J i * m + m) -> v' !! p = v !! p))).
  - split; [reflexivity|]. split; [|reflexivity]. intros p (i & Hi & _). apply elem_of_nil in Hi as [].
  - intros dn i v' Hdn Hi Hni (H1 & H2 & H3).
    assert (forall p, J i * m <= p < J i * m + m -> ~ exists i', i' ∈ dn /\ J i' * m <= p < J i' * m + m) as Hdis.
    { intros p Hp (i' & Hi' & Hp'). apply Hni. rewrite (Hinj i i'); [exact Hi'|lia|apply Hdn, Hi'|]. nia. }
    eapply ok_mono; [apply Hb; [lia|exact H1|]|].
    { intros k Hk. apply H3. apply Hdis. lia. }
    intros v'' [H4 H5]. split; [exact H4|]. split.
    + intros p (i' & Hi' & Hp'). apply elem_of_app in Hi' as [Hi'|Hi'].
      * rewrite H5, decide_False; [apply H2; eauto|]. intros Hp. apply (Hdis p Hp). eauto.
      * apply elem_of_list_singleton in Hi' as ->. rewrite H5, decide_True by exact Hp'. rewrite H3 by (apply Hdis, Hp'). reflexivity.
    + intros p Hp. rewrite H5, decide_False; [apply H3|].
      * intros (i' & Hi' & Hp'). apply Hp. exists i'. split; [apply elem_of_app; left; exact Hi'|exact Hp'].
      * intros Hp'. apply Hp. exists i. split; [apply elem_of_app; right; left|exact Hp'].
  - intros l v' Hperm (H1 & H2 & H3). apply HQ; [exact H1| |].
    + intros p (i & Hi & Hp). apply H2. exists i. rewrite Hperm, elem_of_range. split; [lia|exact Hp].
    + intros p Hp. apply H3. intros (i & Hi & Hp'). apply Hp. exists i. rewrite Hperm, elem_of_range in Hi. split; [lia|exact Hp'].
Qed.

Section C15.
  Context {F : Type} {O : SOps F}.
  Theorem C15_block_zero (bs : nat) (M : srmat F) : nnzb M = nnz M -> wf_vals bs M ->
    nok (bsr_setAllZero bs M) (fun M' => same_structure M M' /\ vals M' = replicate (length (vals M)) s0).
  Proof.
    intros Hn Hv. unfold bsr_setAllZero. replace (nnzb M * bs * bs) with (length (vals M)) by (rewrite Hv, Hn; lia).
    apply nok_bind with (P := fun v => v = replicate (length (vals M)) s0).
    - apply (nok_par_for_map _ _ _ _ (fun _ => s0)); [lia|intros; apply set_Ok; lia|]. intros v Hl H _. apply list_eq_lt; [rewrite replicate_length; exact Hl|].
      intros i Hi. rewrite H by lia. rewrite lookup_replicate_2 by lia. reflexivity.
    - intros v ->. apply nok_ret. split; [apply with_vals_same, replicate_length|reflexivity].
  Qed.
  Theorem C15_scalar_zero (M : srmat F) : wf_pat M -> wf_vals 1 M ->
    nok (csr_setAllZero M) (fun M' => same_structure M M' /\ vals M' = replicate (length (vals M)) s0).
  Proof.
    intros Hw Hv. unfold csr_setAllZero. apply nok_bind with (P := fun n => n = length (vals M)).
    { apply nok_lift. unfold get. rewrite (wf_browptr M _ Hw) by lia. simpl. rewrite Hv. unfold nnz. lia. }
    intros n ->. apply nok_bind with (P := fun v => v = replicate (length (vals M)) s0).
    - apply (nok_par_for_map _ _ _ _ (fun _ => s0)); [lia|intros; apply set_Ok; lia|]. intros v Hl H _. apply list_eq_lt; [rewrite replicate_length; exact Hl|].
      intros i Hi. rewrite H by lia. rewrite lookup_replicate_2 by lia. reflexivity.
    - intros v ->. apply nok_ret. split; [apply with_vals_same, replicate_length|reflexivity].
  Qed.
  Theorem C15_block_scale (bs : nat) (factor : F) (M : srmat F) : nnzb M = nnz M -> wf_vals bs M ->
    nok (bsr_scaleAll bs factor M) (fun M' => same_structure M M' /\ vals M' = (fun x => (x * factor)%s) <$> vals M).
  Proof.
    intros Hn Hv. unfold bsr_scaleAll. rewrite Hn. apply nok_bind with (P := fun v => v = (fun x => (x * factor)%s) <$> vals M).
    - apply (nok_par_blocks (fun x => (x * factor)%s) (nnz M) (bs * bs) id); unfold id.
      + intros i Hi. rewrite Hv. nia.
      + auto.
      + intros i v' Hi Hl _. apply (ok_for_change (fun x => (x * factor)%s) (i * (bs * bs))).
        * rewrite Hl, Hv. nia.
        * intros k v'' x Hk Hl' H1 _. rewrite <- Nat.mul_assoc. unfold get. rewrite H1. cbn [bind]. apply set_Ok. rewrite Hl', Hl, Hv. nia.
        * intros v'' Hl' H. rewrite Hl in Hl'. split; assumption.
      + intros v' Hl H1 _. apply list_eq_lt; [rewrite fmap_length; exact Hl|]. intros p Hp. rewrite list_lookup_fmap. apply H1.
        rewrite Hl, Hv in Hp. assert (0 < bs * bs) as Hb2 by nia. exists (p / (bs * bs)). split; [apply Nat.div_lt_upper_bound; nia|].
        pose proof (Nat.div_mod p (bs * bs) ltac:(lia)). pose proof (Nat.mod_upper_bound p (bs * bs) ltac:(lia)). nia.
    - intros v ->. apply nok_ret. split; [apply with_vals_same, fmap_length|reflexivity].
  Qed.
  Theorem C15_scalar_scale (factor : F) (M : srmat F) : wf_pat M -> wf_vals 1 M ->
    nok (csr_scaleAll factor M) (fun M' => same_structure M M' /\ vals M' = (fun x => (x * factor)%s) <$> vals M).
  Proof.
    intros Hw Hv. unfold csr_scaleAll. apply nok_bind with (P := fun n => n = length (vals M)).
    { apply nok_lift. unfold get. rewrite (wf_browptr M _ Hw) by lia. simpl. rewrite Hv. unfold nnz. lia. }
    intros n ->. apply nok_bind with (P := fun v => v = (fun x => (x * factor)%s) <$> vals M).
    - apply (nok_par_for_map _ _ _ _ (fun i => (vat (vals M) i * factor)%s)); [lia| |].
      + intros i v' Hi Hl E. unfold get. rewrite E, (vat_Some (vals M)) by lia. cbn [bind]. apply set_Ok. lia.
      + intros v Hl H _. apply list_eq_lt; [rewrite fmap_length; exact Hl|]. intros i Hi. rewrite H by lia.
        rewrite list_lookup_fmap, (vat_Some (vals M)) by lia. reflexivity.
    - intros v ->. apply nok_ret. split; [apply with_vals_same, fmap_length|reflexivity].
  Qed.
  Lemma setDiagZero_vals (bs : nat) (M : srmat F) : wf_pat M -> wf_diag M -> wf_vals bs M ->
    nok (setDiagZero bs M) (fun M' => same_structure M M' /\
      (forall p, (exists i, i < nbrows M /\ dg M i * (bs * bs) <= p < dg M i * (bs * bs) + bs * bs) -> vals M' !! p = (fun _ => s0) <$> vals M !! p) /\
      (forall p, ~ (exists i, i < nbrows M /\ dg M i * (bs * bs) <= p < dg M i * (bs * bs) + bs * bs) -> vals M' !! p = vals M !! p)).
  Proof.
    intros Hw Hd Hv. assert (forall i, i < nbrows M -> dg M i * (bs * bs) + bs * bs <= length (vals M)) as Hle.
    { intros i Hi. rewrite Hv. destruct (proj2 Hd i Hi) as [H _]. assert (dg M i < nnz M) by (apply (inrow_lt M i); [exact Hw|split; assumption]). nia. }
    unfold setDiagZero. eapply nok_bind.
    - apply (nok_par_blocks (fun _ => s0) (nbrows M) (bs * bs) (dg M)) with (Q := fun v => length v = length (vals M) /\
        (forall p, (exists i, i < nbrows M /\ dg M i * (bs * bs) <= p < dg M i * (bs * bs) + bs * bs) -> v !! p = (fun _ => s0) <$> vals M !! p) /\
        (forall p, ~ (exists i, i < nbrows M /\ dg M i * (bs * bs) <= p < dg M i * (bs * bs) + bs * bs) -> v !! p = vals M !! p)).
      + exact Hle.
      + intros i i' Hi Hi' E. destruct (proj2 Hd i Hi) as [_ H1]. destruct (proj2 Hd i' Hi') as [_ H2]. congruence.
      + intros i v' Hi Hl _. unfold get. rewrite (wf_diagind M i Hd Hi). cbn [bind].
        replace (for_ (dg M i * (bs * bs)) ((dg M i + 1) * (bs * bs)) (fun jj v => set v jj s0) v')
          with (for_ 0 (bs * bs) (fun k v => set v (dg M i * (bs * bs) + k) s0) v').
        2:{ unfold for_. replace ((dg M i + 1) * (bs * bs) - dg M i * (bs * bs)) with (bs * bs) by lia. rewrite Nat.sub_0_r.
            assert (forall n a k (v : list F), for_n n k (fun k v => set v (a + k) s0) v = for_n n (a + k) (fun jj v => set v jj s0) v) as H.
            { induction n as [|n IH]; intros a k v; cbn [for_n]; [reflexivity|]. destruct (set v (a + k) s0); cbn [bind]; try reflexivity.
              rewrite IH. f_equal. lia. }
            rewrite H, Nat.add_0_r. reflexivity. }
        apply (ok_for_change (fun _ => s0) (dg M i * (bs * bs))).
        * rewrite Hl. apply Hle, Hi.
        * intros k v'' x Hk Hl' _ _. apply set_Ok. rewrite Hl', Hl. pose proof (Hle i Hi). lia.
        * intros v'' Hl' H. rewrite Hl in Hl'. split; assumption.
      + intros v' Hl H1 H2. split; [exact Hl|]. split; assumption.
    - intros v (Hl & H1 & H2). apply nok_ret. split; [apply with_vals_same, Hl|]. split; assumption.
  Qed.
  (** the diagonal blocks become zero and the other entries stay *)
  Theorem C15_diag_zero (so : storage) (bs : nat) (M : srmat F) : 0 < bs -> wf_pat M -> wf_diag M -> wf_nodup M -> wf_vals bs M ->
    nok (setDiagZero bs M) (fun M' => same_structure M M' /\ forall I J, I < nbrows M * bs ->
      bdense so bs M' I J = if decide (I / bs = J / bs) then s0 else bdense so bs M I J).
  Proof.
    intros Hbs Hw Hd Hnd Hv. eapply nok_mono; [apply setDiagZero_vals; assumption|]. intros M' (Hs & H1 & H2). split; [exact Hs|].
    intros I J HI. assert (I / bs < nbrows M) as Hi by (apply Nat.div_lt_upper_bound; lia). unfold bdense. rewrite (pos_same M M') by exact Hs.
    destruct (pos M (I / bs) (J / bs)) as [j|] eqn:E; [|destruct (decide _); reflexivity].
    pose proof E as Ep. apply pos_Some in Ep as [Hj Hc]; [|exact Hi]. pose proof (inrow_lt M _ _ Hw Hj) as Hjn.
    assert (lay so bs (I mod bs) (J mod bs) < bs * bs) as Hlay.
    { pose proof (Nat.mod_upper_bound I bs ltac:(lia)). pose proof (Nat.mod_upper_bound J bs ltac:(lia)). destruct so; simpl; nia. }
    unfold bent. destruct (decide (I / bs = J / bs)) as [Hd0|Hd0].
    - rewrite <- Hd0, (pos_diag M _ Hnd Hd Hi) in E. injection E as <-. rewrite H1 by (exists (I / bs); split; [exact Hi|lia]).
      destruct (vals M !! _); reflexivity.
    - rewrite H2; [reflexivity|]. intros (i & Hi' & Hp). assert (dg M i = j) as E' by nia. destruct (proj2 Hd i Hi') as [D1 D2]. apply Hd0.
      assert (i = I / bs) as -> by (apply (inrow_unique M _ _ j Hw); [rewrite <- E'; split; assumption|exact Hj]). congruence.
  Qed.
  Lemma bdense_1 (M : srmat F) I J so : bdense so 1 M I J = dense M I J.
  Proof.
    unfold bdense, dense. rewrite !Nat.div_1_r. destruct (pos M I J) as [j|]; [|reflexivity]. unfold bent. rewrite !Nat.mod_1_r.
    destruct so; simpl; rewrite Nat.mul_1_r, Nat.add_0_r; reflexivity.
  Qed.
  Corollary C15_scalar_diag_zero (M : srmat F) : wf_pat M -> wf_diag M -> wf_nodup M -> wf_vals 1 M ->
    nok (setDiagZero 1 M) (fun M' => same_structure M M' /\ forall I J, I < nbrows M -> dense M' I J = if decide (I = J) then s0 else dense M I J).
  Proof.
    intros Hw Hd Hnd Hv. eapply nok_mono; [apply (C15_diag_zero RowMajor 1); auto|]. intros M' [Hs H]. split; [exact Hs|]. intros I J HI.
    rewrite <- !(bdense_1 _ _ _ RowMajor), H by lia. rewrite !Nat.div_1_r. reflexivity.
  Qed.
End C15.
Example C15_case : wf_pat exB /\ wf_diag exB /\ wf_nodup exB /\ wf_vals 2 exB /\ nnzb exB = nnz exB /\
  wf_pat exM /\ wf_diag exM /\ wf_nodup exM /\ wf_vals 1 exM.
Proof.
  split; [exact exB_pat|]. split; [exact exB_diag|]. split; [exact (sorted_nodup _ exB_sorted)|]. split; [reflexivity|]. split; [reflexivity|].
  split; [exact exM_pat|]. split; [exact exM_diag|]. split; [exact (sorted_nodup _ exM_sorted)|]. reflexivity.
Qed.

(** ** C17 *)
(** [slt] orders the numbers satisfying [num] *)
Record order_on {F} (slt : F -> F -> bool) (num : F -> Prop) : Prop := {
  oo_irr : forall a, num a -> slt a a = false;
  oo_trans : forall a b c, num a -> num b -> num c -> slt a b = true -> slt b c = true -> slt a c = true;
  oo_total : forall a b, num a -> num b -> slt a b = false -> slt b a = false -> a = b
}.
Section C17.
  Context {F : Type} {O : SOps F} (sabs : F -> F) (slt : F -> F -> bool).
  Variable M : srmat F.
  Hypotheses (Hw : wf_pat M) (Hd : wf_diag M) (Hnd : wf_nodup M) (Hv : wf_vals 1 M).
  Lemma diag_entry_eq i : i < nbrows M -> diag_entry M i = Ok (dense M i i).
  Proof.
    intros Hi. unfold diag_entry, get at 1. rewrite (wf_diagind M i Hd Hi). cbn [bind]. unfold dense. rewrite (pos_diag M i Hnd Hd Hi).
    destruct (proj2 Hd i Hi) as [H _]. assert (dg M i < nnz M) by (apply (inrow_lt M i); [exact Hw|split; assumption]).
    apply vat_get. rewrite Hv. lia.
  Qed.
  (** the diagonal *)
  Definition diagonal : list F := (fun i => dense M i i) <$> seq 0 (nbrows M).
  Definition tiny (thr : F) (i : nat) : Prop := slt (sabs (dense M i i)) thr = true.
  (** the first row whose diagonal entry is tiny, -1 if there is none *)
  Theorem C17_zero_row thr : ok (zeroDiagonalRow sabs slt thr M) (fun z =>
    (z = (-1)%Z /\ forall i, i < nbrows M -> ~ tiny thr i) \/
    (exists i, i < nbrows M /\ z = Z.of_nat i /\ tiny thr i /\ forall k, k < i -> ~ tiny thr k)).
  Proof.
    unfold zeroDiagonalRow. assert (forall n i, i + n = nbrows M -> (forall k, k < i -> ~ tiny thr k) -> ok (zeroDiagonalRow_from sabs slt thr M n i) (fun z =>
      (z = (-1)%Z /\ forall i, i < nbrows M -> ~ tiny thr i) \/
      (exists i, i < nbrows M /\ z = Z.of_nat i /\ tiny thr i /\ forall k, k < i -> ~ tiny thr k))) as H; [|apply H; [lia|intros; lia]].
    induction n as [|n IH]; intros i Hn Hk; cbn [zeroDiagonalRow_from].
    - apply ok_ret. left. split; [reflexivity|]. intros k Hk'. apply Hk. lia.
    - rewrite diag_entry_eq by lia. cbn [bind]. destruct (slt (sabs (dense M i i)) thr) eqn:E.
      + apply ok_ret. right. exists i. split; [lia|]. split; [reflexivity|]. split; [exact E|exact Hk].
      + apply IH; [lia|]. intros k Hk'. destruct (decide (k = i)) as [->|]; [unfold tiny; congruence|apply Hk; lia].
  Qed.
  Theorem C17_zero_count thr : getNumZeroDiagonals sabs slt thr M = Ok (length (filter (fun x => slt (sabs x) thr = true) diagonal)).
  Proof.
    assert (ok (getNumZeroDiagonals sabs slt thr M) (fun z => z = length (filter (fun x => slt (sabs x) thr = true) diagonal))) as H.
    2:{ apply ok_inv in H as (z & -> & ->). reflexivity. }
    unfold getNumZeroDiagonals, diagonal. eapply ok_for_post with (I := fun k z => z = length (filter (fun x => slt (sabs x) thr = true) ((fun i => dense M i i) <$> seq 0 k))).
    - lia.
    - reflexivity.
    - intros i z Hi ->. rewrite diag_entry_eq by lia. cbn [bind]. apply ok_ret. replace (seq 0 (i + 1)) with (seq 0 i ++ [i]) by (rewrite seq_app; reflexivity). rewrite fmap_app, filter_app, app_length. simpl.
      rewrite filter_cons, filter_nil. destruct (slt _ _) eqn:E; [rewrite decide_True by reflexivity|rewrite decide_False by discriminate]; simpl; lia.
    - intros z ->. reflexivity.
  Qed.
  Lemma fold_diag {B} (f : B -> F -> B) (b0 : B) (Q : B -> Prop) : Q (foldl f b0 diagonal) ->
    ok (for_ 0 (nbrows M) (fun i b => let! a := diag_entry M i in Ok (f b a)) b0) Q.
  Proof.
    intros HQ. eapply ok_for_post with (I := fun k b => b = foldl f b0 ((fun i => dense M i i) <$> seq 0 k)).
    - lia.
    - reflexivity.
    - intros i b Hi ->. rewrite diag_entry_eq by lia. cbn [bind]. apply ok_ret. rewrite Nat.add_1_r, seq_S, fmap_app, foldl_app. reflexivity.
    - intros b ->. exact HQ.
  Qed.
  (** product and sum of magnitudes, from the first to the last *)
  Theorem C17_product : getDiagonalProduct M = Ok (foldl (fun p x => (p * x)%s) s1 diagonal).
  Proof.
    assert (ok (getDiagonalProduct M) (eq (foldl (fun p x => (p * x)%s) s1 diagonal))) as H by (apply (fold_diag (fun p x => (p * x)%s)); reflexivity).
    apply ok_inv in H as (z & -> & <-). reflexivity.
  Qed.
  Theorem C17_abs_sum : getDiagonalAbsSum sabs M = Ok (foldl (fun p x => (p + sabs x)%s) s0 diagonal).
  Proof.
    assert (ok (getDiagonalAbsSum sabs M) (eq (foldl (fun p x => (p + sabs x)%s) s0 diagonal))) as H by (apply (fold_diag (fun p x => (p + sabs x)%s)); reflexivity).
    apply ok_inv in H as (z & -> & <-). reflexivity.
  Qed.
  Lemma fold_min num (l : list F) inf : order_on slt num -> num inf -> (forall x, x ∈ l -> num (sabs x)) ->
    let m := foldl (fun m x => if slt (sabs x) m then sabs x else m) inf l in
    num m /\ (m = inf \/ exists x, x ∈ l /\ m = sabs x) /\ slt inf m = false /\ forall x, x ∈ l -> slt (sabs x) m = false.
  Proof.
    intros [Hirr Htr Htot] Hinf Hn. induction l as [|x l IH] using rev_ind; simpl.
    - split; [exact Hinf|]. split; [left; reflexivity|]. split; [apply Hirr, Hinf|]. intros x Hx. apply elem_of_nil in Hx as [].
    - rewrite foldl_app. simpl. destruct (IH ltac:(intros y Hy; apply Hn, elem_of_app; left; exact Hy)) as (I0 & I1 & I2 & I3).
      set (m := foldl _ inf l) in *. assert (num (sabs x)) as Hx by (apply Hn, elem_of_app; right; left).
      assert (forall y, num y -> slt y m = false -> slt (sabs x) m = true -> slt y (sabs x) = false) as Hlow.
      { intros y Hy H1 H2. destruct (slt y (sabs x)) eqn:E; [|reflexivity]. rewrite (Htr y (sabs x) m) in H1; auto. }
      destruct (slt (sabs x) m) eqn:E.
      + split; [exact Hx|]. split; [right; exists x; split; [apply elem_of_app; right; left|reflexivity]|]. split; [apply Hlow; auto|].
        intros y Hy. pose proof (Hn y Hy) as Hny. apply elem_of_app in Hy as [Hy|Hy]; [apply Hlow; auto|apply elem_of_list_singleton in Hy as ->; apply Hirr; exact Hx].
      + split; [exact I0|]. split; [destruct I1 as [I1|(y & Hy & I1)]; [left; exact I1|right; exists y; split; [apply elem_of_app; left; exact Hy|exact I1]]|].
        split; [exact I2|]. intros y Hy. apply elem_of_app in Hy as [Hy|Hy]; [apply I3, Hy|apply elem_of_list_singleton in Hy as ->; exact E].
  Qed.
  Lemma fold_max num (l : list F) z : order_on slt num -> num z -> (forall x, x ∈ l -> num (sabs x)) ->
    let m := foldl (fun m x => if slt m (sabs x) then sabs x else m) z l in
    num m /\ (m = z \/ exists x, x ∈ l /\ m = sabs x) /\ slt m z = false /\ forall x, x ∈ l -> slt m (sabs x) = false.
  Proof.
    intros [Hirr Htr Htot] Hinf Hn. induction l as [|x l IH] using rev_ind; simpl.
    - split; [exact Hinf|]. split; [left; reflexivity|]. split; [apply Hirr, Hinf|]. intros x Hx. apply elem_of_nil in Hx as [].
    - rewrite foldl_app. simpl. destruct (IH ltac:(intros y Hy; apply Hn, elem_of_app; left; exact Hy)) as (I0 & I1 & I2 & I3).
      set (m := foldl _ z l) in *. assert (num (sabs x)) as Hx by (apply Hn, elem_of_app; right; left).
      assert (forall y, num y -> slt m y = false -> slt m (sabs x) = true -> slt (sabs x) y = false) as Hlow.
      { intros y Hy H1 H2. destruct (slt (sabs x) y) eqn:E; [|reflexivity]. rewrite (Htr m (sabs x) y) in H1; auto. }
      destruct (slt m (sabs x)) eqn:E.
      + split; [exact Hx|]. split; [right; exists x; split; [apply elem_of_app; right; left|reflexivity]|]. split; [apply Hlow; auto|].
        intros y Hy. pose proof (Hn y Hy) as Hny. apply elem_of_app in Hy as [Hy|Hy]; [apply Hlow; auto|apply elem_of_list_singleton in Hy as ->; apply Hirr; exact Hx].
      + split; [exact I0|]. split; [destruct I1 as [I1|(y & Hy & I1)]; [left; exact I1|right; exists y; split; [apply elem_of_app; left; exact Hy|exact I1]]|].
        split; [exact I2|]. intros y Hy. apply elem_of_app in Hy as [Hy|Hy]; [apply I3, Hy|apply elem_of_list_singleton in Hy as ->; exact E].
  Qed.
  (** the least magnitude: it occurs on the diagonal and none is smaller *)
  Theorem C17_abs_min num inf : order_on slt num -> num inf -> 0 < nbrows M ->
    (forall x, x ∈ diagonal -> num (sabs x) /\ slt (sabs x) inf = true) ->
    ok (getAbsMinDiagonalEntry sabs slt inf M) (fun m => m ∈ (sabs <$> diagonal) /\ forall x, x ∈ diagonal -> slt (sabs x) m = false).
  Proof.
    intros Ho Hinf Hn Hx. apply (fold_diag (fun m x => if slt (sabs x) m then sabs x else m)).
    destruct (fold_min num diagonal inf Ho Hinf ltac:(intros x Hx'; apply Hx, Hx')) as (_ & H1 & _ & H3). split; [|exact H3].
    destruct H1 as [H1|(x & Hx' & ->)]; [|apply elem_of_list_fmap; eauto]. exfalso.
    assert (dense M 0 0 ∈ diagonal) as H0 by (apply elem_of_list_fmap; exists 0; split; [reflexivity|apply elem_of_seq; lia]).
    specialize (H3 _ H0). rewrite H1 in H3. destruct (Hx _ H0). congruence.
  Qed.
  (** without finite entries: infinity *)
  Theorem C17_abs_min_empty inf : nbrows M = 0 -> getAbsMinDiagonalEntry sabs slt inf M = Ok inf.
  Proof. intros E. unfold getAbsMinDiagonalEntry. rewrite E. reflexivity. Qed.
  Theorem C17_abs_max num : order_on slt num -> num s0 -> 0 < nbrows M ->
    (forall x, x ∈ diagonal -> num (sabs x) /\ slt (sabs x) s0 = false) ->
    ok (getAbsMaxDiagonalEntry sabs slt M) (fun m => m ∈ (sabs <$> diagonal) /\ forall x, x ∈ diagonal -> slt m (sabs x) = false).
  Proof.
    intros Ho Hz Hn Hx. apply (fold_diag (fun m x => if slt m (sabs x) then sabs x else m)).
    destruct (fold_max num diagonal s0 Ho Hz ltac:(intros x Hx'; apply Hx, Hx')) as (_ & H1 & _ & H3). split; [|exact H3].
    destruct H1 as [H1|(x & Hx' & ->)]; [|apply elem_of_list_fmap; eauto].
    assert (dense M 0 0 ∈ diagonal) as H0 by (apply elem_of_list_fmap; exists 0; split; [reflexivity|apply elem_of_seq; lia]).
    specialize (H3 _ H0). rewrite H1 in H3 |- *. destruct (Hx _ H0) as [Hn0 Hx0]. apply elem_of_list_fmap. exists (dense M 0 0). split; [|exact H0].
    apply (oo_total _ _ Ho); assumption.
  Qed.
End C17.
Definition Qlt (a b : Qc) : bool := match (a ?= b)%Qc with Lt => true | _ => false end.
Definition Qabs (a : Qc) : Qc := if Qlt a (q 0) then (- a)%Qc else a.
Lemma Qlt_spec a b : Qlt a b = true <-> (a < b)%Qc.
Proof. unfold Qlt. rewrite Qclt_alt. destruct (a ?= b)%Qc; split; congruence. Qed.
Lemma Qlt_order : order_on Qlt (fun _ => True).
Proof.
  split.
  - intros a _. destruct (Qlt a a) eqn:E; [|reflexivity]. apply Qlt_spec in E. destruct (Qclt_not_eq _ _ E eq_refl).
  - intros a b c _ _ _ H1 H2. apply Qlt_spec in H1, H2. apply Qlt_spec. eapply Qclt_trans; eauto.
  - intros a b _ _ H1 H2. destruct (Qc_dec a b) as [[H|H]|H]; [apply Qlt_spec in H; congruence|apply Qlt_spec in H; congruence|exact H].
Qed.
(** the diagonal 4, 5, 3 of [exM] *)
Example C17_case : wf_pat exM /\ wf_diag exM /\ wf_nodup exM /\ wf_vals 1 exM /\ order_on Qlt (fun _ => True) /\
  (forall x, x ∈ diagonal exM -> (True /\ Qlt (Qabs x) (q 100) = true) /\ (True /\ Qlt (Qabs x) (q 0) = false)) /\
  zeroDiagonalRow Qabs Qlt (q 4) exM = Ok 2%Z /\ zeroDiagonalRow Qabs Qlt (q 1) exM = Ok (-1)%Z /\ getNumZeroDiagonals Qabs Qlt (q 5) exM = Ok 2 /\
  getDiagonalProduct exM = Ok (q 60) /\ getDiagonalAbsSum Qabs exM = Ok (q 12) /\
  getAbsMinDiagonalEntry Qabs Qlt (q 100) exM = Ok (q 3) /\ getAbsMaxDiagonalEntry Qabs Qlt exM = Ok (q 5).
Proof.
  split; [exact exM_pat|]. split; [exact exM_diag|]. split; [exact (sorted_nodup _ exM_sorted)|]. split; [reflexivity|]. split; [exact Qlt_order|]. split.
  { intros x Hx. unfold diagonal in Hx. simpl in Hx. repeat (apply elem_of_cons in Hx as [-> |Hx]; [repeat split; vm_compute; reflexivity|]). apply elem_of_nil in Hx as []. }
  repeat split; vm_compute; do 2 f_equal; apply Qc_is_canon; reflexivity.
Qed.
