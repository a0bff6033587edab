(** * C13, C14: assembling a matrix by blocks *)
From Verif Require Import Base Alg SRMatrix Nd Coo ColMat BlockMat AssemblySpec AssemblyFacts Inst.
From Coq Require Import QArith.Qcanon ZArith.
Open Scope nat_scope.

(** outcomes that are a value or undefined behaviour *)
Definition clean {A} (m : res A) : Prop := m = UB \/ exists a, m = Ok a.
Lemma clean_get {A} (l : list A) i : clean (get l i).
Proof. unfold clean, get. destruct (l !! i); eauto. Qed.
Lemma clean_bind {A B} (m : res A) (k : A -> res B) : clean m -> (forall a, clean (k a)) -> clean (bind m k).
Proof. intros [-> |[a ->]] H; [left; reflexivity|apply H]. Qed.
Lemma mapr_UB {A B} (f : A -> res B) l a : (forall x, x ∈ l -> clean (f x)) -> a ∈ l -> f a = UB -> mapr f l = UB.
Proof.
  induction l as [|x l IH]; intros Hc Ha E; [apply elem_of_nil in Ha as []|]. cbn [mapr].
  destruct (Hc x ltac:(left)) as [-> |[b Eb]]; [reflexivity|]. rewrite Eb. cbn [bind].
  apply elem_of_cons in Ha as [-> |Ha]; [congruence|]. rewrite IH; [reflexivity|intros; apply Hc; right; assumption|exact Ha|exact E].
Qed.
Section RowSteps.
  Context {F : Type} {O : SOps F}.
  Variables (M : srmat F) (startj bsj stride locrow : nat).
  Lemma row_steps_clean b l : forall k, clean (row_steps M startj bsj stride locrow b l k).
  Proof.
    induction l as [|jj l IH]; intros k; cbn [row_steps]; [right; eauto|]. apply clean_bind; [apply clean_get|]. intros c.
    destruct (_ <? _); [apply IH|]. destruct (_ =? _); [right; eauto|]. apply clean_bind; [apply clean_get|]. intros x.
    apply clean_bind; [apply IH|]. intros r. right; eauto.
  Qed.
  Lemma row_steps_in b l : forall k r, row_steps M startj bsj stride locrow b l k = Ok r -> forall m, m < length r -> locrow * stride + k + m < length b.
  Proof.
    induction l as [|jj l IH]; intros k r E m Hm; cbn [row_steps] in E; [injection E as <-; simpl in Hm; lia|].
    apply bind_Ok in E as (c & _ & E). destruct (_ <? _); [eapply IH; eauto|]. destruct (_ =? _); [injection E as <-; simpl in Hm; lia|].
    apply bind_Ok in E as (x & E1 & E). apply bind_Ok in E as (r' & E2 & [= <-]). apply get_Some, lookup_lt_Some in E1.
    destruct m as [|m]; [lia|]. simpl in Hm. specialize (IH _ _ E2 m ltac:(lia)). lia.
  Qed.
  Lemma row_steps_more b e l : forall k r, row_steps M startj bsj stride locrow b l k = Ok r -> row_steps M startj bsj stride locrow (b ++ e) l k = Ok r.
  Proof.
    induction l as [|jj l IH]; intros k r E; cbn [row_steps] in E |- *; [exact E|].
    apply bind_Ok in E as (c & Ec & E). rewrite Ec. cbn [bind]. destruct (_ <? _); [apply IH, E|]. destruct (_ =? _); [exact E|].
    apply bind_Ok in E as (x & E1 & E). apply bind_Ok in E as (r' & E2 & [= <-]). apply get_Some in E1.
    unfold get. rewrite lookup_app_l by (eapply lookup_lt_Some; eauto). rewrite E1. cbn [bind]. rewrite (IH _ _ E2). reflexivity.
  Qed.
End RowSteps.

Lemma with_vals_same {F} (M : srmat F) v : length v = length (vals M) -> same_structure M (with_vals M v).
Proof. intros H. repeat split; assumption. Qed.

Section Assemble.
  Context {F : Type} {O : SOps F} {R : CRing F}.
  Variable M : srmat F.
  (** the common part: every call writes as told by [w] *)
  Lemma assemble_adds bs (w : call F -> nat -> option F) threads :
    (forall c, c ∈ concat threads -> ok (call_steps bs M c) (writes (length (vals M)) (w c))) ->
    nok (assemble bs M threads) (fun M' => same_structure M M' /\
      forall p, p < length (vals M) -> vat (vals M') p = (vat (vals M) p + lsum (fun c => default s0 (w c p)) (concat threads))%s).
  Proof.
    intros Hc. set (n := length (vals M)) in *. unfold assemble. apply nok_bind with (P := fun ls =>
      (forall u, u ∈ concat ls -> u.1 < n) /\ forall p, p < n -> amt p (concat ls) = lsum (fun c => default s0 (w c p)) (concat threads)).
    - apply nok_lift.
      assert (forall cs, (forall c, c ∈ cs -> ok (call_steps bs M c) (writes n (w c))) ->
        ok (let! l := mapr (call_steps bs M) cs in Ok (concat l)) (fun l => (forall u, u ∈ l -> u.1 < n) /\
          forall p, p < n -> amt p l = lsum (fun c => default s0 (w c p)) cs)) as Hcs.
      { induction cs as [|c cs IH]; intros H; cbn [mapr]; [simpl; split; [intros u Hu; apply elem_of_nil in Hu as []|reflexivity]|].
        specialize (IH ltac:(intros; apply H; right; assumption)).
        pose proof (H c ltac:(left)) as H0. apply ok_inv in H0 as (l & -> & Hl). cbn [bind].
        apply ok_inv in IH as (l' & E & I1 & I2). apply bind_Ok in E as (ls & -> & [= <-]). cbn [bind]. simpl. split.
        - intros u Hu. apply elem_of_app in Hu as [Hu|Hu]; [apply (wr_lt _ _ _ Hl u Hu)|apply I1, Hu].
        - intros p Hp. unfold amt. rewrite lsum_app. fold (amt p l) (amt p (concat ls)). rewrite I2, (amt_writes n (w c)) by assumption. reflexivity. }
      revert Hc. induction threads as [|cs threads IH]; intros Hc; cbn [mapr].
      { simpl. split; [intros u Hu; apply elem_of_nil in Hu as []|reflexivity]. }
      specialize (Hcs cs ltac:(intros; apply Hc; simpl; apply elem_of_app; left; assumption)).
      apply ok_inv in Hcs as (l & E & L1 & L2). rewrite E. cbn [bind].
      specialize (IH ltac:(intros; apply Hc; simpl; apply elem_of_app; right; assumption)).
      apply ok_inv in IH as (ls & -> & I1 & I2). cbn [bind]. simpl. split.
      + intros u Hu. apply elem_of_app in Hu as [Hu|Hu]; [apply L1, Hu|apply I1, Hu].
      + intros p Hp. unfold amt. rewrite lsum_app. fold (amt p l) (amt p (concat ls)). rewrite L2, I2 by exact Hp. rewrite lsum_app. reflexivity.
    - intros ls [L1 L2]. split; [eexists; exists (concat ls); split; [apply interleaving_exists|reflexivity]|].
      intros o (r & Hr & ->). apply interleaving_perm in Hr.
      eapply ok_bind; [apply run_adds; intros u Hu; apply L1; rewrite <- Hr; exact Hu|]. intros v [Hl H]. simpl.
      split; [apply with_vals_same, Hl|]. intros p Hp. rewrite H by exact Hp. f_equal. rewrite <- L2 by exact Hp. apply lsum_perm, Hr.
  Qed.
End Assemble.

Section Entries.
  Context {F : Type} {O : SOps F}.
  Variable M : srmat F.
  Hypotheses (Hw : wf_pat M).
  Lemma pos_same (M' : srmat F) i c : same_structure M M' -> pos M' i c = pos M i c.
  Proof. intros (E1 & E2 & _). unfold pos, col, rp. rewrite E1, E2. reflexivity. Qed.
  (** values of a block matrix entry by entry *)
  Lemma block_entry_at bs M' I J (g : nat -> F -> F) : 0 < bs -> wf_vals bs M -> same_structure M M' -> I < nbrows M * bs ->
    (forall p, p < length (vals M) -> vat (vals M') p = g p (vat (vals M) p)) ->
    match pos M (I / bs) (J / bs) with
    | Some j => inrow M (I / bs) j /\ col M j = J / bs /\ let k := I mod bs * bs + J mod bs in
        (j * (bs * bs) + k) / (bs * bs) = j /\ (j * (bs * bs) + k) mod (bs * bs) = k /\
        bdense RowMajor bs M' I J = g (j * (bs * bs) + k) (bdense RowMajor bs M I J)
    | None => bdense RowMajor bs M' I J = s0 /\ bdense RowMajor bs M I J = s0
    end.
  Proof.
    intros Hbs Hv Hs HI H. assert (I / bs < nbrows M) as Hi by (apply Nat.div_lt_upper_bound; lia). unfold bdense. rewrite (pos_same M') by exact Hs.
    destruct (pos M (I / bs) (J / bs)) as [j|] eqn:E; [|auto]. apply pos_Some in E as [H1 H2]; [|exact Hi]. split; [exact H1|]. split; [exact H2|].
    pose proof (Nat.mod_upper_bound I bs ltac:(lia)). pose proof (Nat.mod_upper_bound J bs ltac:(lia)). set (k := I mod bs * bs + J mod bs). assert (k < bs * bs) as Hk by (unfold k; nia).
    rewrite (Nat.add_comm (j * _)), Nat.div_add, Nat.mod_add, Nat.div_small, Nat.mod_small by nia. split; [lia|]. split; [reflexivity|].
    unfold bent. simpl. fold k. rewrite (Nat.add_comm (j * _)). apply (H (k + j * (bs * bs))). rewrite Hv. pose proof (inrow_lt M _ _ Hw H1). nia.
  Qed.
  Lemma scalar_entry_at M' I J (g : nat -> F -> F) : wf_vals 1 M -> same_structure M M' -> I < nbrows M ->
    (forall p, p < length (vals M) -> vat (vals M') p = g p (vat (vals M) p)) ->
    match pos M I J with
    | Some p => rowof M p = I /\ col M p = J /\ dense M' I J = g p (dense M I J)
    | None => dense M' I J = s0 /\ dense M I J = s0
    end.
  Proof.
    intros Hv Hs Hi H. unfold dense. rewrite (pos_same M') by exact Hs. destruct (pos M I J) as [p|] eqn:E; [|auto].
    apply pos_Some in E as [H1 H2]; [|exact Hi]. split; [apply rowof_inrow; assumption|]. split; [exact H2|].
    apply (H p). rewrite Hv. pose proof (inrow_lt M _ _ Hw H1). lia.
  Qed.
  Lemma bw_at bs r b j k : inrow M r j -> (j * (bs * bs) + k) / (bs * bs) = j -> (j * (bs * bs) + k) mod (bs * bs) = k ->
    forall i' j', bw bs M i' j' b (j * (bs * bs) + k) = if decide (r = i' /\ col M j = j') then Some (vat b k) else None.
  Proof. intros H1 E1 E2 i' j'. unfold bw. rewrite E1, E2, (rowof_inrow M r j Hw H1). reflexivity. Qed.
  Lemma rect_present i j h w : rect_stored M i j h w -> present M i j h w.
  Proof. intros [H1 H2]. split; [exact H1|]. intros I HI k Hk. apply H2. unfold in_rect. lia. Qed.
End Entries.

(** ** C13 *)
Section C13.
  Context {F : Type} {O : SOps F} {R : CRing F}.
  (** Block matrix: threads[t] is the sequence of calls of thread t. Whatever the interleaving of the element additions, the
      calls return, the structure is as before, and each stored entry is its initial value plus the sum of
      all that was meant for it. The positions of the diagonal blocks must be right if they are used. *)
  Theorem C13_block_assembly (bs : nat) (M : srmat F) (threads : list (list (call F))) :
    0 < bs -> wf_pat M -> wf_nodup M -> ((exists i b n, UpdateDiag i b n ∈ concat threads) -> wf_diag M) -> wf_vals bs M ->
    (forall c, c ∈ concat threads -> block_call bs M c) ->
    nok (assemble (Some bs) M threads) (fun M' => same_structure M M' /\
      forall I J, I < nbrows M * bs -> bdense RowMajor bs M' I J =
        match pos M (I / bs) (J / bs) with
        | Some _ => (bdense RowMajor bs M I J + lsum (fun c => block_share bs c I J) (concat threads))%s
        | None => s0
        end).
  Proof.
    intros Hbs Hw Hnd Hd Hv Hc.
    set (w := fun c : call F => match c with Update i j b _ _ => bw bs M (i / bs) (j / bs) b | UpdateDiag i b _ => bw bs M (i / bs) (i / bs) b end).
    eapply nok_mono; [apply (assemble_adds M (Some bs) w)|].
    - intros c Hin. specialize (Hc c Hin). destruct c as [i j b ? ?|i b ?]; simpl in Hc |- *; destruct Hc as [Hi Hb].
      + apply updateBlock_writes; auto. apply Nat.div_lt_upper_bound; lia.
      + apply updateDiagBlock_writes; auto; [eauto|]. apply Nat.div_lt_upper_bound; lia.
    - intros M' [Hs H]. split; [exact Hs|]. intros I J HI. pose proof (block_entry_at M Hw bs M' I J (fun p x => (x + lsum (fun c => default s0 (w c p)) (concat threads))%s) Hbs Hv Hs HI H) as HE.
      destruct (pos M (I / bs) (J / bs)) as [j|]; [|apply HE]. destruct HE as (H1 & H2 & E1 & E2 & ->). f_equal. apply lsum_ext. intros c _.
      destruct c as [i j' b ? ?|i b ?]; unfold w, block_share; rewrite (bw_at M Hw bs _ b _ _ H1 E1 E2), H2; repeat case_decide; unfold in_block in *; simpl; tauto.
  Qed.
  (** Scalar matrix, square blocks (see C14 for the others) *)
  Theorem C13_scalar_assembly (M : srmat F) (threads : list (list (call F))) :
    wf_pat M -> wf_sorted M -> ((exists i b n, UpdateDiag i b n ∈ concat threads) -> wf_diag M) -> wf_vals 1 M ->
    (forall c, c ∈ concat threads -> scalar_call M c /\ square_call c) ->
    nok (assemble None M threads) (fun M' => same_structure M M' /\
      forall I J, I < nbrows M -> dense M' I J =
        match pos M I J with
        | Some _ => (dense M I J + lsum (fun c => scalar_share c I J) (concat threads))%s
        | None => s0
        end).
  Proof.
    intros Hw Hso Hd Hv Hc.
    set (w := fun c : call F => match c with Update i j b h w => sw M i j h w w b | UpdateDiag i b n => sw M i i n n n b end).
    eapply nok_mono; [apply (assemble_adds M None w)|].
    - intros c Hin. destruct (Hc c Hin) as [H1 H2]. destruct c as [i j b h wd|i b n]; simpl in H1, H2 |- *; destruct H1 as [H1 Hb].
      + subst wd. apply rows_steps_writes; auto; [apply rect_present, H1|]. destruct h; simpl in *; lia.
      + apply updateDiagBlock1_writes; auto; [eauto|]. apply rect_present, H1.
    - intros M' [Hs H]. split; [exact Hs|]. intros I J HI. pose proof (scalar_entry_at M Hw M' I J (fun p x => (x + lsum (fun c => default s0 (w c p)) (concat threads))%s) Hv Hs HI H) as HE.
      destruct (pos M I J) as [p|]; [|apply HE]. destruct HE as (E1 & E2 & ->). f_equal. apply lsum_ext. intros c _.
      destruct c as [i j' b ? ?|i b ?]; unfold w, scalar_share, sw; rewrite E1, E2; repeat case_decide; unfold in_rect in *; simpl; tauto.
  Qed.
End C13.
Section C13submit.
  Context {F : Type} {O : SOps F}.
  (** a submitted block replaces the entries of its block and no others; if the block is not in the pattern nothing changes *)
  Theorem C13_submit (bs : nat) (M : srmat F) (i j : nat) (b : list F) :
    0 < bs -> wf_pat M -> wf_end M -> wf_vals bs M -> i < nbrows M * bs -> bs * bs <= length b ->
    ok (submitBlock bs M i j b) (fun M' => same_structure M M' /\
      forall I J, I < nbrows M * bs -> bdense RowMajor bs M' I J =
        if decide (in_block bs i j I J /\ pos M (I / bs) (J / bs) <> None) then vat b (I mod bs * bs + J mod bs) else bdense RowMajor bs M I J).
  Proof.
    intros Hbs Hw He Hv Hi Hb. unfold submitBlock.
    eapply ok_bind; [apply submitBlock_writes; auto; apply Nat.div_lt_upper_bound; lia|]. intros l Hl.
    eapply ok_bind; [eapply run_puts; [reflexivity|exact Hl]|]. intros v [Lv H]. simpl. pose proof (with_vals_same M v Lv) as Hs. split; [exact Hs|].
    intros I J HI. pose proof (block_entry_at M Hw bs (with_vals M v) I J (fun p x => default x (bw bs M (i / bs) (j / bs) b p)) Hbs Hv Hs HI H) as HE.
    destruct (pos M (I / bs) (J / bs)) as [p|]; [|destruct HE as [-> ->]; destruct (decide _); [tauto|reflexivity]].
    destruct HE as (H1 & H2 & E1 & E2 & ->). rewrite (bw_at M Hw bs _ b _ _ H1 E1 E2), H2.
    repeat case_decide; unfold in_block in *; simpl; try reflexivity; exfalso; intuition congruence.
  Qed.
End C13submit.

(** ** C14 *)
Section C14.
  Context {F : Type} {O : SOps F}.
  (** submitting a rectangle of any shape to a scalar matrix puts its entries in their places *)
  Theorem C14_submit (M : srmat F) (i j h w : nat) (b : list F) :
    wf_pat M -> wf_sorted M -> wf_vals 1 M -> rect_stored M i j h w -> h * w <= length b ->
    ok (submitBlock1 M i j b h w) (fun M' => same_structure M M' /\
      forall I J, I < nbrows M -> dense M' I J = if decide (in_rect i j h w I J) then vat b ((I - i) * w + (J - j)) else dense M I J).
  Proof.
    intros Hw Hso Hv Hr Hb. unfold submitBlock1. pose proof Hr as [_ Hst]. destruct (decide (h = 0)) as [->|Hh].
    { unfold rows_steps. rewrite range_nil by lia. cbn [mapr bind concat doall]. simpl. split; [apply with_vals_same; reflexivity|].
      intros I J HI. unfold in_rect. rewrite decide_False by lia. reflexivity. }
    eapply ok_bind; [apply rows_steps_writes; auto; [apply rect_present, Hr|nia]|]. intros l Hl.
    eapply ok_bind; [eapply run_puts; [reflexivity|exact Hl]|]. intros v [Lv H]. simpl. pose proof (with_vals_same M v Lv) as Hs. split; [exact Hs|].
    intros I J HI. pose proof (scalar_entry_at M Hw (with_vals M v) I J (fun p x => default x (sw M i j h w w b p)) Hv Hs HI H) as HE.
    destruct (pos M I J) as [p|] eqn:E; [|destruct HE as [-> ->]; destruct (decide _) as [Hin|]; [exfalso; apply (Hst I J Hin E)|reflexivity]].
    destruct HE as (E1 & E2 & ->). unfold sw. rewrite E1, E2. repeat case_decide; unfold in_rect in *; simpl; tauto.
  Qed.
  Context {R : CRing F}.
  Add Ring Fr : cring.
  (** what adding a rectangle really does: the buffer is read with row length h (its height) instead of w *)
  Theorem C14_update_exact (M : srmat F) (i j h w : nat) (b : list F) :
    wf_pat M -> wf_sorted M -> wf_vals 1 M -> rect_stored M i j h w -> (h - 1) * h + w <= length b ->
    nok (assemble None M [[Update i j b h w]]) (fun M' => same_structure M M' /\
      forall I J, I < nbrows M -> dense M' I J = if decide (in_rect i j h w I J) then (dense M I J + vat b ((I - i) * h + (J - j)))%s else dense M I J).
  Proof.
    intros Hw Hso Hv Hr Hb. pose proof Hr as [_ Hst].
    eapply nok_mono; [apply (assemble_adds M None (fun _ => sw M i j h w h b))|].
    - intros c Hin. simpl in Hin. apply elem_of_list_singleton in Hin as ->. apply rows_steps_writes; auto. apply rect_present, Hr.
    - intros M' [Hs H]. split; [exact Hs|]. intros I J HI. pose proof (scalar_entry_at M Hw M' I J (fun p x => (x + lsum (fun _ => default s0 (sw M i j h w h b p)) (concat [[Update i j b h w]]))%s) Hv Hs HI H) as HE.
      destruct (pos M I J) as [p|] eqn:E; [|destruct HE as [-> ->]; destruct (decide _) as [Hin|]; [exfalso; apply (Hst I J Hin E)|reflexivity]].
      destruct HE as (E1 & E2 & ->). simpl. unfold sw. rewrite E1, E2. repeat case_decide; unfold in_rect in *; simpl; try tauto; ring.
  Qed.
  (** the property holds for squares *)
  Theorem C14_square (M : srmat F) (i j n : nat) (b : list F) :
    wf_pat M -> wf_sorted M -> wf_vals 1 M -> rect_stored M i j n n -> n * n <= length b ->
    nok (assemble None M [[Update i j b n n]]) (fun M' => same_structure M M' /\
      forall I J, I < nbrows M -> dense M' I J = if decide (in_rect i j n n I J) then (dense M I J + vat b ((I - i) * n + (J - j)))%s else dense M I J).
  Proof. intros Hw Hso Hv Hr Hb. apply C14_update_exact; auto. destruct n; simpl in *; lia. Qed.
  (** it fails for every other shape of two rows or more and one column or more, at every place of every matrix:
      if the rectangle is higher than wide, the call reads behind the end of a buffer of the right size; *)
  Theorem C14_tall_refuted (M : srmat F) (i j h w : nat) (b : list F) :
    wf_pat M -> wf_sorted M -> rect_stored M i j h w -> 2 <= h -> 1 <= w < h -> length b = h * w ->
    forall o, assemble None M [[Update i j b h w]] o <-> o = UB.
  Proof.
    intros Hw Hso Hr Hh Hwd Hb o. pose proof (rect_present M i j h w Hr) as [Hn Hp].
    assert (rows_steps M i j h w h b = UB) as E.
    2:{ unfold assemble. cbn [mapr]. cbn [call_steps]. unfold updateBlock1_steps. rewrite E. cbn [bind].
        split; [intros (x & -> & Hx); exact Hx|]. intros ->. exists UB. split; reflexivity. }
    unfold rows_steps. rewrite mapr_UB with (a := i + (h - 1)); [reflexivity| |apply elem_of_range; lia|].
    - intros I HI. apply elem_of_range in HI. apply clean_bind; [apply clean_get|]. intros lo. apply clean_bind; [apply clean_get|]. intros hi. apply row_steps_clean.
    - unfold get. rewrite !(wf_browptr M _ Hw) by lia. cbn [bind]. replace (i + (h - 1) - i) with (h - 1) by lia.
      destruct (row_steps_clean M j w h (h - 1) b (range (rp M (i + (h - 1))) (rp M (i + (h - 1) + 1))) 0) as [E|[r E]]; [exact E|exfalso].
      pose proof (row_steps_in _ _ _ _ _ _ _ _ _ E) as Hin. apply row_steps_more with (e := replicate (h * h) s0) in E.
      rewrite row_steps_eq in E; [|exact Hw|exact Hso|lia|apply Hp; lia|rewrite app_length, replicate_length; nia]. injection E as <-.
      unfold rowl in Hin. destruct (pos M (i + (h - 1)) j) eqn:E0; [|apply (Hp (i + (h - 1)) ltac:(lia) 0 ltac:(lia)); rewrite Nat.add_0_r; exact E0].
      rewrite fmap_length, seq_length in Hin. specialize (Hin (w - 1) ltac:(lia)). nia.
  Qed.
  (** if it is wider than high, some buffer shows an entry of the wrong place of the buffer added. *)
  Theorem C14_wide_refuted (M : srmat F) (i j h w : nat) :
    s1 <> s0 :> F -> wf_pat M -> wf_sorted M -> wf_vals 1 M -> rect_stored M i j h w -> 2 <= h < w ->
    exists b, length b = h * w /\ nok (assemble None M [[Update i j b h w]]) (fun M' =>
      in_rect i j h w (i + 1) j /\ dense M' (i + 1) j <> (dense M (i + 1) j + vat b ((i + 1 - i) * w + (j - j)))%s).
  Proof.
    intros H10 Hw Hso Hv Hr Hh. set (b := <[h := s1]> (replicate (h * w) (@s0 F O))).
    assert (length b = h * w) as Lb by (unfold b; rewrite insert_length, replicate_length; reflexivity). exists b. split; [exact Lb|].
    eapply nok_mono; [apply C14_update_exact; auto; rewrite Lb; nia|]. intros M' [Hs H]. assert (in_rect i j h w (i + 1) j) as Hin by (unfold in_rect; lia).
    split; [exact Hin|]. destruct Hr as [Hn _]. rewrite H by lia. rewrite decide_True by exact Hin.
    replace ((i + 1 - i) * h + (j - j)) with h by lia. replace ((i + 1 - i) * w + (j - j)) with w by lia.
    assert (vat b h = s1) as -> by (unfold vat, b; rewrite list_lookup_insert by (rewrite replicate_length; nia); reflexivity).
    assert (vat b w = s0) as -> by (unfold vat, b; rewrite list_lookup_insert_ne by lia; rewrite lookup_replicate_2 by nia; reflexivity).
    intros E. apply H10. transitivity ((dense M (i + 1) j + s1) - dense M (i + 1) j)%s; [ring|]. rewrite E. ring.
  Qed.
End C14.

(** ** Cases *)
(** two threads; both add to the middle diagonal block of [exB], and one addresses a block that is not stored *)
Definition exThreads : list (list (call Qc)) :=
  [[Update 2 2 (q <$> [1; 2; 3; 4]%Z) 2 2; Update 0 5 (q <$> [9; 9; 9; 9]%Z) 2 2];
   [UpdateDiag 3 (q <$> [10; 20; 30; 40]%Z) 2; Update 4 2 (q <$> [5; 6; 7; 8]%Z) 2 2]].
Example C13_case : wf_pat exB /\ wf_nodup exB /\ wf_diag exB /\ wf_vals 2 exB /\ (forall c, c ∈ concat exThreads -> block_call 2 exB c) /\
  nok (assemble (Some 2) exB exThreads) (fun M' => bdense RowMajor 2 M' 3 2 = q 34 /\ bdense RowMajor 2 M' 5 2 = q 8 /\ bdense RowMajor 2 M' 0 5 = q 0).
Proof.
  pose proof exB_pat as Hw. pose proof (sorted_nodup _ exB_sorted) as Hn. assert (wf_vals 2 exB) as Hv by reflexivity.
  assert (forall c, c ∈ concat exThreads -> block_call 2 exB c) as Hc.
  { intros c Hc. repeat (apply elem_of_cons in Hc as [-> |Hc]; [simpl; lia|]). apply elem_of_nil in Hc as []. }
  split; [exact Hw|]. split; [exact Hn|]. split; [exact exB_diag|]. split; [exact Hv|]. split; [exact Hc|].
  eapply nok_mono; [apply (C13_block_assembly 2 exB exThreads); auto; intros _; exact exB_diag|]. intros M' [_ H].
  rewrite !H by (simpl; lia). split; [|split]; apply Qc_is_canon; vm_compute; reflexivity.
Qed.
(** squares and rectangles in the lower right of [exM] *)
Definition exU : list (list (call Qc)) :=
  [[Update 1 1 (q <$> [1; 2; 3; 4]%Z) 2 2]; [UpdateDiag 0 (q <$> [10; 20; 30; 40]%Z) 2]].
Example C13_scalar_case : wf_pat exM /\ wf_sorted exM /\ wf_diag exM /\ wf_vals 1 exM /\ (forall c, c ∈ concat exU -> scalar_call exM c /\ square_call c) /\
  nok (assemble None exM exU) (fun M' => dense M' 1 1 = q 46 /\ dense M' 2 1 = q 4 /\ dense M' 1 0 = q 32).
Proof.
  pose proof exM_pat as Hw. assert (wf_vals 1 exM) as Hv by reflexivity.
  assert (forall c, c ∈ concat exU -> scalar_call exM c /\ square_call c) as Hc.
  { assert (forall i, i <= 1 -> rect_stored exM i i 2 2) as Hr.
    { intros i Hi. split; [simpl; lia|]. intros I J [HI HJ]. destruct i as [|[|]]; [| |lia];
      (do 3 (destruct I as [|I]; [try lia; do 3 (destruct J as [|J]; [try lia; discriminate|]); lia|])); lia. }
    intros c Hc. repeat (apply elem_of_cons in Hc as [-> |Hc]; [split; [split; [apply Hr; lia|simpl; lia]|exact Logic.I || reflexivity]|]). apply elem_of_nil in Hc as []. }
  split; [exact Hw|]. split; [exact exM_sorted|]. split; [exact exM_diag|]. split; [exact Hv|]. split; [exact Hc|].
  eapply nok_mono; [apply (C13_scalar_assembly exM exU); auto using exM_sorted, exM_diag|]. intros M' [_ H].
  rewrite !H by (simpl; lia). split; [|split]; apply Qc_is_canon; vm_compute; reflexivity.
Qed.
(** a full 3x3 matrix holds both a 2-by-3 and a 3-by-2 rectangle *)
Definition exFull : srmat Qc := SR [0; 3; 6; 9] [0; 1; 2; 0; 1; 2; 0; 1; 2] (q <$> [1; 2; 3; 4; 5; 6; 7; 8; 9]%Z) [0; 4; 8] [3; 6; 9] 3 9 9.
Example C14_case : wf_pat exFull /\ wf_sorted exFull /\ wf_vals 1 exFull /\ rect_stored exFull 1 0 2 3 /\ rect_stored exFull 0 1 3 2 /\
  (exists M', submitBlock1 exFull 1 0 (q <$> [10; 20; 30; 40; 50; 60]%Z) 2 3 = Ok M' /\ vals M' = q <$> [1; 2; 3; 10; 20; 30; 40; 50; 60]%Z).
Proof.
  split; [apply wfb_pat_ok; reflexivity|]. split; [apply wfb_sorted_ok; reflexivity|]. split; [reflexivity|].
  assert (forall I J, I < 3 -> J < 3 -> pos exFull I J <> None) as Hp.
  { intros I J HI HJ. (do 3 (destruct I as [|I]; [do 3 (destruct J as [|J]; [discriminate|]); lia|])); lia. }
  split; [split; [simpl; lia|]; intros I J [HI HJ]; apply Hp; lia|]. split; [split; [simpl; lia|]; intros I J [HI HJ]; apply Hp; lia|].
  eexists. split; reflexivity.
Qed.

Print Assumptions C13_block_assembly.
Print Assumptions C13_scalar_assembly.
Print Assumptions C13_submit.
Print Assumptions C14_submit.
Print Assumptions C14_update_exact.
Print Assumptions C14_square.
Print Assumptions C14_tall_refuted.
Print Assumptions C14_wide_refuted.
