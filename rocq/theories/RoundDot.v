(** * RoundDot: sums evaluated with rounding errors, in order or in any other way *)
From Coq Require Import QArith.Qcanon Field.
From Verif Require Import Base Alg Inst Rounding RoundFacts SRMatrix Async AsyncTheory AsyncSystem Nd Kernels KernelFacts
  IluApply IluApplyFacts Sgs SgsFacts Reduce.

Open Scope Qc_scope.

(** the fused operations round once *)
Record fused_rounds (u : Qc) (sfma sfnma : Qc -> Qc -> Qc -> Qc) : Prop := {
  fr_add : forall a b c, rounded u (a * b + c) (sfma a b c);
  fr_sub : forall a b c, rounded u (c - a * b) (sfnma a b c)
}.

Section Dot.
  Variable u : Qc.
  Notation close := (close u).

  (** [dot] computes the sum with at most [hi-lo+1] roundings of each term and [hi-lo] of
      the initial value, whatever values its reads return *)
  Definition dot_rounds (dot : list Qc -> list nat -> nat -> nat -> Qc -> @P Qc Qc) : Prop :=
    forall (rd : nat -> Qc -> Prop) vs colind lo hi init,
    (lo <= hi)%nat -> (hi <= length vs)%nat -> (hi <= length colind)%nat ->
    (forall j, (lo <= j < hi)%nat -> exists v, rd (colind !!! j) v) ->
    wp rd nowr (dot vs colind lo hi init) (fun a => exists ti y t,
      close (hi - lo) ti /\ (forall j, (lo <= j < hi)%nat -> rd (colind !!! j) (y j) /\ close (hi - lo + 1) (t j)) /\
      a = init * ti + lsum (fun j => vat vs j * y j * t j) (range lo hi)).
  Definition msub_rounds (ms : Qc -> Qc -> Qc -> Qc) : Prop :=
    forall rhs a b, exists t s, close 1 t /\ close 1 s /\ ms rhs a b = (rhs - a * b * t) * s.

  Section Machine.
    Variable Of : machine.
    Hypothesis H : rounds u Of.
    Let Hu0 : 0 <= u := rd_nonneg u Of H.
    Let Hu1 : u < 1 := rd_lt u Of H.

    Lemma sdot_rounds : dot_rounds (@sdot Qc Of).
    Proof.
      intros rd vs colind lo hi init Hle Hv Hc Hex.
      set (I := fun (j : nat) (a : Qc) => exists ti y t, close (j - lo) ti /\
        (forall k, (lo <= k < j)%nat -> rd (colind !!! k) (y k) /\ close (j - lo + 1) (t k)) /\
        a = init * ti + lsum (fun j => vat vs j * y j * t j) (range lo j)).
      unfold sdot. apply (wp_pfor_post _ _ _ _ _ _ I); [exact Hle| | |auto].
      - exists 1, (fun _ => 0), (fun _ => 1). split; [apply close_one; auto|]. split; [intros; lia|].
        rewrite range_same. change (init = init * 1 + 0). ring.
      - intros j inter Hj (ti & y & t & H1 & H2 & ->). apply wp_bind, wp_plift.
        eapply ok_get; [apply vat_Some; lia|].
        apply wp_bind, wp_plift. eapply ok_get; [apply list_lookup_lookup_total_lt; lia|].
        apply wp_bind. apply wp_pread; [apply Hex, Hj|].
        intros x Hx. simpl.
        destruct (fl_mul u Of H (vat vs j) x) as (tm & Hm1 & ->).
        destruct (fl_add u Of H (init * ti + lsum (fun j => vat vs j * y j * t j) (range lo j)) (vat vs j * x * tm)) as (ta & Ha1 & ->).
        set (y' := fun k => if decide (k = j) then x else y k).
        exists (ti * ta), y', (bump t j tm ta). split; [|split].
        + replace (j + 1 - lo)%nat with (j - lo + 1)%nat by lia. apply close_mul; auto.
        + intros k Hk. replace (j + 1 - lo + 1)%nat with ((j - lo + 1) + 1)%nat by lia. split.
          * unfold y'. destruct (decide (k = j)) as [->|Hne]; [exact Hx|]. apply H2. lia.
          * apply (bump_close u Of H (j - lo + 1) t lo j tm ta); auto; [|lia]. intros i Hi. apply H2, Hi.
        + rewrite lsum_bump by lia. unfold y' at 2. rewrite decide_True by done.
          rewrite (lsum_ext (fun k => vat vs k * y' k * t k) (fun k => vat vs k * y k * t k)).
          * ring.
          * intros k Hk. apply elem_of_range in Hk. unfold y'. rewrite decide_False by lia. reflexivity.
    Qed.
    Lemma plain_rounds : msub_rounds (@msub_plain Qc Of).
    Proof.
      intros rhs a b. unfold msub_plain. destruct (fl_mul u Of H a b) as (t & Ht & ->).
      destruct (fl_sub u Of H rhs (a * b * t)) as (s & Hs & ->). eauto 10.
    Qed.

    (** *** Any order *)
    Variables sfma sfnma : Qc -> Qc -> Qc -> Qc.
    Hypothesis HF : fused_rounds u sfma sfnma.
    Lemma msub_fl fused : msub_rounds (@msub Qc Of sfnma fused).
    Proof.
      intros rhs a b. destruct fused; simpl; [|apply plain_rounds].
      destruct (rounded_close u (rd_nonneg u Of H) (rd_lt u Of H) _ _ (fr_sub _ _ _ HF a b rhs)) as (s & Hs & ->).
      exists 1, s. split; [apply close_one; auto|]. split; [exact Hs|]. ring.
    Qed.
    Lemma uses_pos o : (1 <= length (uses o))%nat.
    Proof. induction o; simpl; rewrite ?app_length; lia. Qed.
    Definition term (v x : nat -> Qc) (init ti : Qc) (t : nat -> Qc) (w : option nat) : Qc :=
      match w with None => init * ti | Some j => v j * x j * t j end.
    Lemma oeval_fl v x init o : NoDup (uses o) ->
      exists ti t, close (length (uses o) - 1) ti /\ (forall j, close (length (uses o)) (t j)) /\
        @oeval Qc Of sfma v x init o = lsum (term v x init ti t) (uses o).
    Proof.
      induction o as [|j|a IHa b IHb|j a IH]; intros Hnd.
      - exists 1, (fun _ => 1). split; [apply close_one; auto|]. split; [intros; apply close_one; auto|].
        change (init = init * 1 + 0). ring.
      - cbn [oeval]. destruct (fl_mul u Of H (v j) (x j)) as (s & Hs & ->). exists 1, (fun _ => s).
        split; [apply close_one; auto|]. split; [intros; exact Hs|]. change (v j * x j * s = v j * x j * s + 0). ring.
      - cbn [uses oeval] in *. apply NoDup_app in Hnd as (Na & Nab & Nb).
        destruct (IHa Na) as (tia & ta & A1 & A2 & ->). destruct (IHb Nb) as (tib & tb & B1 & B2 & ->).
        destruct (fl_add u Of H (lsum (term v x init tia ta) (uses a)) (lsum (term v x init tib tb) (uses b))) as (s & Hs & ->).
        pose proof (uses_pos a) as La. pose proof (uses_pos b) as Lb. rewrite app_length.
        exists ((if decide (None ∈ uses a) then tia else tib) * s), (fun k => (if decide (Some k ∈ uses a) then ta k else tb k) * s).
        split; [|split].
        + destruct (decide _).
          * eapply (close_mono u Hu0 Hu1); [|apply (close_mul u Hu1 _ _ _ _ A1 Hs)]. lia.
          * eapply (close_mono u Hu0 Hu1); [|apply (close_mul u Hu1 _ _ _ _ B1 Hs)]. lia.
        + intros k. destruct (decide _).
          * eapply (close_mono u Hu0 Hu1); [|apply (close_mul u Hu1 _ _ _ _ (A2 k) Hs)]. lia.
          * eapply (close_mono u Hu0 Hu1); [|apply (close_mul u Hu1 _ _ _ _ (B2 k) Hs)]. lia.
        + rewrite lsum_app. change (@sadd Qc Qc_ops) with Qcplus. rewrite Qcmult_plus_distr_l, <- !lsum_mul. f_equal; apply lsum_ext.
          * intros [k|] Hk; simpl; rewrite decide_True by exact Hk; ring.
          * intros [k|] Hk; simpl; rewrite decide_False by (intros E; apply (Nab _ E Hk)); ring.
      - cbn [uses oeval] in *. apply NoDup_cons in Hnd as [Nj Na].
        destruct (IH Na) as (tia & ta & A1 & A2 & ->).
        destruct (rounded_close u (rd_nonneg u Of H) (rd_lt u Of H) _ _ (fr_add _ _ _ HF (v j) (x j) (lsum (term v x init tia ta) (uses a)))) as (s & Hs & ->).
        pose proof (uses_pos a) as La. cbn [length].
        exists (tia * s), (fun k => (if decide (k = j) then 1 else ta k) * s). split; [|split].
        + eapply (close_mono u Hu0 Hu1); [|apply (close_mul u Hu1 _ _ _ _ A1 Hs)]. lia.
        + intros k. destruct (decide (k = j)).
          * replace (1 * s) with s by ring. eapply (close_mono u Hu0 Hu1); [|exact Hs]. lia.
          * eapply (close_mono u Hu0 Hu1); [|apply (close_mul u Hu1 _ _ _ _ (A2 k) Hs)]. lia.
        + change (lsum ?f (Some j :: uses a)) with (f (Some j) + lsum f (uses a)). rewrite Qcmult_plus_distr_l, <- lsum_mul. f_equal.
          * simpl. rewrite decide_True by done. ring.
          * apply lsum_ext. intros [k|] Hk; simpl; [|ring]. rewrite decide_False by (intros ->; contradiction). ring.
    Qed.
    Lemma rdot_rounds ord : valid_order ord -> dot_rounds (@rdot Qc Of sfma ord).
    Proof.
      intros Hord rd vs colind lo hi init Hle Hv Hc Hex. unfold rdot.
      set (I := fun (j : nat) (vx : nat -> Qc * Qc) => forall k, (lo <= k < j)%nat -> (vx k).1 = vat vs k /\ rd (colind !!! k) (vx k).2).
      apply wp_bind. apply (wp_pfor_post _ _ _ _ _ _ I); [exact Hle|intros k Hk; lia| |].
      - intros j vx Hj HI. apply wp_bind, wp_plift. eapply ok_get; [apply vat_Some; lia|].
        apply wp_bind, wp_plift. eapply ok_get; [apply list_lookup_lookup_total_lt; lia|].
        apply wp_bind. apply wp_pread; [apply Hex, Hj|]. intros x Hx. simpl. intros k Hk.
        destruct (decide (k = j)) as [->|Hne]; [auto|]. apply HI. lia.
      - intros vx HI. simpl. pose proof (Hord lo hi) as Hcov. unfold covers in Hcov.
        assert (NoDup (uses (ord lo hi))) as Hnd.
        { rewrite Hcov. apply NoDup_cons. split; [intros E; apply elem_of_list_fmap in E as (? & ? & _); discriminate|].
          apply NoDup_fmap; [intros ? ? E; injection E; auto|apply NoDup_seq]. }
        assert (length (uses (ord lo hi)) = hi - lo + 1)%nat as Hlen.
        { rewrite Hcov. simpl. rewrite fmap_length. unfold range. rewrite seq_length. lia. }
        destruct (oeval_fl (fun k => (vx k).1) (fun k => (vx k).2) init _ Hnd) as (ti & t & H1 & H2 & ->). rewrite Hlen in H1, H2.
        exists ti, (fun k => (vx k).2), t. split; [replace (hi - lo)%nat with (hi - lo + 1 - 1)%nat by lia; exact H1|]. split.
        + intros j Hj. split; [apply HI, Hj|apply H2].
        + rewrite (lsum_perm _ _ _ Hcov). change (lsum ?f (None :: ?l)) with (f None + lsum f l). f_equal.
          transitivity (lsum (fun k => (vx k).1 * (vx k).2 * t k) (range lo hi)).
          * clear Hcov. unfold lsum. induction (range lo hi) as [|j l IH]; simpl; [reflexivity|]. f_equal. exact IH.
          * apply lsum_ext. intros j Hj. apply elem_of_range in Hj. destruct (HI j Hj) as [-> _]. reflexivity.
    Qed.
  End Machine.

  (** ** What follows for one run, and for the safety of the kernels *)
  Variable dot : list Qc -> list nat -> nat -> nat -> Qc -> @P Qc Qc.
  Hypothesis Hdot : dot_rounds dot.
  Lemma exec_dot_fl ms vs colind lo hi init :
    (lo <= hi)%nat -> (hi <= length vs)%nat -> (hi <= length colind)%nat ->
    (forall j, (lo <= j < hi)%nat -> (colind !!! j < length ms)%nat) ->
    exists ti t, close (hi - lo) ti /\ (forall j, (lo <= j < hi)%nat -> close (hi - lo + 1) (t j)) /\
    exec ms (dot vs colind lo hi init) =
      Ok (init * ti + lsum (fun j => vat vs j * vat ms (colind !!! j) * t j) (range lo hi), ms).
  Proof.
    intros Hle Hv Hc Hm.
    destruct (exec_wp ms (dot vs colind lo hi init) (fun a => exists ti y t,
      close (hi - lo) ti /\ (forall j, (lo <= j < hi)%nat -> ms !! (colind !!! j) = Some (y j) /\ close (hi - lo + 1) (t j)) /\
      a = init * ti + lsum (fun j => vat vs j * y j * t j) (range lo hi))) as (a & He & ti & y & t & H1 & H2 & ->).
    - apply (Hdot (fun l v => ms !! l = Some v)); auto. intros j Hj. eexists. apply vat_Some, Hm, Hj.
    - exists ti, t. split; [exact H1|]. split; [intros j Hj; apply H2, Hj|]. rewrite He. do 3 f_equal.
      apply lsum_ext. intros j Hj. apply elem_of_range in Hj. destruct (H2 j Hj) as [Hy _]. rewrite (vat_eq _ _ _ Hy). reflexivity.
  Qed.
  Lemma wp_dot (D : nat -> Prop) vs colind lo hi init :
    (lo <= hi)%nat -> (hi <= length vs)%nat -> (hi <= length colind)%nat ->
    (forall j, (lo <= j < hi)%nat -> D (colind !!! j)) ->
    wp (fun l _ => D l) nowr (dot vs colind lo hi init) (fun _ => True).
  Proof.
    intros Hle Hv Hc Hj. eapply wp_post; [apply Hdot; auto|auto].
    intros j Hj'. exists 0. apply Hj, Hj'.
  Qed.

  Section Ok.
    Variable Of : machine.
    Variable M : srmat Qc.
    Hypothesis (Hw : wf_pat M) (Hd : wf_diag M).
    Notation n := (nbrows M).
    Ltac rb i Hi := pose proof (row_bounds M Hw Hd i Hi); pose proof (wf_clen M Hw).
    Ltac cols := match goal with Hj : (_ <= ?j < _)%nat |- _ => split; [pose proof (wf_col M Hw j ltac:(lia)) as Hcj; unfold col in Hcj; lia|] end.
    Lemma low_with_ok ilu z i : length ilu = nnz M -> length z = (n * 1)%nat -> (i < n)%nat ->
      kernel_ok 1 (@low_with Qc Of dot M ilu z) n (lowdep M) i.
    Proof.
      intros Hl Hz Hi. split; [exact Hi|]. rb i Hi. unfold low_with.
      apply wp_bind, wp_plift, (ok_browptr M Hw); [lia|].
      apply wp_bind, wp_plift, (ok_diagind M Hd); [lia|].
      apply wp_bind, wp_plift, ok_get_lt; [lia|]. intros rhs _.
      apply wp_bind. apply wp_bind. eapply wp_post; [|intros x _; reflexivity].
      apply (wp_dot (fun l => (l < n * 1)%nat /\ exists r', lowdep M i r' /\ own 1 r' l)); [lia..|].
      intros j Hj. cols. exists (col M j). split; [exists j; auto|]. unfold own, col; lia.
    Qed.
    Lemma up_with_ok ilu y i : length ilu = nnz M -> length y = (n * 1)%nat -> (i < n)%nat ->
      kernel_ok 1 (@up_with Qc Of dot M ilu y) n (updep M) i.
    Proof.
      intros Hl Hz Hi. split; [exact Hi|]. rb i Hi. unfold up_with.
      apply wp_bind, wp_plift, (ok_diagind M Hd); [lia|].
      apply wp_bind, wp_plift, (ok_browptr M Hw); [lia|].
      apply wp_bind, wp_plift, ok_get_lt; [lia|]. intros d _.
      apply wp_bind, wp_plift, ok_get_lt; [lia|]. intros rhs _.
      apply wp_bind. apply wp_bind. eapply wp_post; [|intros x _; reflexivity].
      apply (wp_dot (fun l => (l < n * 1)%nat /\ exists r', updep M i r' /\ own 1 r' l)); [lia..|].
      intros j Hj. cols. exists (col M j). split; [exists j; split; [lia|auto]|]. unfold own, col; lia.
    Qed.
    Variable d : list Qc.
    Hypothesis (Hl : length (vals M) = nnz M) (Hdl : length d = n).
    Lemma fgs_with_ok r i : length r = (n * 1)%nat -> (i < n)%nat -> kernel_ok 1 (@fgs_with Qc Of dot M d r) n (lowdep M) i.
    Proof.
      intros Hz Hi. split; [exact Hi|]. rb i Hi. unfold fgs_with.
      apply wp_bind, wp_plift, (ok_browptr M Hw); [lia|].
      apply wp_bind, wp_plift, (ok_diagind M Hd); [lia|].
      apply wp_bind, wp_plift, ok_get_lt; [lia|]. intros di _.
      apply wp_bind, wp_plift, ok_get_lt; [lia|]. intros rhs _.
      apply wp_bind. apply wp_bind. eapply wp_post; [|intros x _; reflexivity].
      apply (wp_dot (fun l => (l < n * 1)%nat /\ exists r', lowdep M i r' /\ own 1 r' l)); [lia..|].
      intros j Hj. cols. exists (col M j). split; [exists j; auto|]. unfold own, col; lia.
    Qed.
    Lemma bgs_with_ok ms y i : length y = (n * 1)%nat -> (i < n)%nat -> kernel_ok 1 (@bgs_with Qc Of dot ms M d y) n (updep M) i.
    Proof.
      intros Hz Hi. split; [exact Hi|]. rb i Hi. unfold bgs_with.
      apply wp_bind, wp_plift, (ok_diagind M Hd); [lia|].
      apply wp_bind, wp_plift, (ok_browptr M Hw); [lia|].
      apply wp_bind, wp_plift, ok_get_lt; [lia|]. intros _ _.
      apply wp_bind, wp_plift, ok_get_lt; [lia|]. intros di _.
      apply wp_bind, wp_plift, ok_get_lt; [lia|]. intros rhs _.
      apply wp_bind. apply wp_bind. eapply wp_post; [|intros x _; reflexivity].
      apply (wp_dot (fun l => (l < n * 1)%nat /\ exists r', updep M i r' /\ own 1 r' l)); [lia..|].
      intros j Hj. cols. exists (col M j). split; [exists j; split; [lia|auto]|]. unfold own, col; lia.
    Qed.
    Lemma relax_with_ok b i : length b = (n * 1)%nat -> (i < n)%nat -> kernel_ok 1 (@relax_with Qc Of dot M d b) n (offdep M) i.
    Proof.
      intros Hz Hi. split; [exact Hi|]. rb i Hi. unfold relax_with.
      apply wp_bind, wp_plift, (ok_browptr M Hw); [lia|].
      apply wp_bind, wp_plift, (ok_diagind M Hd); [lia|].
      apply wp_bind, wp_plift, (ok_browptr M Hw); [lia|].
      apply wp_bind, wp_plift, ok_get_lt; [lia|]. intros di _.
      apply wp_bind, wp_plift, ok_get_lt; [lia|]. intros rhs _.
      apply wp_bind. apply wp_bind. eapply wp_post; [|intros x _; apply wp_bind; eapply wp_post; [|intros x' _; reflexivity]].
      - apply (wp_dot (fun l => (l < n * 1)%nat /\ exists r', offdep M i r' /\ own 1 r' l)); [lia..|].
        intros j Hj. cols. exists (col M j). split; [left; exists j; auto|]. unfold own, col; lia.
      - apply (wp_dot (fun l => (l < n * 1)%nat /\ exists r', offdep M i r' /\ own 1 r' l)); [lia..|].
        intros j Hj. cols. exists (col M j). split; [right; exists j; split; [lia|auto]|]. unfold own, col; lia.
    Qed.
  End Ok.
End Dot.
