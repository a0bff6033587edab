(** * SRMatrix: (block) sparse-row matrices and what they denote *)
From Verif Require Export Base Alg.

(** include/srmatrixdefs.hpp:37-79 (SRMatrixStorage), 98-125 (CRawBSRMatrix) and
    132-159 (RawBSRMatrix) have the same fields. [A] is the type of the elements of
    [vals]: always scalars here, [bs*bs] of them per nonzero block. Index arrays
    hold naturals (a C++ int with value -1 never occurs in a well-formed matrix;
    the conversion routines that use -1 have their own model). *)
Record srmat (A : Type) := SR {
  browptr : list nat;
  bcolind : list nat;
  vals : list A;
  diagind : list nat;
  browendptr : list nat;
  nbrows : nat;
  nnzb : nat;
  nbstored : nat
}.
Arguments SR {A}. Arguments browptr {A}. Arguments bcolind {A}. Arguments vals {A}.
Arguments diagind {A}. Arguments browendptr {A}. Arguments nbrows {A}. Arguments nnzb {A}.
Arguments nbstored {A}.

(** Storage order of the entries of a dense block (Eigen's RowMajor/ColMajor,
    include/blasted_config.hpp StorageOptions). *)
Inductive storage := RowMajor | ColMajor.
Definition lay (so : storage) (bs p q : nat) : nat :=
  match so with RowMajor => p * bs + q | ColMajor => q * bs + p end.

Section Denotation.
  Context {A : Type}.
  Implicit Type M : srmat A.

  (** total accessors, used only in specifications *)
  Definition rp M (i : nat) : nat := browptr M !!! i.
  Definition col M (j : nat) : nat := bcolind M !!! j.
  Definition dg M (i : nat) : nat := diagind M !!! i.
  Definition nnz M : nat := rp M (nbrows M).

  (** position [j] lies in row [i] *)
  Definition inrow M (i j : nat) : Prop := i < nbrows M /\ rp M i <= j < rp M (i + 1).
  (** position of entry (i,c), if stored *)
  Definition pos M (i c : nat) : option nat :=
    snd <$> list_find (fun j => col M j = c) (range (rp M i) (rp M (i + 1))).

  (** ** Well-formed matrices *)
  Record wf_pat M : Prop := {
    wf_len : length (browptr M) = nbrows M + 1;
    wf_0 : rp M 0 = 0;
    wf_mono : forall i, i < nbrows M -> rp M i <= rp M (i + 1);
    wf_clen : length (bcolind M) = nnz M;
    wf_col : forall j, j < nnz M -> col M j < nbrows M
  }.
  Definition wf_end M : Prop :=
    length (browendptr M) = nbrows M /\
    forall i, i < nbrows M -> browendptr M !! i = Some (rp M (i + 1)).
  (** every row has a diagonal entry, found by [diagind] *)
  Definition wf_diag M : Prop :=
    length (diagind M) = nbrows M /\
    forall i, i < nbrows M -> rp M i <= dg M i < rp M (i + 1) /\ col M (dg M i) = i.
  (** column indices increase in each row *)
  Definition wf_sorted M : Prop :=
    forall i j1 j2, i < nbrows M -> rp M i <= j1 -> j1 < j2 -> j2 < rp M (i + 1) ->
    col M j1 < col M j2.
  (** no column occurs twice in a row *)
  Definition wf_nodup M : Prop :=
    forall i j1 j2, i < nbrows M -> inrow M i j1 -> inrow M i j2 -> col M j1 = col M j2 -> j1 = j2.
  Definition wf_vals bs M : Prop := length (vals M) = nnz M * (bs * bs).

  (** ** Consequences *)
  Lemma wf_browptr M i : wf_pat M -> i <= nbrows M -> browptr M !! i = Some (rp M i).
  Proof.
    intros H Hi. unfold rp. apply list_lookup_lookup_total_lt. rewrite (wf_len M H). lia.
  Qed.
  Lemma wf_bcolind M j : wf_pat M -> j < nnz M -> bcolind M !! j = Some (col M j).
  Proof.
    intros H Hj. unfold col. apply list_lookup_lookup_total_lt. rewrite (wf_clen M H). lia.
  Qed.
  Lemma wf_diagind M i : wf_diag M -> i < nbrows M -> diagind M !! i = Some (dg M i).
  Proof.
    intros [H _] Hi. unfold dg. apply list_lookup_lookup_total_lt. lia.
  Qed.
  Lemma rp_mono M i k : wf_pat M -> i <= k -> k <= nbrows M -> rp M i <= rp M k.
  Proof.
    intros H Hik Hk. induction k as [|k IH].
    - replace i with 0 by lia. lia.
    - destruct (decide (i = S k)) as [->|Hne]; [lia|].
      pose proof (wf_mono M H k ltac:(lia)) as Hm. replace (k + 1) with (S k) in Hm by lia.
      specialize (IH ltac:(lia) ltac:(lia)). lia.
  Qed.
  Lemma inrow_lt M i j : wf_pat M -> inrow M i j -> j < nnz M.
  Proof.
    intros H [Hi Hj]. pose proof (rp_mono M (i + 1) (nbrows M) H ltac:(lia) ltac:(lia)).
    unfold nnz. lia.
  Qed.
  Lemma inrow_unique M i i' j : wf_pat M -> inrow M i j -> inrow M i' j -> i = i'.
  Proof.
    intros H [Hi Hj] [Hi' Hj'].
    destruct (decide (i < i')).
    { pose proof (rp_mono M (i + 1) i' H ltac:(lia) ltac:(lia)). lia. }
    destruct (decide (i' < i)).
    { pose proof (rp_mono M (i' + 1) i H ltac:(lia) ltac:(lia)). lia. }
    lia.
  Qed.
  Lemma inrow_exists M j : wf_pat M -> j < nnz M -> exists i, inrow M i j.
  Proof.
    intros H Hj. unfold inrow.
    assert (forall k, k <= nbrows M -> j < rp M k -> exists i, i < nbrows M /\ rp M i <= j < rp M (i + 1)) as Hk.
    { induction k as [|k IH]; intros Hk Hjk.
      - rewrite (wf_0 M H) in Hjk. lia.
      - destruct (decide (j < rp M k)); [apply IH; lia|].
        exists k. replace (k + 1) with (S k) by lia. lia. }
    apply (Hk (nbrows M)); auto.
  Qed.
  (** rows are stored one after the other *)
  Lemma inrow_order M i i' j j' : wf_pat M -> inrow M i j -> inrow M i' j' -> i < i' -> j < j'.
  Proof.
    intros H [Hi Hj] [Hi' Hj'] Hlt.
    pose proof (rp_mono M (i + 1) i' H ltac:(lia) ltac:(lia)). lia.
  Qed.
  Lemma sorted_nodup M : wf_sorted M -> wf_nodup M.
  Proof.
    intros H i j1 j2 Hi [_ H1] [_ H2] E.
    destruct (decide (j1 < j2)).
    { specialize (H i j1 j2 Hi ltac:(lia) ltac:(lia) ltac:(lia)). lia. }
    destruct (decide (j2 < j1)).
    { specialize (H i j2 j1 Hi ltac:(lia) ltac:(lia) ltac:(lia)). lia. }
    lia.
  Qed.
  Lemma pos_Some M i c j : i < nbrows M -> pos M i c = Some j -> inrow M i j /\ col M j = c.
  Proof.
    intros Hi H. unfold pos in H. apply fmap_Some in H as ([k j'] & H & ->). simpl.
    apply list_find_Some in H as (Hl & Hc & _). split; [|exact Hc].
    apply elem_of_list_lookup_2, elem_of_range in Hl. split; lia.
  Qed.
  Lemma pos_of M i j : wf_nodup M -> inrow M i j -> pos M i (col M j) = Some j.
  Proof.
    intros Hn Hj. unfold pos.
    destruct (list_find (fun j0 => col M j0 = col M j) (range (rp M i) (rp M (i + 1)))) as [[k j']|] eqn:E; simpl.
    - apply list_find_Some in E as (Hl & Hc & _). apply elem_of_list_lookup_2, elem_of_range in Hl.
      f_equal. apply (Hn i); auto; [apply Hj|]. split; [apply Hj|lia].
    - exfalso. apply list_find_None in E. rewrite Forall_forall in E.
      apply (E j); [|reflexivity]. apply elem_of_range. apply Hj.
  Qed.
  Lemma pos_None M i c : i < nbrows M -> pos M i c = None <-> forall j, inrow M i j -> col M j <> c.
  Proof.
    intros Hi. unfold pos. split.
    - intros H. apply fmap_None, list_find_None in H. rewrite Forall_forall in H.
      intros j [_ Hj]. apply H. apply elem_of_range. exact Hj.
    - intros H. apply fmap_None, list_find_None. rewrite Forall_forall.
      intros j Hj. apply elem_of_range in Hj. apply H. split; auto.
  Qed.
  Lemma pos_diag M i : wf_nodup M -> wf_diag M -> i < nbrows M -> pos M i i = Some (dg M i).
  Proof.
    intros Hn [_ Hd] Hi. destruct (Hd i Hi) as [H1 H2].
    rewrite <- H2 at 2. apply pos_of; auto. split; auto.
  Qed.
  (** in a sorted row the entries before the diagonal are those left of it *)
  Lemma before_diag M i j : wf_sorted M -> wf_diag M -> inrow M i j -> (j < dg M i <-> col M j < i).
  Proof.
    intros Hs [_ Hd] [Hi Hj]. destruct (Hd i Hi) as [H1 H2]. split; intros H.
    - rewrite <- H2 at 1. apply (Hs i); lia.
    - destruct (decide (j < dg M i)); [done|exfalso].
      destruct (decide (j = dg M i)) as [->|Hne]; [lia|].
      pose proof (Hs i (dg M i) j Hi ltac:(lia) ltac:(lia) ltac:(lia)). lia.
  Qed.
  Lemma after_diag M i j : wf_sorted M -> wf_diag M -> inrow M i j -> (dg M i < j <-> i < col M j).
  Proof.
    intros Hs [_ Hd] [Hi Hj]. destruct (Hd i Hi) as [H1 H2]. split; intros H.
    - rewrite <- H2 at 1. apply (Hs i); lia.
    - destruct (decide (dg M i < j)); [done|exfalso].
      destruct (decide (j = dg M i)) as [->|Hne]; [lia|].
      pose proof (Hs i j (dg M i) Hi ltac:(lia) ltac:(lia) ltac:(lia)). lia.
  Qed.

  (** row of a position: the value of the loop variable [irow] when a row-by-row
      loop has reached position [j] *)
  Definition rowof M (j : nat) : nat :=
    length (filter (fun i => rp M (i + 1) <= j) (seq 0 (nbrows M))).
  Lemma rowof_inrow M i j : wf_pat M -> inrow M i j -> rowof M j = i.
  Proof.
    intros H [Hi Hj]. unfold rowof.
    assert (filter (fun i => rp M (i + 1) <= j) (seq 0 (nbrows M)) = seq 0 i) as ->; [|apply seq_length].
    replace (nbrows M) with (i + (nbrows M - i)) by lia. rewrite seq_app, filter_app.
    assert (filter (fun k => rp M (k + 1) <= j) (seq 0 i) = seq 0 i) as ->.
    { assert (forall l : list nat, (forall k, k ∈ l -> rp M (k + 1) <= j) -> filter (fun k => rp M (k + 1) <= j) l = l) as Hf.
      { induction l as [|a l IH]; intros Hl; [reflexivity|].
        rewrite filter_cons_True by (apply Hl; left). f_equal. apply IH. intros k Hk. apply Hl. right; auto. }
      apply Hf. intros k Hk. apply elem_of_seq in Hk.
      pose proof (rp_mono M (k + 1) i H ltac:(lia) ltac:(lia)). lia. }
    assert (filter (fun k => rp M (k + 1) <= j) (seq (0 + i) (nbrows M - i)) = []) as ->; [|apply app_nil_r].
    assert (forall l : list nat, (forall k, k ∈ l -> ~ rp M (k + 1) <= j) -> filter (fun k => rp M (k + 1) <= j) l = []) as Hf.
    { induction l as [|a l IH]; intros Hl; [reflexivity|].
      rewrite filter_cons_False by (apply Hl; left). apply IH. intros k Hk. apply Hl. right; auto. }
    apply Hf. intros k Hk. apply elem_of_seq in Hk.
    pose proof (rp_mono M (i + 1) (k + 1) H ltac:(lia) ltac:(lia)). lia.
  Qed.
  Lemma inrow_rowof M j : wf_pat M -> j < nnz M -> inrow M (rowof M j) j.
  Proof.
    intros H Hj. destruct (inrow_exists M j H Hj) as [i Hi]. rewrite (rowof_inrow M i j H Hi). exact Hi.
  Qed.
End Denotation.

(** ** Dense meaning: the number in row [I], column [J] *)
Section Dense.
  Context {F : Type} {O : SOps F}.
  (** scalar matrix *)
  Definition dense (M : srmat F) (i c : nat) : F :=
    match pos M i c with Some j => default s0 (vals M !! j) | None => s0 end.
  (** entry (p,q) of the block at position [j] of a block matrix *)
  Definition bent (so : storage) (bs : nat) (vs : list F) (j p q : nat) : F :=
    default s0 (vs !! (j * (bs * bs) + lay so bs p q)).
  (** block matrix: row I = block row I/bs, row I mod bs in the block *)
  Definition bdense (so : storage) (bs : nat) (M : srmat F) (I J : nat) : F :=
    match pos M (I / bs) (J / bs) with
    | Some j => bent so bs (vals M) j (I mod bs) (J mod bs)
    | None => s0
    end.
End Dense.

Section DenseSums.
  Context {F : Type} {O : SOps F} {R : CRing F}.
  Open Scope s_scope.
  Add Ring Fr : cring.
  (** summing over the stored entries of (part of) a row is summing over columns *)
  Lemma row_sum {A} (M : srmat A) i a b (Pc : nat -> Prop) `{forall c, Decision (Pc c)} (g : nat -> F) :
    wf_pat M -> wf_nodup M -> (i < nbrows M)%nat ->
    (rp M i <= a)%nat -> (b <= rp M (i + 1))%nat ->
    (forall j, inrow M i j -> (a <= j < b)%nat <-> Pc (col M j)) ->
    lsum g (range a b) =
    bsum (nbrows M) (fun c => if decide (Pc c) then
                                match pos M i c with Some j => g j | None => s0 end else s0).
  Proof.
    intros Hw Hn Hi Ha Hb HP.
    assert (forall j, j ∈ range a b -> inrow M i j) as Hin.
    { intros j Hj. apply elem_of_range in Hj. split; [done|lia]. }
    apply (lsum_bsum (nbrows M) (col M)).
    - apply NoDup_alt. intros k1 k2 c H1 H2.
      rewrite list_lookup_fmap in H1, H2.
      apply fmap_Some in H1 as (j1 & H1 & ->). apply fmap_Some in H2 as (j2 & H2 & E).
      assert (j1 = j2).
      { apply (Hn i); auto; apply Hin; eapply elem_of_list_lookup_2; eauto. }
      subst. eapply NoDup_lookup; [apply NoDup_range| |]; eauto.
    - intros j Hj. apply (wf_col M Hw). eapply inrow_lt; eauto.
    - intros j Hj. rewrite decide_True.
      + rewrite (pos_of M i j Hn); auto.
      + apply HP; auto. apply elem_of_range. exact Hj.
    - intros c Hc Hnc. destruct (decide (Pc c)) as [Hp|Hp]; [|reflexivity].
      destruct (pos M i c) as [j|] eqn:E; [|reflexivity].
      exfalso. apply pos_Some in E as [Hj Hcol]; auto. apply Hnc.
      apply elem_of_list_fmap. exists j. split; auto. apply elem_of_range, HP; auto. congruence.
  Qed.
  Lemma row_sum_dense (M : srmat F) i (f : nat -> F) :
    wf_pat M -> wf_nodup M -> (i < nbrows M)%nat ->
    lsum (fun j => default s0 (vals M !! j) * f (col M j)) (range (rp M i) (rp M (i + 1))) =
    bsum (nbrows M) (fun c => dense M i c * f c).
  Proof.
    intros Hw Hn Hi. rewrite (row_sum M i _ _ (fun _ => True)); auto.
    - apply bsum_ext. intros c Hc. rewrite decide_True by done. unfold dense.
      destruct (pos M i c) as [j|] eqn:E; [|ring].
      apply pos_Some in E as [_ <-]; auto.
    - intros j [_ Hj]. tauto.
  Qed.
End DenseSums.
