(** * PropCoo: properties C04 and C05 (coordinate to row storage) *)
From Verif Require Import Base Alg SRMatrix TriFacts Nd Coo CooSpec CooFacts CooBsr Inst.
From Coq Require Import ZArith QArith.Qcanon.
Open Scope nat_scope.

(** position [k] of row [i] of [M] holds column [j] and number [v] *)
Definition holds {F} (M : srmat F) (i j : nat) (v : F) : Prop :=
  exists k, inrow M i k /\ bcolind M !! k = Some j /\ vals M !! k = Some v.

(** C04. For any coordinate matrix with correct row pointers and any contents of the new
    arrays: the conversion does not fail; row pointers run from 0 to the number of entries
    without decreasing; (i,j,v) is stored iff it is listed; columns come in the listed order;
    the diagonal index of a row with a diagonal entry points to such an entry. For square
    matrices the result is a well-formed row matrix, sorted if the list is. *)
Theorem C04_csr : forall (F : Type) (c : coo F) gp gi gv gd, coo_ok c ->
  exists M, convertToCSR gp gi gv gd c = Ok M /\
    nbrows M = nrows c /\ length (browptr M) = nrows c + 1 /\
    rp M 0 = 0 /\ (forall i, i < nrows c -> rp M i <= rp M (i + 1)) /\ rp M (nrows c) = length (entries c) /\
    nnzb M = length (entries c) /\ nbstored M = length (entries c) /\ wf_end M /\
    bcolind M = colind <$> entries c /\ vals M = value <$> entries c /\
    (forall i j v, holds M i j v <-> Entry i j v ∈ entries c) /\
    length (diagind M) = nrows c /\
    (forall i v, Entry i i v ∈ entries c -> inrow M i (dg M i) /\ col M (dg M i) = i) /\
    (nrows c = ncols c -> wf_pat M /\ wf_vals 1 M) /\
    (coo_sorted c -> wf_sorted M).
Proof.
  intros F c gp gi gv gd Hc.
  destruct (proj1 (ok_inv _ _) (convertToCSR_spec c Hc gp gi gv gd)) as (M & E & Hn & Hp & Hb & Hv & Hend & Hz & Hst & Ld & Hd).
  exists M. split; [exact E|]. split; [exact Hn|]. split; [rewrite Hp; apply (co_len c Hc)|].
  assert (forall i, rp M i = crp c i) as Hrp by (intros; unfold rp, crp; rewrite Hp; reflexivity).
  assert (forall k, col M k = (colind <$> entries c) !!! k) as Hcol by (intros; unfold col; rewrite Hb; reflexivity).
  assert (forall k e, entries c !! k = Some e -> inrow M (rowind e) k /\ col M k = colind e) as Hin.
  { intros k e He. destruct (co_row c Hc _ _ He) as [Hr _]. split.
    - split; [lia|]. rewrite !Hrp. apply (proj1 (crp_delim c Hc (rowind e) k e Hr He)). reflexivity.
    - rewrite Hcol. apply list_lookup_total_correct. rewrite list_lookup_fmap, He. reflexivity. }
  assert (forall i k, inrow M i k -> exists e, entries c !! k = Some e /\ rowind e = i) as Hout.
  { intros i k [Hi Hk]. rewrite !Hrp in Hk. pose proof (crp_mono c Hc (i + 1) (nrows c) ltac:(lia) ltac:(lia)). pose proof (crp_last c Hc).
    destruct (lookup_lt_is_Some_2 (entries c) k) as [e He]; [lia|]. exists e. split; [exact He|]. apply (crp_delim c Hc i k e); [lia|exact He|exact Hk]. }
  split; [rewrite Hrp; apply crp_0, Hc|]. split; [intros i Hi; rewrite !Hrp; apply crp_step; auto|].
  split; [rewrite Hrp; apply crp_last, Hc|]. split; [rewrite Hz; apply (co_nnz c Hc)|]. split; [rewrite Hst; apply (co_nnz c Hc)|].
  split; [exact Hend|]. split; [exact Hb|]. split; [exact Hv|]. split.
  { intros i j v. split.
    - intros (k & Hk & H1 & H2). destruct (Hout i k Hk) as (e & He & <-). rewrite Hb, list_lookup_fmap, He in H1. rewrite Hv, list_lookup_fmap, He in H2.
      injection H1 as <-. injection H2 as <-. destruct e. apply elem_of_list_lookup_2 in He. exact He.
    - intros Hi. apply elem_of_list_lookup in Hi as [k Hk]. exists k. destruct (Hin k _ Hk) as [H1 _]. split; [exact H1|].
      rewrite Hb, Hv, !list_lookup_fmap, Hk. auto. }
  split; [exact Ld|]. split.
  { intros i v Hi. apply elem_of_list_lookup in Hi as [k Hk]. destruct (Hd i k _ Hk eq_refl eq_refl) as (d & e & Ed & He & <- & Hce).
    unfold dg. rewrite (list_lookup_total_correct _ _ _ Ed). destruct (Hin d e He) as [H1 H2]. split; [exact H1|congruence]. }
  assert (nnz M = length (entries c)) as Hnnz by (unfold nnz; rewrite Hrp, Hn; apply crp_last, Hc).
  split.
  - intros Hsq. split; [constructor|].
    + rewrite Hp, Hn. apply (co_len c Hc).
    + rewrite Hrp. apply crp_0, Hc.
    + intros i Hi. rewrite !Hrp. apply crp_step; [exact Hc|lia].
    + rewrite Hb, fmap_length. auto.
    + intros k Hk. rewrite Hnnz in Hk. destruct (lookup_lt_is_Some_2 (entries c) k Hk) as [e He]. destruct (Hin k e He) as [_ ->].
      rewrite Hn, Hsq. apply (co_row c Hc _ _ He).
    + unfold wf_vals. rewrite Hv, fmap_length. lia.
  - intros Hs i j1 j2 Hi H1 H12 H2. destruct (Hout i j1) as (e1 & He1 & Hr1); [split; [exact Hi|lia]|].
    destruct (Hout i j2) as (e2 & He2 & Hr2); [split; [exact Hi|lia]|].
    rewrite (proj2 (Hin _ _ He1)), (proj2 (Hin _ _ He2)). apply (Hs j1 j2 e1 e2); auto. congruence.
Qed.
(** consequence: the number at (i,j) of the result is the listed one, or zero *)
Theorem C04_same_matrix : forall (F : Type) (O : SOps F) (c : coo F) gp gi gv gd M, coo_ok c -> coo_nodup c ->
  convertToCSR gp gi gv gd c = Ok M -> forall i j, i < nrows c -> coo_entry (entries c) i j (dense M i j).
Proof.
  intros F O c gp gi gv gd M Hc Hnd E i j Hi.
  destruct (C04_csr F c gp gi gv gd Hc) as (M' & E' & Hn & _ & _ & _ & Hlast & _ & _ & _ & Hb & Hv & Hh & _).
  assert (M' = M) as -> by congruence. unfold dense. destruct (pos M i j) as [k|] eqn:Ek.
  - apply pos_Some in Ek as [Hk Hc']; [|lia]. left. apply Hh. exists k. split; [exact Hk|].
    assert (k < length (entries c)) as Hkl.
    { destruct Hk as [_ Hk]. pose proof (fun i => f_equal (fun l => l !!! i) Hb) as _.
      assert (forall m i', i' + m = nrows c -> rp M i' <= rp M (nrows c)) as Hm.
      { destruct (C04_csr F c gp gi gv gd Hc) as (M2 & E2 & _ & _ & _ & Hmono & _). assert (M2 = M) as -> by congruence.
        induction m as [|m IH]; intros i' Hi'; [replace i' with (nrows c) by lia; lia|]. specialize (IH (i' + 1) ltac:(lia)). specialize (Hmono i' ltac:(lia)). lia. }
      specialize (Hm (nrows c - (i + 1)) (i + 1) ltac:(lia)). lia. }
    destruct (lookup_lt_is_Some_2 (entries c) k Hkl) as [e He].
    assert (bcolind M !! k = Some (colind e)) as H1 by (rewrite Hb, list_lookup_fmap, He; reflexivity).
    assert (vals M !! k = Some (value e)) as H2 by (rewrite Hv, list_lookup_fmap, He; reflexivity).
    rewrite H1, H2. split; [|reflexivity]. unfold col in Hc'. rewrite (list_lookup_total_correct _ _ _ H1) in Hc'. congruence.
  - right. split; [reflexivity|]. intros v Hin. apply Hh in Hin as (k & Hk & H1 & _).
    apply (proj1 (pos_None M i j ltac:(lia)) Ek k Hk). unfold col. apply list_lookup_total_correct, H1.
Qed.
(**     7 . 5
        . 6 .
        8 . 9   *)
Definition exC : coo Qc := Coo [Entry 0 0 (q 7); Entry 0 2 (q 5); Entry 1 1 (q 6); Entry 2 0 (q 8); Entry 2 2 (q 9)] 5 3 3 [0; 2; 3; 5].
Ltac lk k H := destruct k as [|k]; [injection H as <-|simpl in H; first [discriminate H|lk k H]].
Definition coob {F} (c : coo F) : bool :=
  bool_decide (coo_nnz c = length (entries c)) && bool_decide (length (rowptr c) = nrows c + 1) &&
  bool_decide (rowptr c !! 0 = Some 0) && bool_decide (rowptr c !! nrows c = Some (coo_nnz c)) &&
  forallb (fun i => bool_decide (crp c i <= crp c (i + 1))) (seq 0 (nrows c)) &&
  forallb (fun e => bool_decide (rowind e < nrows c) && bool_decide (colind e < ncols c)) (entries c) &&
  forallb (fun i => forallb (fun k => match entries c !! k with Some e => Bool.eqb (bool_decide (rowind e = i)) (bool_decide (crp c i <= k < crp c (i + 1))) | None => true end)
    (seq 0 (length (entries c)))) (seq 0 (nrows c)).
Lemma coob_ok {F} (c : coo F) : coob c = true -> coo_ok c.
Proof.
  unfold coob. rewrite !andb_true_iff, !bool_decide_eq_true, !forallb_forall. intros ((((((H1 & H2) & H3) & H4) & H5) & H6) & H7).
  assert (forall i a b, rowptr c !! i = Some a -> rowptr c !! (i + 1) = Some b -> a = crp c i /\ b = crp c (i + 1) /\ i < nrows c) as Hab.
  { intros i a b Ha Hb. unfold crp. rewrite (list_lookup_total_correct _ _ _ Ha), (list_lookup_total_correct _ _ _ Hb).
    apply lookup_lt_Some in Hb. split; [auto|]. split; [auto|lia]. }
  constructor; auto.
  - intros i a b Ha Hb. destruct (Hab i a b Ha Hb) as (-> & -> & Hi). specialize (H5 i). rewrite bool_decide_eq_true in H5. apply H5, in_seq. lia.
  - intros k e He. specialize (H6 e). rewrite andb_true_iff, !bool_decide_eq_true in H6. apply H6. apply elem_of_list_In. apply elem_of_list_lookup_2 in He. exact He.
  - intros i a b k e Ha Hb He. destruct (Hab i a b Ha Hb) as (-> & -> & Hi). specialize (H7 i ltac:(apply in_seq; lia)).
    rewrite forallb_forall in H7. apply lookup_lt_Some in He as Hk. specialize (H7 k ltac:(apply in_seq; lia)). rewrite He in H7.
    apply Bool.eqb_prop in H7. rewrite <- (bool_decide_eq_true (rowind e = i)), H7. apply bool_decide_eq_true.
Qed.
Example C04_case : coo_ok exC /\ coo_sorted exC /\ coo_nodup exC /\
  exists M, convertToCSR (fun _ => 77) (fun _ => 77) (fun _ => q 77) (fun _ => 77) exC = Ok M /\ diagind M = [0; 2; 4] /\ wf_pat M.
Proof.
  split; [apply coob_ok; reflexivity|]. split; [|split].
  - intros k1 k2 e1 e2 H12 H1 H2. lk k1 H1; lk k2 H2; simpl in *; intros; try discriminate; lia.
  - intros k1 k2 e1 e2 H1 H2. lk k1 H1; lk k2 H2; simpl in *; intros; try discriminate; lia.
  - eexists. split; [reflexivity|]. split; [reflexivity|]. apply wfb_pat_ok. reflexivity.
Qed.

(** C05. Any block size, both storage orders, any contents of the new arrays. *)
Theorem C05_block_rows : forall (F : Type) (O : SOps F) (c : coo F) (so : storage) (bs N : nat) gp gi gv gd,
  coo_ok c -> 0 < bs -> nrows c = N * bs -> ncols c = N * bs ->
  (entries c = [] \/ exists e, e ∈ entries c /\ rowind e < bs) ->
  exists M d, convertToBSR so bs gp gi gv gd c = Ok (M, d) /\
    nbrows M = N /\ wf_pat M /\ wf_end M /\ wf_nodup M /\ wf_vals bs M /\ nnzb M = nnz M /\ nbstored M = nnz M /\
    (forall I J, I < N * bs -> J < N * bs -> coo_entry (entries c) I J (bdense so bs M I J)) /\
    (forall i j, i < N -> j < N -> (pos M i j <> None <-> exists e, e ∈ entries c /\ rowind e / bs = i /\ colind e / bs = j)) /\
    (forall i, i < N -> d !! i = Some (match pos M i i with Some k => Z.of_nat k | None => (-1)%Z end)) /\
    ((forall i, i < N -> pos M i i <> None) -> wf_diag M).
Proof.
  intros F O c so bs N gp gi gv gd Hc Hbs Hnr Hnc Hfirst.
  assert (entries c = [] \/ exists k e, entries c !! k = Some e /\ rowind e < bs) as Hfirst'.
  { destruct Hfirst as [|(e & Hin & Hr)]; [auto|]. right. apply elem_of_list_lookup in Hin as [k Hk]. eauto. }
  destruct (proj1 (ok_inv _ _) (convertToBSR_spec c so bs N Hc Hbs Hnr Hnc gp gi gv gd Hfirst')) as
    ([M d] & E & bl & Hnd & Hl & Hn & [Lp Hp] & Hb & [Lv Hv] & Hend & Hz & Hst & Hdz & Ld & Hd).
  exists M, d. split; [exact E|]. split; [exact Hn|].
  assert (forall i, i <= N -> sep bl i (rp M i)) as Hsep.
  { intros i Hi. destruct (Hp i Hi) as (a & Ea & Hs). unfold rp. rewrite (list_lookup_total_correct _ _ _ Ea). exact Hs. }
  assert (rp M 0 = 0) as H0.
  { destruct (Hsep 0 ltac:(lia)) as [Ha Hs]. destruct (decide (rp M 0 = 0)) as [|Hne]; [assumption|].
    destruct (lookup_lt_is_Some_2 bl 0) as [[x y] Exy]; [lia|]. specialize (Hs 0 x y Exy). lia. }
  assert (nnz M = length bl) as Hnnz.
  { unfold nnz. rewrite Hn. destruct (Hsep N ltac:(lia)) as [Ha Hs]. destruct (decide (rp M N = length bl)) as [|Hne]; [assumption|].
    destruct (lookup_lt_is_Some_2 bl (rp M N)) as [[x y] Exy]; [lia|]. specialize (Hs _ x y Exy).
    pose proof (listed_lt c bs N Hc Hbs Hnr Hnc _ _ x y Hl (elem_of_list_lookup_2 _ _ _ Exy)). lia. }
  assert (forall k x y, bl !! k = Some (x, y) -> x < N /\ y < N) as Hlt.
  { intros k x y Hk. apply (listed_lt c bs N Hc Hbs Hnr Hnc _ _ x y Hl). apply elem_of_list_lookup_2 in Hk. exact Hk. }
  assert (forall k x y, bl !! k = Some (x, y) -> inrow M x k /\ col M k = y) as Hin.
  { intros k x y Hk. destruct (Hlt k x y Hk) as [Hx Hy]. split.
    - split; [lia|]. destruct (Hsep x ltac:(lia)) as [_ H1], (Hsep (x + 1) ltac:(lia)) as [_ H2]. specialize (H1 k x y Hk). specialize (H2 k x y Hk). lia.
    - unfold col. apply list_lookup_total_correct. rewrite Hb, list_lookup_fmap, Hk. reflexivity. }
  assert (forall i k, inrow M i k -> bl !! k = Some (i, col M k)) as Hout.
  { intros i k [Hi Hk]. destruct (Hsep i ltac:(lia)) as [A1 H1], (Hsep (i + 1) ltac:(lia)) as [A2 H2].
    destruct (lookup_lt_is_Some_2 bl k) as [[x y] Exy]; [lia|]. specialize (H1 k x y Exy). specialize (H2 k x y Exy).
    rewrite (proj2 (Hin k x y Exy)). assert (x = i) as -> by lia. exact Exy. }
  assert (wf_pat M) as Hw.
  { constructor.
    - rewrite Lp. lia.
    - exact H0.
    - intros i Hi. apply (sep_mono c bs N Hbs Hnr Hnc bl (rp M i) (rp M (i + 1)) i); apply Hsep; lia.
    - rewrite Hb, fmap_length. auto.
    - intros k Hk. rewrite Hnnz in Hk. destruct (lookup_lt_is_Some_2 bl k Hk) as [[x y] Exy]. rewrite (proj2 (Hin k x y Exy)), Hn. apply (Hlt k x y Exy). }
  assert (wf_nodup M) as Hnd'.
  { intros i j1 j2 Hi H1 H2 Hcc. apply Hout in H1, H2. rewrite <- Hcc in H2. apply (NoDup_lookup bl j1 j2 _ Hnd H1 H2). }
  assert (forall i j k, i < N -> pos M i j = Some k <-> bl !! k = Some (i, j)) as Hpos.
  { intros i j k Hi. split.
    - intros Hk. apply pos_Some in Hk as [Hk <-]; [|lia]. apply Hout, Hk.
    - intros Hk. destruct (Hin k i j Hk) as [H1 <-]. apply (pos_of M i k Hnd' H1). }
  split; [exact Hw|]. split; [exact Hend|]. split; [exact Hnd'|]. split; [unfold wf_vals; rewrite Hnnz, Lv; lia|].
  split; [lia|]. split; [lia|]. split; [|split; [|split]].
  - assert (forall l i j, coo_entry l i j (dval l i j)) as Hdv.
    { induction l as [|e l IH] using rev_ind; intros i j.
      - right. split; [reflexivity|]. intros v Hi. apply elem_of_nil in Hi as [].
      - rewrite dval_snoc. destruct (Nat.eqb_spec (rowind e) i) as [Hi|Hi]; [destruct (Nat.eqb_spec (colind e) j) as [Hj|Hj]|].
        + left. apply elem_of_app. right. apply elem_of_list_singleton. destruct e; simpl in *; congruence.
        + destruct (IH i j) as [H|[H1 H2]]; [left; apply elem_of_app; auto|]. right. split; [exact H1|]. intros v Hv'.
          apply elem_of_app in Hv' as [Hv'|Hv']; [apply (H2 v Hv')|]. apply elem_of_list_singleton in Hv'. subst e. simpl in *. congruence.
        + destruct (IH i j) as [H|[H1 H2]]; [left; apply elem_of_app; auto|]. right. split; [exact H1|]. intros v Hv'.
          apply elem_of_app in Hv' as [Hv'|Hv']; [apply (H2 v Hv')|]. apply elem_of_list_singleton in Hv'. subst e. simpl in *. congruence. }
    intros I J HI HJ. apply unflat in HI as (i & p & -> & Hi & Hpb), HJ as (j & q0 & -> & Hj & Hq).
    unfold bdense. rewrite !flat_div, !flat_mod by assumption. destruct (pos M i j) as [k|] eqn:Ek.
    + apply Hpos in Ek; [|exact Hi]. unfold bent. rewrite (Hv k i j p q0 Ek Hpb Hq). simpl. rewrite firstn_all. apply Hdv.
    + right. split; [reflexivity|]. intros v Hv'. assert ((i, j) ∈ bl) as Hin'.
      { apply Hl. apply elem_of_list_lookup in Hv' as [k Hk]. exists k, (Entry (i * bs + p) (j * bs + q0) v).
        split; [apply lookup_lt_Some in Hk; exact Hk|]. split; [exact Hk|]. simpl. rewrite !flat_div by assumption. auto. }
      apply elem_of_list_lookup in Hin' as [k Hk]. apply Hpos in Hk; [congruence|exact Hi].
  - intros i j Hi Hj. split.
    + intros Hne. destruct (pos M i j) as [k|] eqn:Ek; [|congruence]. apply Hpos in Ek; [|exact Hi]. apply elem_of_list_lookup_2 in Ek. apply Hl in Ek as (k' & e & _ & He & -> & ->).
      exists e. split; [apply elem_of_list_lookup_2 in He; exact He|auto].
    + intros (e & He & <- & <-). apply elem_of_list_lookup in He as [k' Hk'].
      assert ((rowind e / bs, colind e / bs) ∈ bl) as Hin'. { apply Hl. exists k', e. split; [apply lookup_lt_Some in Hk'; exact Hk'|auto]. }
      apply elem_of_list_lookup in Hin' as [k Hk]. apply Hpos in Hk; [congruence|exact Hi].
  - intros i Hi. destruct (Hd i Hi) as [H1 H2]. destruct (pos M i i) as [k|] eqn:Ek.
    + apply H1. apply Hpos in Ek; assumption.
    + apply H2. intros Hin'. apply elem_of_list_lookup in Hin' as [k Hk]. apply Hpos in Hk; [congruence|exact Hi].
  - intros Hfull. split; [rewrite Hdz, fmap_length; lia|]. intros i Hi. rewrite Hn in Hi. specialize (Hfull i Hi).
    destruct (pos M i i) as [k|] eqn:Ek; [|congruence]. apply Hpos in Ek; [|exact Hi]. destruct (Hd i Hi) as [H1 _].
    assert (dg M i = k) as ->. { unfold dg. apply list_lookup_total_correct. rewrite Hdz, list_lookup_fmap, (H1 k Ek). simpl. rewrite Nat2Z.id. reflexivity. }
    destruct (Hin k i i Ek) as [[_ H3] H4]. split; assumption.
Qed.
(** the coordinate matrix
        1 . 2 .
        . . . 3
        . . . .
        4 . . .   with 2x2 blocks: block (1,1) is missing *)
Definition exC4 : coo Qc := Coo [Entry 0 0 (q 1); Entry 0 2 (q 2); Entry 1 3 (q 3); Entry 3 0 (q 4)] 4 4 4 [0; 2; 3; 3; 4].
Example C05_case : coo_ok exC4 /\ nrows exC4 = 2 * 2 /\ ncols exC4 = 2 * 2 /\ (exists e, e ∈ entries exC4 /\ rowind e < 2) /\
  exists M d, convertToBSR RowMajor 2 (fun _ => 77) (fun _ => 77) (fun _ => q 77) (fun _ => 77%Z) exC4 = Ok (M, d) /\
    vals M = q <$> [1; 0; 0; 0;  2; 0; 0; 3;  0; 0; 4; 0]%Z /\ d = [0%Z; (-1)%Z] /\
  exists M' d', convertToBSR ColMajor 2 (fun _ => 77) (fun _ => 77) (fun _ => q 77) (fun _ => 77%Z) exC4 = Ok (M', d') /\
    vals M' = q <$> [1; 0; 0; 0;  2; 0; 0; 3;  0; 4; 0; 0]%Z.
Proof.
  split; [apply coob_ok; reflexivity|]. split; [reflexivity|]. split; [reflexivity|]. split; [eexists; split; [constructor|simpl; lia]|].
  eexists _, _. split; [reflexivity|]. split; [reflexivity|]. split; [reflexivity|]. eexists _, _. split; reflexivity.
Qed.
(** Without an entry in the first block row the conversion of a correct coordinate matrix
    aborts, whatever its value and whatever the new arrays contain: here a matrix of 2x2 blocks whose
    only entry is in block (1,1). *)
Theorem C05_empty_first_block_row_refuted : forall (F : Type) (O : SOps F) so gp gi gv gd (v : F),
  exists c, coo_ok c /\ nrows c = 2 * 2 /\ ncols c = 2 * 2 /\ entries c = [Entry 2 2 v] /\
    convertToBSR so 2 gp gi gv gd c = Throw "abort".
Proof.
  intros F O so gp gi gv gd v. exists (Coo [Entry 2 2 v] 1 4 4 [0; 0; 0; 1; 1]).
  split; [apply coob_ok; reflexivity|]. split; [reflexivity|]. split; [reflexivity|]. split; [reflexivity|]. destruct so; reflexivity.
Qed.

(** Choosing the storage by name (getSRMatrixFromCOO): block size 1 gives the scalar form
    whatever the name; otherwise an unknown name is refused. *)
Theorem C05_by_name : forall (F : Type) (O : SOps F) (c : coo F) bs name gp gi gv gd, bs <> 1 ->
  (name = "rowmajor"%string -> getSRMatrixFromCOO bs name gp gi gv gd c = convertToBSR RowMajor bs gp gi gv gd c) /\
  (name = "colmajor"%string -> getSRMatrixFromCOO bs name gp gi gv gd c = convertToBSR ColMajor bs gp gi gv gd c) /\
  (name <> "rowmajor"%string -> name <> "colmajor"%string -> exists msg, getSRMatrixFromCOO bs name gp gi gv gd c = Throw msg).
Proof.
  intros F O c bs name gp gi gv gd Hbs. unfold getSRMatrixFromCOO. rewrite (proj2 (Nat.eqb_neq bs 1) Hbs).
  split; [intros ->; reflexivity|]. split; [intros ->; reflexivity|]. intros H1 H2.
  rewrite (proj2 (String.eqb_neq name _) H1), (proj2 (String.eqb_neq name _) H2). eauto.
Qed.

Print Assumptions C04_csr.
Print Assumptions C04_same_matrix.
Print Assumptions C05_block_rows.
Print Assumptions C05_empty_first_block_row_refuted.
Print Assumptions C05_by_name.
