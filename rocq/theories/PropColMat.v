(** * PropColMat: properties C10, C11, C12, C41 (column storage) *)
From Verif Require Import Base Alg SRMatrix Nd Matvec MatvecFacts MatvecMain TriSpec TriFacts IluApplyMain Sgs SgsForms SgsMain Reorder ReorderFacts ColMat ColMatFacts ColMatMain ColMatRing Inst.
From Coq Require Import ZArith QArith.Qcanon.
Open Scope nat_scope.

(** ** C11: conversion to column storage *)
(** [C] is the matrix [M] in column storage. [as_sr C] reads the arrays of [C] as those of a
    row-stored matrix (which is the transpose); so [wf_pat] says that the pointers run
    monotonely from 0 to the number of entries and indices are in range, [wf_sorted] that row
    indices increase within each column. [stored bs M i j] is the block at row i,
    column j, if there is one. *)
Record is_column_form {F} (bs : nat) (M : srmat F) (C : bscmat F) : Prop := {
  cf_n : nbcols C = nbrows M;
  cf_pat : wf_pat (as_sr C);
  cf_nnz : nnz (as_sr C) = nnz M;
  cf_vals : length (cvals C) = nnz M * (bs * bs);
  cf_sorted : wf_sorted (as_sr C);
  cf_stored : forall i j, i < nbrows M -> j < nbrows M -> stored bs (as_sr C) j i = stored bs M i j;
  cf_dlen : length (cdiagind C) = nbrows M;
  (** the position of the diagonal entry in its column, or -1 *)
  cf_diag : forall j, j < nbrows M ->
    cdiagind C !! j = Some (match pos (as_sr C) j j with Some x => Z.of_nat x | None => (-1)%Z end) }.

Lemma laid_out_form {F} {O : SOps F} bs (M : srmat F) cv C : wf_pat M -> wf_nodup M -> wf_vals bs M ->
  good_cols bs M cv -> laid_out bs M cv C -> is_column_form bs M C.
Proof.
  intros Hw Hn Hv Hg Hl. split.
  - apply (lo_n bs M cv C Hl).
  - apply (as_wf bs M Hw Hv cv C Hg Hl).
  - apply (nnz_as bs M Hw Hv cv C Hg Hl).
  - apply (lo_vlen bs M cv C Hl).
  - apply (as_sorted bs M Hw Hv cv C Hg Hl Hn).
  - apply (as_stored bs M Hw Hv cv C Hg Hl Hn).
  - apply (lo_dlen bs M cv C Hl).
  - apply (as_diag bs M Hw Hv cv C Hg Hl Hn).
Qed.
Theorem C11_convert : forall (F : Type) (O : SOps F) bs (M : srmat F) gp gi gv gd,
  wf_pat M -> wf_nodup M -> wf_vals bs M ->
  length gp = nbrows M + 1 -> length gi = nnz M -> length gv = nnz M * (bs * bs) -> length gd = nbrows M ->
  nok (convert_BSR_to_BSC bs gp gi gv gd M) (is_column_form bs M).
Proof.
  intros F O bs M gp gi gv gd Hw Hn Hv Lp Li Lv Ld. eapply nok_mono; [apply convert_spec; auto|].
  intros C (cv & Hg & Hl). eapply laid_out_form; eauto.
Qed.
(** as a table of numbers *)
Theorem C11_same_matrix : forall (F : Type) (O : SOps F) so bs (M : srmat F) C I J,
  is_column_form bs M C -> I < nbrows M * bs -> J < nbrows M * bs -> cdense so bs C I J = bdense so bs M I J.
Proof.
  intros F O so bs M C I J HC HI HJ. assert (0 < bs) by nia. apply stored_cdense; [assumption|].
  apply (cf_stored bs M C HC); apply Nat.div_lt_upper_bound; lia.
Qed.
(** the 1-based version: all pointers and indices are one larger (a missing diagonal entry has 0) *)
Theorem C11_convert_1based : forall (F : Type) (O : SOps F) bs (M : srmat F) gp gi gv gd,
  wf_pat M -> wf_nodup M -> wf_vals bs M ->
  length gp = nbrows M + 1 -> length gi = nnz M -> length gv = nnz M * (bs * bs) -> length gd = nbrows M ->
  nok (convert_BSR_to_BSC_1based bs gp gi gv gd M) (fun C1 => exists C, is_column_form bs M C /\
    C1 = BSC (S <$> bcolptr C) (S <$> browind C) (cvals C) (Z.succ <$> cdiagind C) (nbcols C)).
Proof.
  intros F O bs M gp gi gv gd Hw Hn Hv Lp Li Lv Ld. unfold convert_BSR_to_BSC_1based.
  eapply nok_bind; [apply C11_convert; auto|]. intros C HC.
  pose proof (wf_len _ (cf_pat _ _ _ HC)) as L1. simpl in L1. pose proof (wf_clen _ (cf_pat _ _ _ HC)) as L2. simpl in L2.
  pose proof (cf_dlen _ _ _ HC) as L3. rewrite (cf_nnz _ _ _ HC) in L2. pose proof (cf_n _ _ _ HC) as L4.
  eapply nok_bind; [apply nok_lift; apply (ok_bump (fun a => a + 1) (nbcols C + 1) (bcolptr C)); lia|]. intros p Hp.
  eapply nok_bind; [apply nok_lift; apply (ok_bump (fun a => a + 1)%Z (nbcols C) (cdiagind C)); lia|]. intros d Hd.
  eapply nok_bind; [apply nok_lift; eapply ok_get; [apply (wf_browptr M _ Hw); lia|exact eq_refl]|]. intros ? <-. change (rp M (nbrows M)) with (nnz M).
  eapply nok_bind; [apply nok_lift; apply (ok_bump (fun a => a + 1) (nnz M) (browind C)); lia|]. intros r Hr.
  apply nok_ret. exists C. split; [exact HC|].
  assert (length (cdiagind C) = nbcols C) as L5 by lia.
  rewrite (bump_all _ _ _ _ L1 Hp), (bump_all _ _ _ _ L5 Hd), (bump_all _ _ _ _ L2 Hr). f_equal.
  - apply list_fmap_ext. intros. lia.
  - apply list_fmap_ext. intros. lia.
Qed.
(** the hypotheses hold of [exB]; an example with rows in different lengths and a missing diagonal entry
        5 . 7
        6 . 8
        . 9 .   *)
Definition exC : srmat Qc := SR [0; 2; 4; 5] [0; 2; 0; 2; 1] (q <$> [5; 7; 6; 8; 9]%Z) [0; 0; 0] [2; 4; 5] 3 5 5.
Definition exC_col : bscmat Qc := BSC [0; 2; 3; 5] [0; 1; 2; 0; 1] (q <$> [5; 6; 9; 7; 8]%Z) [0; (-1); (-1)]%Z 3.
Example C11_case : wf_pat exC /\ wf_nodup exC /\ wf_vals 1 exC /\ is_column_form 1 exC exC_col.
Proof.
  split; [apply wfb_pat_ok; reflexivity|]. split; [apply sorted_nodup, wfb_sorted_ok; reflexivity|]. split; [reflexivity|].
  split; try reflexivity.
  - apply wfb_pat_ok. reflexivity.
  - apply wfb_sorted_ok. reflexivity.
  - intros i j Hi Hj. simpl in Hi, Hj. destruct i as [|[|[|]]]; [| | |lia]; (destruct j as [|[|[|]]]; [| | |lia]); reflexivity.
  - intros j Hj. simpl in Hj. destruct j as [|[|[|]]]; [| | |lia]; reflexivity.
Qed.

(** ** C10: z = a A x + b y with a column-stored matrix *)
(** [any_order] in the model lets the atomic additions happen in every order *)
Theorem C10_column_gemv3 : forall (F : Type) (O : SOps F) (R : CRing F) so bs (C : bscmat F) a x b y z,
  let N := nbcols C * bs in
  wf_pat (as_sr C) -> wf_nodup (as_sr C) -> length (cvals C) = nnz (as_sr C) * (bs * bs) ->
  length x = N -> length z = N ->
  let yy := match y with Some y => y | None => z end in length yy = N ->
  nok (bcsc_gemv3 so bs C a x b y z) (fun z' => length z' = N /\
    forall I, I < N -> vat z' I = (a * bsum N (fun J => cdense so bs C I J * vat x J) + b * vat yy I)%s).
Proof. intros F O R so bs C a x b y z N Hw Hn Hv Hx Hz yy Hy. apply bcsc_gemv3_spec; auto. Qed.
(** ... the same as with the row-stored matrix it was made from *)
Theorem C10_same_as_rows : forall (F : Type) (O : SOps F) (R : CRing F) so bs (M : srmat F) gp gi gv gd a x b y z,
  let N := nbrows M * bs in
  wf_pat M -> wf_nodup M -> wf_vals bs M ->
  length gp = nbrows M + 1 -> length gi = nnz M -> length gv = nnz M * (bs * bs) -> length gd = nbrows M ->
  length x = N -> length z = N ->
  let yy := match y with Some y => y | None => z end in length yy = N ->
  exists z', nok (bsr_gemv3 so bs M a x b y z) (fun o => o = z') /\
    nok (ndo C := convert_BSR_to_BSC bs gp gi gv gd M in bcsc_gemv3 so bs C a x b y z) (fun o => o = z').
Proof.
  intros F O R so bs M gp gi gv gd a x b y z N Hw Hn Hv Lp Li Lv Ld Hx Hz yy Hy.
  set (f I := (a * bsum N (fun J => bdense so bs M I J * vat x J) + b * vat yy I)%s).
  exists (f <$> seq 0 N). split.
  - apply determinate. eapply nok_mono; [apply bsr_gemv3_spec; auto|]. intros z' [Hl H]. split; [exact Hl|]. intros I HI.
    destruct (unflat bs (nbrows M) I HI) as (i & p & -> & Hi & Hp). rewrite (H i p Hi Hp). f_equal. apply brow_value; auto.
  - eapply nok_bind; [apply C11_convert; auto|]. intros C HC. apply determinate.
    pose proof (cf_n _ _ _ HC) as En.
    eapply nok_mono; [apply bcsc_gemv3_spec|].
    + apply (cf_pat _ _ _ HC).
    + apply sorted_nodup, (cf_sorted _ _ _ HC).
    + rewrite (cf_nnz _ _ _ HC). apply (cf_vals _ _ _ HC).
    + rewrite En. exact Hx.
    + rewrite En. exact Hz.
    + rewrite En. exact Hy.
    + rewrite En. intros z' [Hl H]. split; [exact Hl|]. intros I HI. rewrite (vat_Some z' I) by (rewrite Hl; exact HI). f_equal. rewrite H by exact HI.
      unfold f. f_equal. f_equal. apply bsum_ext. intros J HJ. rewrite (C11_same_matrix F O so bs M C I J HC); auto.
Qed.
Example C10_case : wf_pat (as_sr exC_col) /\ wf_nodup (as_sr exC_col) /\ length (cvals exC_col) = nnz (as_sr exC_col) * (1 * 1) /\
  bcsc_gemv3 RowMajor 1 exC_col (q 2) [q 1; q 2; q 3] (q (-1)) None [q 1; q 2; q 3] (Ok [q 51; q 58; q 33]).
Proof.
  split; [apply wfb_pat_ok; reflexivity|]. split; [apply sorted_nodup, wfb_sorted_ok; reflexivity|]. split; [reflexivity|].
  eexists. split; [exists [1; 2; 0]; split; [apply (Permutation_app_comm [1; 2] [0])|reflexivity]|].
  eexists. split; [reflexivity|]. exists [(2, 3, 0); (0, 0, 0); (1, 2, 0); (2, 4, 0); (0, 1, 0)]. split; [|reflexivity].
  apply NoDup_Permutation.
  - apply (bool_decide_eq_true_1 (NoDup _)). reflexivity.
  - apply (bool_decide_eq_true_1 (NoDup _)). reflexivity.
  - intros u. rewrite !elem_of_list_In. simpl. tauto.
Qed.

(** ** C12: column adjacency *)
Record is_column_adjacency {F} (M : srmat F) (A : coladj) : Prop := {
  ca_len : length (ca_ptrs A) = nbrows M + 1;
  ca_first : ca_ptrs A !! 0 = Some 0;
  ca_rlen : length (ca_col_rows A) = nnz M;
  ca_llen : length (ca_rows_loc A) = nnz M;
  ca_col : forall j, j < nbrows M -> exists lo hi, ca_ptrs A !! j = Some lo /\ ca_ptrs A !! (j + 1) = Some hi /\ lo <= hi /\
    (** what is listed is an entry of column [j], its row and position *)
    (forall x, lo <= x < hi -> exists r k, ca_col_rows A !! x = Some r /\ ca_rows_loc A !! x = Some k /\ inrow M r k /\ col M k = j) /\
    (** every entry of column [j] is listed *)
    (forall r k, inrow M r k -> col M k = j -> exists x, lo <= x < hi /\ ca_col_rows A !! x = Some r /\ ca_rows_loc A !! x = Some k) /\
    (** in increasing order *)
    (forall x x' r r' k k', lo <= x -> x < x' -> x' < hi -> ca_rows_loc A !! x = Some k -> ca_rows_loc A !! x' = Some k' ->
       ca_col_rows A !! x = Some r -> ca_col_rows A !! x' = Some r' -> k < k' /\ r <= r' /\ (wf_nodup M -> r < r')) }.
Theorem C12_column_adjacency : forall (F : Type) (M : srmat F) old, wf_pat M ->
  exists A, coladj_compute M old = Ok A /\ is_column_adjacency M A.
Proof.
  intros F M old Hw. destruct (proj1 (ok_inv _ _) (coladj_spec M Hw old)) as (A & E & Lp & Hp & El & Er). exists A. split; [exact E|].
  assert (forall j x, j < nbrows M -> start (cols M) j <= x < start (cols M) (j + 1) -> exists k, concat (cols M) !! x = Some k /\
    cl M j (nnz M) !! (x - start (cols M) j) = Some k /\ k < nnz M /\ col M k = j) as Hx.
  { intros j x Hj Hx. rewrite (start_S _ _ _ (cols_lookup M j Hj)) in Hx.
    destruct (lookup_lt_is_Some_2 (cl M j (nnz M)) (x - start (cols M) j)) as [k Ek]; [lia|]. exists k.
    rewrite <- (concat_lookup _ _ _ _ (cols_lookup M j Hj)) in Ek by lia. replace (start (cols M) j + (x - start (cols M) j)) with x in Ek by lia.
    split; [exact Ek|]. replace x with (start (cols M) j + (x - start (cols M) j)) in Ek by lia.
    rewrite (concat_lookup _ _ _ _ (cols_lookup M j Hj)) in Ek by lia. split; [exact Ek|].
    apply elem_of_list_lookup_2, cl_elem in Ek. exact Ek. }
  split.
  - exact Lp.
  - rewrite Hp by lia. reflexivity.
  - rewrite Er, fmap_length. apply cols_total, Hw.
  - rewrite El. apply cols_total, Hw.
  - intros j Hj. exists (start (cols M) j), (start (cols M) (j + 1)). split; [apply Hp; lia|]. split; [apply Hp; lia|].
    split; [apply start_mono; lia|]. rewrite El, Er. split; [|split].
    + intros x Hxx. destruct (Hx j x Hj Hxx) as (k & Ek & _ & Hk & Hc). exists (rowof M k), k. rewrite list_lookup_fmap, Ek.
      split; [reflexivity|]. split; [reflexivity|]. split; [|exact Hc]. apply inrow_rowof; auto.
    + intros r k Hr Hc. pose proof (inrow_lt M r k Hw Hr) as Hk.
      assert (k ∈ cl M j (nnz M)) as Hin by (apply cl_elem; auto). apply elem_of_list_lookup_1 in Hin as [y Ey].
      pose proof (lookup_lt_Some _ _ _ Ey) as Hy. exists (start (cols M) j + y).
      rewrite (start_S _ _ _ (cols_lookup M j Hj)). split; [lia|].
      rewrite list_lookup_fmap, (concat_lookup _ _ _ _ (cols_lookup M j Hj) Hy), Ey. simpl. rewrite (rowof_inrow M r k Hw Hr). auto.
    + intros x x' r r' k k' H1 H2 H3 Ek Ek' E1 E2.
      destruct (Hx j x Hj ltac:(lia)) as (k1 & Ek1 & Ec1 & Hk1 & Hc1). destruct (Hx j x' Hj ltac:(lia)) as (k2 & Ek2 & Ec2 & Hk2 & Hc2).
      rewrite Ek in Ek1. injection Ek1 as <-. rewrite Ek' in Ek2. injection Ek2 as <-.
      rewrite list_lookup_fmap, Ek in E1. rewrite list_lookup_fmap, Ek' in E2. injection E1 as <-. injection E2 as <-.
      assert (k < k') as Hlt by (eapply cl_sorted; [|exact Ec1|exact Ec2]; lia).
      pose proof (inrow_rowof M k Hw Hk1) as R1. pose proof (inrow_rowof M k' Hw Hk2) as R2.
      assert (rowof M k <= rowof M k') as Hle.
      { destruct (decide (rowof M k <= rowof M k')) as [|Hgt]; [assumption|]. pose proof (inrow_order M _ _ _ _ Hw R2 R1 ltac:(lia)). lia. }
      split; [exact Hlt|]. split; [exact Hle|]. intros Hn. enough (rowof M k <> rowof M k') by lia. intros He.
      assert (k = k') by (apply (Hn (rowof M k)); [apply R1|exact R1|rewrite He; exact R2|congruence]). lia.
Qed.
Example C12_case : coladj_compute exC (ColAdj [] [] []) = Ok (ColAdj [0; 2; 3; 5] [0; 1; 2; 0; 1] [0; 2; 4; 1; 3]).
Proof. reflexivity. Qed.

(** ** C41: backward Gauss-Seidel by columns *)
Lemma dense_as {F} {O : SOps F} (M : srmat F) C i j : is_column_form 1 M C -> i < nbrows M -> j < nbrows M -> dense (as_sr C) j i = dense M i j.
Proof.
  intros HC Hi Hj. pose proof (cf_stored 1 M C HC i j Hi Hj) as H. unfold stored in H. unfold dense.
  assert (forall (v : list F) k, default s0 (v !! k) = default s0 (take (1 * 1) (drop (k * (1 * 1)) v) !! 0)) as Hv.
  { intros v k. rewrite lookup_take, lookup_drop by lia. f_equal. f_equal. lia. }
  destruct (pos (as_sr C) j i) as [k|], (pos M i j) as [k'|]; simpl in H; try discriminate; [|reflexivity].
  injection H as H. rewrite (Hv (vals (as_sr C)) k), (Hv (vals M) k'). simpl. rewrite H. reflexivity.
Qed.
Lemma csc_compute_ok {F} {O : SOps F} (M : srmat F) gdb gp gi gv gd :
  wf_mat M -> wf_vals 1 M ->
  length gdb = nbrows M -> length gp = nbrows M + 1 -> length gi = nnz M -> length gv = nnz M -> length gd = nbrows M ->
  nok (csc_bgs_compute gdb gp gi gv gd M)
    (fun '(db, C) => db = (fun i => s1 / vat (vals M) (dg M i))%s <$> seq 0 (nbrows M) /\ is_column_form 1 M C).
Proof.
  intros (Hw & Hd & Hs) Hv L1 L2 L3 L4 L5.
  assert (length (vals M) = nnz M) as Hv' by (unfold wf_vals in Hv; lia).
  pose proof (sorted_nodup M Hs) as Hn. unfold csc_bgs_compute. eapply nok_bind; [apply jacobi_setup_spec; auto|]. intros db ->.
  eapply nok_bind; [apply C11_convert; auto; lia|]. intros C HC. apply nok_ret. auto.
Qed.
Lemma csc_apply_ok {F} {O : SOps F} {R : Field F} (M : srmat F) C k temp r z :
  let n := nbrows M in
  wf_mat M -> wf_vals 1 M -> (forall i, i < n -> dense M i i <> s0) -> is_column_form 1 M C ->
  length temp = n -> length r = n -> length z = n -> 1 <= k ->
  nok (csc_bgs_apply C ((fun i => s1 / vat (vals M) (dg M i))%s <$> seq 0 n) (one_thread C k) temp r z)
    (fun z' => length z' = n /\ is_prod n (upper (dense M)) z' r).
Proof.
  intros n (Hw & Hd & Hs) Hv Hnz HC L6 L7 L8 Hk.
  assert (length (vals M) = nnz M) as Hv' by (unfold wf_vals in Hv; lia).
  pose proof (sorted_nodup M Hs) as Hn.
  set (db := _ <$> _). pose proof (cf_n _ _ _ HC) as En.
  assert (length db = nbcols C) as Ldb by (unfold db; rewrite fmap_length, seq_length; lia).
  eapply nok_mono; [apply (apply_spec C db r)|].
  - apply (cf_pat _ _ _ HC).
  - apply (cf_sorted _ _ _ HC).
  - rewrite (cf_nnz _ _ _ HC), (cf_vals _ _ _ HC). lia.
  - exact Ldb.
  - lia.
  - intros j Hj. rewrite En in Hj. pose proof (cf_stored _ _ _ HC j j Hj Hj) as Hst. unfold stored in Hst.
    rewrite (pos_diag M j Hn Hd Hj) in Hst. destruct (pos (as_sr C) j j) as [d|] eqn:E; [|discriminate].
    exists d. split; [reflexivity|]. rewrite (cf_diag _ _ _ HC j Hj), E. reflexivity.
  - exact Hk.
  - lia.
  - lia.
  - intros z' (t & Hb). split; [destruct Hb as (_ & Hz & _); lia|].
    pose proof (binv_solves C db r) as Hsol. 
    assert (is_prod (nbcols C) (upper (fun i j => dense (as_sr C) j i)) z' r) as HP.
    { eapply Hsol; [rewrite (cf_nnz _ _ _ HC), (cf_vals _ _ _ HC); lia|exact Ldb|lia| |exact Hb]. intros i Hi. rewrite En in Hi. unfold db. rewrite vat_fmap_seq by exact Hi.
      rewrite (dense_as M C i i HC Hi Hi). unfold dense. rewrite (pos_diag M i Hn Hd Hi).
      apply field_div. pose proof (Hnz i Hi) as H. unfold dense in H. rewrite (pos_diag M i Hn Hd Hi) in H. exact H. }
    rewrite En in HP. intros i Hi. rewrite <- (HP i Hi). apply bsum_ext. intros j Hj. unfold upper. rewrite (dense_as M C i j HC Hi Hj). reflexivity.
Qed.
(** one thread (each sweep takes the columns from the last to the first), k >= 1 sweeps *)
Theorem C41_one_thread : forall (F : Type) (O : SOps F) (R : Field F) (M : srmat F) gdb gp gi gv gd k temp r z,
  let n := nbrows M in
  wf_mat M -> wf_vals 1 M -> (forall i, i < n -> dense M i i <> s0) ->
  length gdb = n -> length gp = n + 1 -> length gi = nnz M -> length gv = nnz M -> length gd = n ->
  length temp = n -> length r = n -> length z = n -> 1 <= k ->
  nok (ndo (db, C) := csc_bgs_compute gdb gp gi gv gd M in csc_bgs_apply C db (one_thread C k) temp r z)
    (fun z' => length z' = n /\ is_prod n (upper (dense M)) z' r).
Proof.
  intros F O R M gdb gp gi gv gd k temp r z n HM Hv Hnz L1 L2 L3 L4 L5 L6 L7 L8 Hk.
  eapply nok_bind; [apply csc_compute_ok; auto|]. intros [db C] [-> HC]. apply csc_apply_ok; auto.
Qed.
Example C41_case : wf_mat exM /\ wf_vals 1 exM /\ (forall i, i < 3 -> dense exM i i <> s0).
Proof.
  split; [split; [apply exM_pat|split; [apply exM_diag|apply exM_sorted]]|]. split; [reflexivity|].
  intros i Hi. destruct i as [|[|[|]]]; [| | |lia]; discriminate.
Qed.
(** With more threads, columns can be taken in another order: two columns, dealt out one each to
    two threads, of which the one with column 0 is quicker in each sweep. The result is not the solution,
    however many sweeps. *)
Definition twoC {F} {O : SOps F} : bscmat F := BSC [0; 2; 4] [0; 1; 0; 1] [s1; s1; s1; s1] [0; 3]%Z 2.
Definition twoM {F} {O : SOps F} : srmat F := SR [0; 2; 4] [0; 1; 0; 1] [s1; s1; s1; s1] [0; 3] [2; 4] 2 4 4.
Section Two.
  Context {F : Type} {O : SOps F} {R : Field F}.
  Add Ring Fr : cring.
  Lemma two_facts : (s1 * s1 = s1 :> F)%s /\ ((s0 + s1 * s1 + s1 * s1)%s = s1 :> F -> False).
  Proof.
    split; [ring|]. intros H. apply field_10. transitivity ((s0 + s1 * s1 + s1 * s1) - s1)%s; [ring|]. rewrite H. ring.
  Qed.
  Lemma two_sweep temp z r : length temp = 2 -> length z = 2 -> length r = 2 ->
    nok (ndo temp := par_for 0 2 (fun j temp => let! a := get r j in let! d := get [s1; s1] j in set temp j (a * d)%s) temp in
      nlift (forl [0; 1] (csc_bgs_column (F:=F) twoC [s1; s1]) (temp, z)))
    (fun st => length st.1 = 2 /\ st.2 = r).
  Proof.
    intros Ht Hz Hr. eapply nok_bind with (P := fun t => t = r).
    - apply nok_par_for_map with (g := fun i => vat r i).
      + lia.
      + intros i s Hi Hl _. rewrite vat_get by lia. cbn [bind].
        assert (get [s1; s1] i = Ok (s1 : F)) as -> by (destruct i as [|[|]]; [reflexivity|reflexivity|lia]). cbn [bind].
        rewrite set_Ok by lia. do 2 f_equal. ring.
      + intros s Hl Hin _. apply vec_eq; [lia|]. intros i Hi. apply vat_eq, Hin. lia.
    - intros ? ->. destruct r as [|r0 [|r1 [|]]]; try discriminate. destruct z as [|z0 [|z1 [|]]]; try discriminate.
      apply nok_lift. simpl. auto.
  Qed.
  Lemma two_apply k temp r z : length temp = 2 -> length z = 2 -> length r = 2 -> 1 <= k ->
    nok (csc_bgs_apply (F:=F) twoC [s1; s1] (replicate k [0; 1]) temp r z) (fun z' => z' = r).
  Proof.
    intros Ht Hz Hr Hk. unfold csc_bgs_apply.
    eapply nok_bind with (P := fun t => length t = 2).
    { apply nok_par_for_map with (g := fun _ => s0); [simpl; lia| |].
      - intros i s Hi Hl _. apply set_Ok. simpl in Hi. lia.
      - intros s Hl _ _. lia. }
    clear temp Ht. intros temp Ht. rewrite replicate_length.
    eapply nok_bind with (P := fun st => st.2 = r).
    { eapply nok_nfor with (I := fun m st => length st.1 = 2 /\ length st.2 = 2 /\ (0 < m -> st.2 = r)).
      - lia.
      - split; [exact Ht|]. split; [exact Hz|]. lia.
      - intros m [t z'] Hm (L1 & L2 & _). simpl in L1, L2.
        eapply nok_bind; [apply nok_lift; eapply ok_get; [apply lookup_replicate_2; lia|exact eq_refl]|]. intros ? <-.
        eapply nok_mono; [apply (two_sweep t z' r); auto|]. intros [t2 z2] [H1 H2]. simpl in *. subst. auto.
      - intros [t z'] (_ & _ & H). apply H. lia. }
    intros [t z'] Hb. apply nok_ret. exact Hb.
  Qed.
End Two.
Theorem C41_two_threads_refuted : forall (F : Type) (O : SOps F) (R : Field F) k temp z,
  length temp = 2 -> length z = 2 -> 1 <= k ->
  wf_mat (twoM (F:=F)) /\ is_column_form 1 (twoM (F:=F)) twoC /\
  nok (csc_bgs_apply twoC [s1; s1] (replicate k [0; 1]) temp [s1; s1] z) (fun z' => ~ is_prod 2 (upper (dense (twoM (F:=F)))) z' [s1; s1]).
Proof.
  intros F O R k temp z Ht Hz Hk. split; [|split].
  - split; [apply wfb_pat_ok; reflexivity|]. split; [apply wfb_diag_ok; reflexivity|apply wfb_sorted_ok; reflexivity].
  - split; try reflexivity.
    + apply wfb_pat_ok. reflexivity.
    + apply wfb_sorted_ok. reflexivity.
    + intros i j Hi Hj. simpl in Hi, Hj. destruct i as [|[|]]; [| |lia]; (destruct j as [|[|]]; [| |lia]); reflexivity.
    + intros j Hj. simpl in Hj. destruct j as [|[|]]; [| |lia]; reflexivity.
  - eapply nok_mono; [apply two_apply; auto|]. intros ? -> HP. specialize (HP 0 ltac:(lia)). apply (proj2 two_facts). exact HP.
Qed.
(** relaxation with this preconditioner is refused *)
Theorem C41_relaxation_refused : forall (F : Type) (r z : list F) o, csc_bgs_apply_relax r z o -> exists msg, o = Throw msg.
Proof. intros F r z o H. eexists. exact H. Qed.

Print Assumptions C10_column_gemv3.
Print Assumptions C10_same_as_rows.
Print Assumptions C11_convert.
Print Assumptions C11_same_matrix.
Print Assumptions C11_convert_1based.
Print Assumptions C12_column_adjacency.
Print Assumptions C41_one_thread.
Print Assumptions C41_two_threads_refuted.
Print Assumptions C41_relaxation_refused.
