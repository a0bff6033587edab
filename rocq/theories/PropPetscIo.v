(** * PropPetscIo: property C65, reading a matrix file into a PETSc matrix *)
From Coq Require Import ZArith QArith.Qcanon.
From Verif Require Import Base Alg SRMatrix Nd Reorder Coo CooSpec CooFacts CooRead TriFacts PropCoo PropCooRead PetscIo PetscIoFacts Inst.
Open Scope nat_scope.

(** ** What is read *)
(** number [x] is the entry (i,j), counted from 0, of the file with the triples [body]: a listed value, or zero if there is none *)
Definition file_entry {F} {O : SOps F} (body : list (nat * nat * F)) (i j : nat) (x : F) : Prop :=
  (i + 1, j + 1, x) ∈ body \/ (x = s0 /\ forall v, (i + 1, j + 1, v) ∉ body).
(** a file of a general matrix in coordinate storage with [nr] rows and [nc] columns, in which no row is empty *)
Record matrix_file {F} (nr nc : nat) (body : list (nat * nat * F)) (file : mmfile F) : Prop := {
  mf_header : exists d, getMMDescription (mm_header file) = Ok d /\ storagetype d = COORDINATE /\ scalartype d <> PATTERN /\ matrixtype d = GENERAL;
  mf_sizes : exists extra, mm_sizes file = nr :: nc :: length body :: extra;
  mf_body : mm_body file = body;
  mf_pos : 0 < nr;
  mf_rows : forall i, 1 <= i <= nr -> exists t, t ∈ body /\ t.1.1 = i;
  mf_range : forall t, t ∈ body -> 1 <= t.1.1 <= nr /\ 1 <= t.1.2 <= nc
}.
(** [A] is the matrix of the file *)
Definition is_file_matrix {F} {O : SOps F} (nr nc bs : nat) (body : list (nat * nat * F)) (A : pmat F) : Prop :=
  pm_m A = nr /\ pm_n A = nc /\ pm_bs A = bs /\ forall i j, i < nr -> j < nc -> file_entry body i j (pm_val A i j).

Section Read.
  Context {F : Type} {O : SOps F}.
  Lemma read_coo (old : coo F) nr nc body file : matrix_file nr nc body file ->
    nok (readMatrixMarket old file) (fun c => coo_ok c /\ nrows c = nr /\ ncols c = nc /\
      (forall x, x ∈ entries c -> rowind x < nr /\ colind x < nc) /\ (forall i, i < nr -> exists x, x ∈ entries c /\ rowind x = i) /\
      forall i j x, i < nr -> j < nc -> coo_entry (entries c) i j x -> file_entry body i j x).
  Proof.
    intros [(d & Hd & H1 & H2 & H3) (extra & Hs) Hb Hpos Hrows Hrange]. destruct file as [h sz bd]. simpl in *. subst sz bd.
    eapply nok_mono; [eapply (C06_read F old h d nr nc extra body); eauto|].
    intros c (Hc & Hr & Hn & Hp & _). split; [exact Hc|]. split; [exact Hr|]. split; [exact Hn|].
    assert (forall e, e ∈ entries c <-> exists t, t ∈ body /\ e = zero_based t) as Hel.
    { intros e. rewrite Hp, elem_of_list_fmap. split; intros (t & A1 & A2); exists t; auto. }
    split; [|split].
    - intros x Hx. apply Hel in Hx as (t & Ht & ->). specialize (Hrange t Ht). simpl. lia.
    - intros i Hi. destruct (Hrows (i + 1) ltac:(lia)) as (t & Ht & Hti). exists (zero_based t). split; [apply Hel; eauto|]. simpl. lia.
    - intros i j x Hi Hj [Hin|[-> Hno]].
      + left. apply Hel in Hin as (t & Ht & E). destruct t as [[a b] w]. specialize (Hrange _ Ht). simpl in *. unfold zero_based in E. simpl in E.
        injection E as -> -> ->. replace (a - 1 + 1) with a by lia. replace (b - 1 + 1) with b by lia. exact Ht.
      + right. split; [reflexivity|]. intros v Hv. apply (Hno v). apply Hel. exists (i + 1, j + 1, v). split; [exact Hv|].
        unfold zero_based. simpl. f_equal; lia.
  Qed.
  Lemma nbs_setup (A : pmat F) m n : pm_bs A <> 0 -> m mod pm_bs A = 0 -> n mod pm_bs A = 0 ->
    MatSetUp A m n = Ok (PMat (pm_bs A) m n (pm_roworiented A) (pm_val A)).
  Proof. intros _ H1 H2. unfold MatSetUp. rewrite H1, H2. reflexivity. Qed.
End Read.

(** C65. The row-by-row reader: whatever block size the options ask for, provided that it divides both dimensions, the function succeeds, creates one
    matrix, with the block size, dimensions and entries of the file (for a place listed several times, one of the values listed). *)
Theorem C65_reader : forall (F : Type) (O : SOps F) dbg bs nr nc body (file : mmfile F),
  matrix_file nr nc body file -> 0 < bs -> nr mod bs = 0 -> nc mod bs = 0 ->
  nok (readMatFromCOOFile dbg bs file) (fun '(ms, h) => length ms = 1 /\ exists A, ms !! h = Some A /\ is_file_matrix nr nc bs body A).
Proof.
  intros F O dbg bs nr nc body file Hf Hbs Hnr Hnc. unfold readMatFromCOOFile.
  eapply nok_bind; [apply (read_coo cmat0 nr nc body file Hf)|]. intros c (Hc & Hr & Hn & Hin & Hrows & Hent).
  apply nok_lift. rewrite nbs_setup by (simpl; rewrite ?Hr, ?Hn; auto; lia). cbn [bind MatCreate MatSetRowOriented pm_bs pm_m pm_n pm_val].
  eapply ok_bind with (P := fun '(A, e) => e = false /\ filled (coo_entry (entries c)) nr nc bs false nr A).
  - rewrite Hr. eapply ok_for with (I := fun r '(A, e) => e = false /\ filled (coo_entry (entries c)) nr nc bs false r A); [lia| |].
    + split; [reflexivity|]. rewrite <- Hn. repeat split; intros; lia.
    + intros i [A e] Hi [_ HA]. apply insert_row_ok; [exact Hc|auto|lia|intros x Hx _; apply Hin, Hx|apply Hrows; lia|exact HA].
  - intros [A e] [-> (A1 & A2 & A3 & A4 & A5 & A6)]. cbn [CHKERRQ bind]. apply ok_ret. split; [reflexivity|]. exists A. split; [reflexivity|].
    split; [exact A2|]. split; [exact A3|]. split; [exact A1|]. intros i j Hi Hj. apply Hent; auto.
Qed.

(** The reader going through block rows, for one process and a square matrix. Block sizes 3, 4 and 7 which divide the dimension: as above. *)
Theorem C65_reader_blocks : forall (F : Type) (O : SOps F) dbg bs n body (file : mmfile F) gp gi gv gd,
  matrix_file n n body file -> bs = 3 \/ bs = 4 \/ bs = 7 -> n mod bs = 0 ->
  nok (readMatFromCOOFile_viaSR dbg 1 bs gp gi gv gd file) (fun '(ms, h) => length ms = 1 /\ exists A, ms !! h = Some A /\ is_file_matrix n n bs body A).
Proof.
  intros F O dbg bs n body file gp gi gv gd Hf Hbs Hdiv. unfold readMatFromCOOFile_viaSR. cbn [Nat.ltb Nat.leb].
  assert (0 < bs) as Hb0 by lia. assert (bs <> 1) as Hb1 by lia.
  assert ((bs =? 3) || (bs =? 4) || (bs =? 7) = true) as -> by (destruct Hbs as [-> | [-> | ->]]; reflexivity).
  eapply nok_bind; [apply (read_coo cmat0 n n body file Hf)|]. intros c (Hc & Hr & Hn & Hin & Hrows & Hent).
  apply nok_lift. set (N := n / bs). assert (n = N * bs) as HN by (unfold N; pose proof (Nat.div_mod n bs ltac:(lia)); lia).
  pose proof (mf_pos _ _ _ _ Hf) as Hpos.
  destruct (C05_by_name F O c bs "colmajor" gp gi gv gd Hb1) as (_ & E & _). rewrite (E eq_refl). clear E.
  destruct (C05_block_rows F O c ColMajor bs N gp gi gv gd Hc Hb0 ltac:(lia) ltac:(lia)) as (M & d & E & Hnb & Hwf & _ & Hnd & Hv & _ & _ & Hdense & _).
  { right. destruct (Hrows 0 Hpos) as (x & Hx & Hx0). exists x. split; [exact Hx|lia]. }
  rewrite E. cbn [bind]. destruct (Nat.eqb_spec bs 1) as [|_]; [lia|].
  rewrite nbs_setup by (simpl; rewrite ?Hr, ?Hn; auto; lia). cbn [bind MatCreate MatSetRowOriented pm_bs pm_m pm_n pm_val pm_roworiented].
  assert (nnz M * (bs * bs) = length (vals M)) as Lv by (symmetry; exact Hv).
  eapply ok_bind with (P := fun A => pm_bs A = bs /\ pm_m A = n /\ pm_n A = n /\
    forall i j, i < n -> j < n -> pm_val A i j = bdense ColMajor bs M i j).
  { eapply ok_for_post with (I := fun r A => pm_bs A = bs /\ pm_m A = n /\ pm_n A = n /\ pm_roworiented A = false /\
      (forall i j, i / bs < r -> j < n -> pm_val A i j = bdense ColMajor bs M i j) /\ (forall i j, r <= i / bs -> pm_val A i j = s0)).
    - lia.
    - repeat split; auto; intros; lia.
    - intros r A [_ Hi] (A1 & A2 & A3 & A4 & A5 & A6).
      eapply ok_bind; [eapply ok_get; [apply (wf_browptr M r Hwf); lia|exact eq_refl]|]. intros ? <-.
      eapply ok_bind; [eapply ok_get; [apply (wf_browptr M (r + 1) Hwf); lia|exact eq_refl]|]. intros ? <-.
      pose proof (wf_mono M Hwf r Hi) as Hm. pose proof (rp_mono M (r + 1) (nbrows M) Hwf ltac:(lia) ltac:(lia)) as Hm'. fold (nnz M) in Hm'.
      assert (forall l, l < rp M (r + 1) - rp M r -> drop (rp M r) (bcolind M) !! l = Some (col M (rp M r + l))) as Hcol.
      { intros l Hl. rewrite lookup_drop. apply (wf_bcolind M _ Hwf). lia. }
      eapply ok_bind; [apply (MatSetValuesBlocked_ok dbg A r _ _ _ N); rewrite ?A1|].
      + exact Hb0.
      + exact A4.
      + lia.
      + lia.
      + lia.
      + intros l Hl. exists (col M (rp M r + l)). split; [apply Hcol, Hl|]. rewrite <- Hnb. apply (wf_col M Hwf). lia.
      + intros l1 l2 x L1 L2 E1 E2. rewrite (Hcol l1 L1) in E1. rewrite (Hcol l2 L2) in E2.
        assert (rp M r + l1 = rp M r + l2); [|lia]. apply (Hnd r); [exact Hi|split; [exact Hi|lia]|split; [exact Hi|lia]|congruence].
      + rewrite drop_length, <- Lv. nia.
      + intros [B e] (-> & (S1 & S2 & S3 & S4) & Hother & Hthis & Hcols). rewrite A1 in *. cbn [CHKERRQ bind]. apply ok_ret.
        split; [congruence|]. split; [congruence|]. split; [congruence|]. split; [congruence|]. split.
        * intros i j Hir Hj. destruct (decide (i / bs = r)) as [Er|].
          -- unfold bdense. rewrite Er. destruct (pos M r (j / bs)) as [k|] eqn:Ek.
             ++ apply pos_Some in Ek as [[_ Hk] Hck]; [|exact Hi].
                pose proof (Nat.mod_upper_bound i bs ltac:(lia)) as Hmi. pose proof (Nat.mod_upper_bound j bs ltac:(lia)) as Hmj.
                specialize (Hthis (i mod bs) (j mod bs) (j / bs) (k - rp M r) Hmi Hmj ltac:(lia)).
                rewrite Hcol in Hthis by lia. replace (rp M r + (k - rp M r)) with k in Hthis by lia. rewrite Hck in Hthis. specialize (Hthis eq_refl).
                replace (r * bs + i mod bs) with i in Hthis by (rewrite <- Er; pose proof (Nat.div_mod i bs ltac:(lia)); lia).
                replace (j / bs * bs + j mod bs) with j in Hthis by (pose proof (Nat.div_mod j bs ltac:(lia)); lia).
                rewrite lookup_drop in Hthis. unfold bent. cbn [lay].
                replace (k * (bs * bs) + (j mod bs * bs + i mod bs)) with (rp M r * bs * bs + ((k - rp M r) * (bs * bs) + (j mod bs * bs + i mod bs)));
                  [rewrite Hthis; reflexivity|]. replace k with (rp M r + (k - rp M r)) at 2 by lia. lia.
             ++ rewrite Hcols; [apply A6; lia|]. intros l Hl. rewrite Hcol by exact Hl. intros Ec. injection Ec as Ec.
                apply (proj1 (pos_None M r (j / bs) Hi) Ek (rp M r + l)); [|exact Ec]. split; [exact Hi|lia].
          -- rewrite Hother by auto. apply A5; [lia|exact Hj].
        * intros i j Hir. rewrite Hother by lia. apply A6. lia.
    - intros A (A1 & A2 & A3 & A4 & A5 & A6). split; [exact A1|]. split; [exact A2|]. split; [exact A3|]. intros i j Hi Hj. apply A5; [|exact Hj].
      rewrite Hnb. apply Nat.div_lt_upper_bound; lia. }
  intros A (A1 & A2 & A3 & A4). apply ok_ret. split; [reflexivity|]. exists A. split; [reflexivity|].
  split; [exact A2|]. split; [exact A3|]. split; [exact A1|]. intros i j Hi Hj. rewrite A4 by assumption. apply Hent; auto. apply Hdense; lia.
Qed.

(** the arrays of the scalar conversion, used by the fallback *)
Section Csr.
  Context {F : Type} {O : SOps F}.
  Lemma csr_arrays dbg (c : coo F) M n gp gi gv gd : coo_ok c -> convertToCSR gp gi gv gd c = Ok M -> (forall x, x ∈ entries c -> colind x < n) ->
    ok (MatCreateMPIAIJWithArrays dbg (nbrows M) n (browptr M) (bcolind M) (vals M))
      (fun A => pm_m A = nrows c /\ pm_n A = n /\ pm_bs A = 1 /\ forall i j, i < nrows c -> coo_entry (entries c) i j (pm_val A i j)).
  Proof.
    intros Hc E Hcol. destruct (C04_csr F c gp gi gv gd Hc) as (M' & E' & Hn & Lp & H0 & Hmono & Hlast & _ & _ & _ & Hb & Hv & Hh & _).
    assert (M' = M) as -> by congruence. clear E'.
    assert (forall i, i <= nbrows M -> browptr M !! i = Some (rp M i)) as Hrp.
    { intros i Hi. unfold rp. apply list_lookup_lookup_total_lt. lia. }
    assert (forall k i, i + k = nrows c -> rp M i <= length (entries c)) as Hle.
    { induction k as [|k IH]; intros i Hi; [replace i with (nrows c) by lia; lia|]. specialize (IH (i + 1) ltac:(lia)). specialize (Hmono i ltac:(lia)). lia. }
    assert (forall i j v, row_holds (browptr M) (bcolind M) (vals M) i j v <-> PropCoo.holds M i j v) as Heq.
    { intros i j v. unfold row_holds, PropCoo.holds, inrow. split.
      - intros (k & s & e & E1 & E2 & Hk & E3 & E4). exists k. pose proof (lookup_lt_Some _ _ _ E2). rewrite Hrp in E1 by lia. rewrite Hrp in E2 by lia.
        injection E1 as <-. injection E2 as <-. split; [split; [lia|exact Hk]|auto].
      - intros (k & [Hi Hk] & E3 & E4). exists k, (rp M i), (rp M (i + 1)). rewrite !Hrp by lia. auto. }
    eapply ok_mono; [apply MatCreate_arrays_ok|].
    - lia.
    - rewrite Hrp, H0 by lia. reflexivity.
    - intros r s e E1 E2 k Hk. pose proof (lookup_lt_Some _ _ _ E2). rewrite Hrp in E2 by lia. injection E2 as <-.
      specialize (Hle (nrows c - (r + 1)) (r + 1) ltac:(lia)). destruct (lookup_lt_is_Some_2 (entries c) k) as [x Hx]; [lia|].
      exists (colind x), (value x). rewrite Hb, Hv, !list_lookup_fmap, Hx. split; [reflexivity|]. split; [reflexivity|]. apply Hcol, elem_of_list_lookup. eauto.
    - intros A (A1 & A2 & A3 & _ & A5 & _). split; [lia|]. split; [exact A3|]. split; [exact A1|]. intros i j Hi.
      destruct (A5 i j ltac:(lia)) as [H|[H Hno]].
      + left. apply Hh, Heq, H.
      + right. split; [exact H|]. intros v Hin. apply (Hno v), Heq, Hh, Hin.
  Qed.
End Csr.

(** Every other block size, dividing the dimension or not: the function falls back to block size 1, and succeeds with the entries of the file. It
    creates two matrices, and returns the second; the first is lost. *)
Theorem C65_reader_fallback : forall (F : Type) (O : SOps F) dbg bs n body (file : mmfile F) gp gi gv gd,
  matrix_file n n body file -> bs <> 3 -> bs <> 4 -> bs <> 7 ->
  nok (readMatFromCOOFile_viaSR dbg 1 bs gp gi gv gd file) (fun '(ms, h) => length ms = 2 /\ exists A, ms !! h = Some A /\ is_file_matrix n n 1 body A).
Proof.
  intros F O dbg bs n body file gp gi gv gd Hf H3 H4 H7. unfold readMatFromCOOFile_viaSR. cbn [Nat.ltb Nat.leb].
  rewrite (proj2 (Nat.eqb_neq bs 3) H3), (proj2 (Nat.eqb_neq bs 4) H4), (proj2 (Nat.eqb_neq bs 7) H7). cbn [orb].
  eapply nok_bind; [apply (read_coo cmat0 n n body file Hf)|]. intros c (Hc & Hr & Hn & Hin & Hrows & Hent).
  apply nok_lift. unfold getSRMatrixFromCOO. cbn [Nat.eqb].
  destruct (C04_csr F c gp gi gv (fun i => Z.to_nat (gd i)) Hc) as (M & E & Hnb & _). rewrite E. cbn [bind].
  eapply ok_bind; [eapply (csr_arrays dbg c M (nbrows M) gp gi gv); eauto|].
  - intros x Hx. specialize (Hin x Hx). lia.
  - intros A (A1 & A2 & A3 & A4). apply ok_ret. split; [reflexivity|]. exists A. split; [reflexivity|].
    split; [congruence|]. split; [lia|]. split; [exact A3|]. intros i j Hi Hj. apply Hent; auto. apply A4. lia.
Qed.

(** If no place is listed twice, the entries of the matrix are determined by the file; so both readers give the same numbers. *)
Theorem C65_determined : forall (F : Type) (O : SOps F) nr nc bs bs' body (A B : pmat F),
  (forall k1 k2 t1 t2, body !! k1 = Some t1 -> body !! k2 = Some t2 -> t1.1 = t2.1 -> k1 = k2) ->
  is_file_matrix nr nc bs body A -> is_file_matrix nr nc bs' body B -> forall i j, i < nr -> j < nc -> pm_val A i j = pm_val B i j.
Proof.
  intros F O nr nc bs bs' body A B Hnd (_ & _ & _ & HA) (_ & _ & _ & HB) i j Hi Hj.
  destruct (HA i j Hi Hj) as [H|[H Hno]], (HB i j Hi Hj) as [H'|[H' Hno']].
  - apply elem_of_list_lookup in H as [k1 K1], H' as [k2 K2]. pose proof (Hnd _ _ _ _ K1 K2 eq_refl) as ->. congruence.
  - destruct (Hno' _ H).
  - destruct (Hno _ H').
  - congruence.
Qed.

(** ** Failures *)
(** More than one process: refused. *)
Theorem C65_ranks : forall (F : Type) (O : SOps F) dbg size bs (file : mmfile F) gp gi gv gd, 1 < size ->
  exists msg, forall o, readMatFromCOOFile_viaSR dbg size bs gp gi gv gd file o <-> o = Throw msg.
Proof.
  intros F O dbg size bs file gp gi gv gd H. unfold readMatFromCOOFile_viaSR. rewrite (proj2 (Nat.ltb_lt 1 size) H). eexists. intros o. unfold nlift. reflexivity.
Qed.
(** A block size which does not divide the number of rows or columns: the row-by-row reader returns an error code. *)
Theorem C65_indivisible : forall (F : Type) (O : SOps F) dbg bs nr nc body (file : mmfile F),
  matrix_file nr nc body file -> nr mod bs <> 0 \/ nc mod bs <> 0 ->
  forall o, readMatFromCOOFile dbg bs file o <-> o = petsc_error.
Proof.
  intros F O dbg bs nr nc body file Hf H. unfold readMatFromCOOFile.
  assert (forall c : coo F, nrows c = nr -> ncols c = nc -> MatSetUp (MatCreate bs) (nrows c) (ncols c) = petsc_error (A := pmat F)) as E.
  { intros c -> ->. unfold MatSetUp. cbn [pm_bs MatCreate]. destruct (Nat.eqb_spec (nr mod bs) 0), (Nat.eqb_spec (nc mod bs) 0); simpl; try reflexivity. lia. }
  destruct (read_coo cmat0 nr nc body file Hf) as [[o Ho] Hok]. intros o'. split.
  - intros (x & Hx & Hm). specialize (Hok x Hx). destruct x as [c| | |]; try contradiction. destruct Hok as (_ & Hr & Hn & _).
    unfold nlift in Hm. rewrite (E c Hr Hn) in Hm. exact Hm.
  - intros ->. specialize (Hok o Ho). destruct o as [c| | |]; try contradiction. destruct Hok as (_ & Hr & Hn & _).
    exists (Ok c). split; [exact Ho|]. unfold nlift. rewrite (E c Hr Hn). reflexivity.
Qed.
(** A file with more rows than columns, whatever block size other than 3, 4, 7: the other reader reports success, but the matrix returned has as many columns
    as rows. *)
Theorem C65_tall_refuted : forall (F : Type) (O : SOps F) dbg bs nr nc body (file : mmfile F) gp gi gv gd,
  matrix_file nr nc body file -> nc < nr -> bs <> 3 -> bs <> 4 -> bs <> 7 ->
  nok (readMatFromCOOFile_viaSR dbg 1 bs gp gi gv gd file) (fun '(ms, h) => exists A, ms !! h = Some A /\ pm_m A = nr /\ pm_n A = nr /\ pm_n A <> nc).
Proof.
  intros F O dbg bs nr nc body file gp gi gv gd Hf Hlt H3 H4 H7. unfold readMatFromCOOFile_viaSR. cbn [Nat.ltb Nat.leb].
  rewrite (proj2 (Nat.eqb_neq bs 3) H3), (proj2 (Nat.eqb_neq bs 4) H4), (proj2 (Nat.eqb_neq bs 7) H7). cbn [orb].
  eapply nok_bind; [apply (read_coo cmat0 nr nc body file Hf)|]. intros c (Hc & Hr & Hn & Hin & Hrows & Hent).
  apply nok_lift. unfold getSRMatrixFromCOO. cbn [Nat.eqb].
  destruct (C04_csr F c gp gi gv (fun i => Z.to_nat (gd i)) Hc) as (M & E & Hnb & _). rewrite E. cbn [bind].
  eapply ok_bind; [eapply (csr_arrays dbg c M (nbrows M) gp gi gv); eauto|].
  - intros x Hx. specialize (Hin x Hx). lia.
  - intros A (A1 & A2 & A3 & A4). apply ok_ret. exists A. split; [reflexivity|]. lia.
Qed.

Section Lost.
  Context {F : Type} {O : SOps F}.
  Definition with_cols (n : nat) (c : coo F) : coo F := Coo (entries c) (coo_nnz c) (nrows c) n (rowptr c).
  Lemma nbind_assoc {A B C} (m : nd A) (k : A -> nd B) (h : B -> nd C) o : nbind (nbind m k) h o <-> nbind m (fun a => nbind (k a) h) o.
  Proof.
    split.
    - intros (x & (y & Hy & Hx) & Hh). exists y. split; [exact Hy|]. destruct y as [a| | |]; [exists x; auto| | |]; subst x; exact Hh.
    - intros (y & Hy & H). destruct y as [a| | |].
      + destruct H as (x & Hx & Hh). exists x. split; [exists (Ok a); auto|exact Hh].
      + exists UB. split; [exists UB; auto|exact H].
      + exists (Throw msg). split; [exists (Throw msg); auto|exact H].
      + exists Fuel. split; [exists Fuel; auto|exact H].
  Qed.
  Lemma nbind_iff {A B} (m : nd A) (k k' : A -> nd B) o : (forall a, k a o <-> k' a o) -> nbind m k o <-> nbind m k' o.
  Proof. intros H. split; intros (x & Hx & Hk); exists x; (split; [exact Hx|]); destruct x; auto; apply H, Hk. Qed.
  Lemma nbind_iff_l {A B} (m m' : nd A) (k : A -> nd B) o : (forall o, m o <-> m' o) -> nbind m k o <-> nbind m' k o.
  Proof. intros H. split; intros (x & Hx & Hk); exists x; (split; [apply H, Hx|exact Hk]). Qed.
  Lemma row_pointers_cols (p : list nat) z nr nc nc' (es : list (entry F)) o :
    row_pointers p z nr nc es o <-> nbind (row_pointers p z nr nc' es) (fun c => nret (with_cols nc c)) o.
  Proof.
    unfold row_pointers.
    repeat (rewrite nbind_assoc; apply nbind_iff; intros ?; try match goal with |- context [let '(_, _) := ?x in _] => destruct x as [[? ?] ?] end).
    unfold nret. rewrite ret_bind. reflexivity.
  Qed.
End Lost.
(** Errors in the columns: a debugging build of PETSc, a file which is correct except that its size line says [nc] columns instead of [nc'], and that has an entry
    behind the last column, but not in the last row. The function reports success, with a matrix that cannot hold all entries: the error code of a row is overwritten
    by that of the next one. *)
Theorem C65_error_lost_refuted : forall (F : Type) (O : SOps F) bs nr nc nc' body h extra,
  matrix_file nr nc' body (MMFile h (nr :: nc' :: length body :: extra) body : mmfile F) -> 0 < bs -> nr mod bs = 0 -> nc mod bs = 0 ->
  (exists t, t ∈ body /\ nc < t.1.2) -> (forall t, t ∈ body -> t.1.1 = nr -> t.1.2 <= nc) ->
  nok (readMatFromCOOFile true bs (MMFile h (nr :: nc :: length body :: extra) body)) (fun '(ms, h) =>
    exists A, ms !! h = Some A /\ pm_m A = nr /\ pm_n A = nc).
Proof.
  intros F O bs nr nc nc' body h extra Hf Hbs Hnr Hnc _ Hlast. unfold readMatFromCOOFile.
  destruct (mf_header _ _ _ _ Hf) as (d & Hd & H1 & H2 & H3). cbn [mm_header] in Hd. pose proof (mf_pos _ _ _ _ Hf) as Hpos.
  assert (nok (readMatrixMarket cmat0 (MMFile h (nr :: nc :: length body :: extra) body)) (fun c => exists c', c = with_cols nc c' /\ coo_ok c' /\ nrows c' = nr /\
    (forall i, i < nr -> exists x, x ∈ entries c' /\ rowind x = i) /\ (forall x, x ∈ entries c' -> rowind x = nr - 1 -> colind x < nc))) as Hread.
  { assert (forall o, readMatrixMarket cmat0 (MMFile h (nr :: nc :: length body :: extra) body) o <->
      nbind (readMatrixMarket cmat0 (MMFile h (nr :: nc' :: length body :: extra) body)) (fun c => nret (with_cols nc c)) o) as Hiff.
    { intros o. rewrite (read_start cmat0 h nr nc extra body d o Hd H1 H2 H3).
      rewrite (nbind_iff_l _ _ _ _ (fun o => read_start cmat0 h nr nc' extra body d o Hd H1 H2 H3)).
      rewrite nbind_assoc. apply nbind_iff. intros es. apply row_pointers_cols. }
    enough (nok (nbind (readMatrixMarket cmat0 (MMFile h (nr :: nc' :: length body :: extra) body)) (fun c => nret (with_cols nc c)))
      (fun c => exists c', c = with_cols nc c' /\ coo_ok c' /\ nrows c' = nr /\
    (forall i, i < nr -> exists x, x ∈ entries c' /\ rowind x = i) /\ (forall x, x ∈ entries c' -> rowind x = nr - 1 -> colind x < nc))) as [[o Ho] Hok].
    { split; [exists o; apply Hiff, Ho|]. intros o' Ho'. apply Hok, Hiff, Ho'. }
    eapply nok_bind; [eapply (C06_read F cmat0 h d nr nc' extra body); auto|].
    - intros t Ht. apply (mf_range _ _ _ _ Hf t Ht).
    - intros i Hi. apply (mf_rows _ _ _ _ Hf i Hi).
    - intros c' (Hc & Hr & Hn & Hp & _). apply nok_ret. exists c'. split; [reflexivity|]. split; [exact Hc|]. split; [exact Hr|].
      assert (forall e, e ∈ entries c' <-> exists t, t ∈ body /\ e = zero_based t) as Hel.
      { intros e. rewrite Hp, elem_of_list_fmap. split; intros (t & A1 & A2); exists t; auto. }
      split.
      + intros i Hi. destruct (mf_rows _ _ _ _ Hf (i + 1) ltac:(lia)) as (t & Ht & Hti). exists (zero_based t). split; [apply Hel; eauto|]. simpl. lia.
      + intros x Hx Hxr. apply Hel in Hx as (t & Ht & ->). pose proof (mf_range _ _ _ _ Hf t Ht). simpl in *. specialize (Hlast t Ht ltac:(lia)). lia. }
  eapply nok_bind; [exact Hread|]. intros c (c' & -> & Hc & Hr & Hrows & Hlst). apply nok_lift. cbn [nrows ncols with_cols].
  rewrite nbs_setup by (simpl; rewrite ?Hr; auto; lia). cbn [bind MatCreate MatSetRowOriented pm_bs pm_m pm_n pm_val pm_roworiented]. rewrite Hr.
  eapply ok_bind with (P := fun '(A, e) => e = false /\ pm_m A = nr /\ pm_n A = nc).
  - eapply ok_for_post with (I := fun r '(A, e) => pm_m A = nr /\ pm_n A = nc /\ (r = nr -> e = false)); [lia|auto| |].
    + intros i [A e] Hi (A1 & A2 & _). change (insert_row true (with_cols nc c') i (A, e)) with (insert_row true c' i (A, e)).
      destruct (insert_row_call true c' i A e Hc ltac:(lia) (Hrows i ltac:(lia))) as (k & ci & vs & -> & L1 & L2 & Hin & Hall).
      destruct (decide (i + 1 = nr)) as [El|].
      * eapply ok_mono; [apply MatSetValues_ok|].
        -- lia.
        -- intros l Hl. destruct (lookup_lt_is_Some_2 ci l) as [j Hj]; [lia|]. destruct (lookup_lt_is_Some_2 vs l) as [v Hv]; [lia|].
           exists j, v. split; [exact Hj|]. split; [exact Hv|]. rewrite A2. apply (Hlst _ (Hin l j v Hj Hv)). simpl. lia.
        -- intros [B e'] (-> & (S1 & S2 & S3 & S4) & _). split; [congruence|]. split; [congruence|]. auto.
      * eapply ok_mono; [apply MatSetValues_debug; lia|]. intros [B e'] (S1 & S2 & S3 & S4). split; [congruence|]. split; [congruence|]. lia.
    + intros [A e] (A1 & A2 & A3). auto.
  - intros [A e] (-> & A1 & A2). cbn [CHKERRQ bind]. apply ok_ret. exists A. auto.
Qed.

(** A block size of 3, 4 or 7 which does not divide the dimension: undefined behaviour is the only outcome (the assertions of convertToBSR are not compiled
    in), where the other reader returns an error code. *)
Section Indivisible.
  Context {F : Type} {O : SOps F}.
  Definition orUB {A} (m : res A) (P : A -> Prop) : Prop := m = UB \/ ok m P.
  Lemma orUB_bind {A B} (m : res A) (k : A -> res B) P Q : orUB m P -> (forall a, P a -> orUB (k a) Q) -> orUB (bind m k) Q.
  Proof. intros [-> | H] Hk; [left; reflexivity|]. destruct m; try contradiction. apply Hk, H. Qed.
  Lemma orUB_get {A} (l : list A) i : orUB (get l i) (fun _ => True).
  Proof. unfold get. destruct (l !! i); [right; exact Logic.I|left; reflexivity]. Qed.
  Lemma orUB_set {A} (l : list A) i a : orUB (set l i a) (fun l' => length l' = length l).
  Proof. unfold set. destruct (decide (i < length l)); [right; apply insert_length|left; reflexivity]. Qed.
  Lemma orUB_ret {A} (a : A) (P : A -> Prop) : P a -> orUB (Ok a) P.
  Proof. right. exact H. Qed.
  Lemma orUB_for {St} lo hi (body : nat -> St -> res St) (I : St -> Prop) s : I s -> (forall i s, I s -> orUB (body i s) I) -> orUB (for_ lo hi body s) I.
  Proof.
    intros H0 Hb. unfold for_. generalize (hi - lo). intros n. revert lo s H0. induction n as [|n IH]; intros i s H0; [right; exact H0|].
    cbn [for_n]. eapply orUB_bind; [apply Hb, H0|]. intros s' Hs. apply IH, Hs.
  Qed.
  Lemma for_UB {St} lo mid hi (body : nat -> St -> res St) (I : St -> Prop) s : lo <= mid < hi -> I s -> (forall i s, I s -> orUB (body i s) I) ->
    (forall s, I s -> body mid s = UB) -> for_ lo hi body s = UB.
  Proof.
    intros Hm H0 Hb Hu. unfold for_. assert (exists n, hi - lo = n /\ lo + n = hi) as (n & -> & Hn) by (exists (hi - lo); lia).
    revert lo s Hm H0 Hn. induction n as [|n IH]; intros i s Hm H0 Hn; [lia|]. cbn [for_n].
    destruct (decide (i = mid)) as [->|]; [rewrite Hu by exact H0; reflexivity|].
    destruct (Hb i s H0) as [-> | Hok]; [reflexivity|]. destruct (body i s) as [s'| | |]; try contradiction. cbn [bind]. apply IH; [lia|exact Hok|lia].
  Qed.
  Lemma orUB_find x k : forall i l, orUB (find_from x k i l) (fun _ => True).
  Proof.
    induction k as [|k IH]; intros i l; [right; exact Logic.I|]. cbn [find_from]. eapply orUB_bind; [apply orUB_get|]. intros y _.
    destruct (y =? x); [right; exact Logic.I|apply IH].
  Qed.
  Lemma convertToBSR_UB (c : coo F) so bs gp gi gv gd : coo_ok c -> 0 < bs -> nrows c mod bs <> 0 ->
    (forall i, i < nrows c -> exists x, x ∈ entries c /\ rowind x = i) -> convertToBSR so bs gp gi gv gd c = UB.
  Proof.
    intros Hc Hbs Hmod Hrows. unfold convertToBSR. set (N := nrows c / bs).
    pose proof (Nat.div_mod (nrows c) bs ltac:(lia)) as Hdm. fold N in Hdm. pose proof (Nat.mod_upper_bound (nrows c) bs ltac:(lia)).
    match goal with |- bind ?m _ = _ => assert (ok m (fun _ => True)) as H1 end.
    { eapply ok_for_post with (I := fun _ (d : list Z) => length d = N); [lia|apply alloc_length| |auto]. intros i d Hi Hd. apply ok_set; [lia|]. rewrite insert_length. exact Hd. }
    apply ok_inv in H1 as (d & -> & _). cbn [bind].
    match goal with |- bind ?m _ = _ => assert (ok m (fun _ => True)) as H1 end.
    { eapply ok_for_post with (I := fun _ (d : list nat) => length d = N + 1); [lia|apply alloc_length| |auto]. intros i p Hi Hd. apply ok_set; [lia|]. rewrite insert_length. exact Hd. }
    apply ok_inv in H1 as (p & -> & _). cbn [bind].
    match goal with |- bind ?m _ = _ => assert (m = UB) as -> end; [|reflexivity].
    eapply for_UB with (mid := N * bs) (I := fun '(_, _, _, tally) => length tally = N); [lia|apply replicate_length| |].
    - intros i [[[bp di] bc] ta] Ht. eapply orUB_bind; [apply orUB_get|]. intros lo _. eapply orUB_bind; [apply orUB_get|]. intros hi _.
      apply orUB_for; [exact Ht|]. clear. intros j [[[bp di] bc] ta] Ht. eapply orUB_bind; [apply orUB_get|]. intros e _.
      eapply orUB_bind; [apply orUB_get|]. intros t _.
      eapply orUB_bind with (P := fun '(_, ta) => length ta = N).
      { destruct (negb t); [|right; exact Ht]. eapply orUB_bind; [apply orUB_set|]. intros bp' _. eapply orUB_bind; [apply orUB_set|]. intros ta' Hta.
        right. simpl. congruence. }
      intros [bp' ta'] Ht'. eapply orUB_bind; [apply orUB_get|]. intros st _. eapply orUB_bind; [apply orUB_find|]. intros [x|] _; [right; exact Ht'|].
      eapply orUB_bind with (P := fun _ => True); [|intros di' _; right; exact Ht'].
      destruct (colind e / bs =? i / bs); [|right; exact Logic.I]. destruct (orUB_set di (i / bs) (Z.of_nat (length bc))) as [-> | H]; [left; reflexivity|right].
      eapply ok_mono; [exact H|auto].
    - intros [[[bp di] bc] ta] Ht.
      assert (N * bs < nrows c) as Hlt by lia. destruct (Hrows (N * bs) Hlt) as (x & Hx & Hxr). apply elem_of_list_lookup in Hx as [k Hk].
      destruct (lookup_lt_is_Some_2 (rowptr c) (N * bs)) as [a Ha]; [rewrite (co_len c Hc); lia|].
      destruct (lookup_lt_is_Some_2 (rowptr c) (N * bs + 1)) as [z Hz]; [rewrite (co_len c Hc); lia|].
      pose proof (proj1 (co_delim c Hc _ a z k x Ha Hz Hk) Hxr) as Hkk.
      rewrite (proj2 (get_Some _ _ _) Ha). cbn [bind]. rewrite (proj2 (get_Some _ _ _) Hz). cbn [bind].
      unfold for_. replace (z - a) with (S (z - a - 1)) by lia. cbn [for_n].
      pose proof (lookup_lt_Some _ _ _ Hk). destruct (lookup_lt_is_Some_2 (entries c) a) as [y Hy]; [lia|].
      rewrite (proj2 (get_Some _ _ _) Hy). cbn [bind]. rewrite Nat.div_mul by lia. unfold get at 1.
      rewrite (lookup_ge_None_2 ta N) by lia. reflexivity.
  Qed.
End Indivisible.
Theorem C65_indivisible_blocks_refuted : forall (F : Type) (O : SOps F) dbg bs nr nc body (file : mmfile F) gp gi gv gd,
  matrix_file nr nc body file -> bs = 3 \/ bs = 4 \/ bs = 7 -> nr mod bs <> 0 ->
  only_UB (readMatFromCOOFile_viaSR dbg 1 bs gp gi gv gd file).
Proof.
  intros F O dbg bs nr nc body file gp gi gv gd Hf Hbs Hdiv. unfold readMatFromCOOFile_viaSR. cbn [Nat.ltb Nat.leb].
  assert ((bs =? 3) || (bs =? 4) || (bs =? 7) = true) as -> by (destruct Hbs as [-> | [-> | ->]]; reflexivity).
  eapply only_UB_bind; [apply (read_coo cmat0 nr nc body file Hf)|]. intros c (Hc & Hr & Hn & Hin & Hrows & Hent).
  destruct (C05_by_name F O c bs "colmajor" gp gi gv gd ltac:(lia)) as (_ & E & _). rewrite (E eq_refl).
  rewrite (convertToBSR_UB c ColMajor bs gp gi gv gd Hc ltac:(lia)).
  - split; [exists UB; reflexivity|]. intros o ->. reflexivity.
  - congruence.
  - intros i Hi. apply Hrows. lia.
Qed.

(** the file of [C06_case], 3 by 3, with block sizes 1 and 3; block size 4 does not divide *)
Example C65_case : matrix_file 3 3 exF (MMFile "%%MatrixMarket matrix coordinate real general" [3; 3; 5] exF) /\ (3 mod 3 = 0)%nat /\ (3 mod 4 <> 0)%nat /\
  (forall k1 k2 t1 t2, exF !! k1 = Some t1 -> exF !! k2 = Some t2 -> t1.1 = t2.1 -> k1 = k2).
Proof.
  destruct C06_case as (H1 & H2 & H3 & H4). split; [|split; [reflexivity|split; [discriminate|exact H4]]]. constructor.
  - eexists. split; [exact H1|]. split; [reflexivity|]. split; [discriminate|reflexivity].
  - exists []. reflexivity.
  - reflexivity.
  - lia.
  - exact H3.
  - exact H2.
Qed.
Definition exTall : list (nat * nat * Qc) := [(1, 1, q 4); (2, 1, q 5); (1, 3, q 7)].
(** a tall file, and one with a wrong number of columns: 2 by 3, announced as 2 by 2 *)
Example C65_tall_case : matrix_file 2 1 [(1, 1, q 4); (2, 1, q 5)] (MMFile "%%MatrixMarket matrix coordinate real general" [2; 1; 2] [(1, 1, q 4); (2, 1, q 5)]).
Proof.
  constructor.
  - eexists. split; [reflexivity|]. split; [reflexivity|]. split; [discriminate|reflexivity].
  - exists []. reflexivity.
  - reflexivity.
  - lia.
  - intros i Hi. destruct (decide (i = 1)) as [->|]; [exists (1, 1, q 4)|exists (2, 1, q 5)]; (split; [rewrite !elem_of_cons; auto|simpl; lia]).
  - intros t Ht. rewrite !elem_of_cons, elem_of_nil in Ht. destruct Ht as [-> | [-> | []]]; simpl; lia.
Qed.
Example C65_error_lost_case : matrix_file 2 3 exTall (MMFile "%%MatrixMarket matrix coordinate real general" [2; 3; 3] exTall) /\
  (exists t, t ∈ exTall /\ 2 < t.1.2) /\ (forall t, t ∈ exTall -> t.1.1 = 2 -> t.1.2 <= 2).
Proof.
  split; [constructor|split].
  - eexists. split; [reflexivity|]. split; [reflexivity|]. split; [discriminate|reflexivity].
  - exists []. reflexivity.
  - reflexivity.
  - lia.
  - intros i Hi. destruct (decide (i = 1)) as [->|]; [exists (1, 1, q 4)|exists (2, 1, q 5)]; (split; [unfold exTall; rewrite !elem_of_cons; auto|simpl; lia]).
  - intros t Ht. unfold exTall in Ht. rewrite !elem_of_cons, elem_of_nil in Ht. destruct Ht as [-> | [-> | [-> | []]]]; simpl; lia.
  - exists (1, 3, q 7). split; [unfold exTall; rewrite !elem_of_cons; auto|simpl; lia].
  - intros t Ht. unfold exTall in Ht. rewrite !elem_of_cons, elem_of_nil in Ht. destruct Ht as [-> | [-> | [-> | []]]]; simpl; lia.
Qed.

Print Assumptions C65_reader.
Print Assumptions C65_reader_blocks.
Print Assumptions C65_reader_fallback.
Print Assumptions C65_determined.
Print Assumptions C65_ranks.
Print Assumptions C65_indivisible.
Print Assumptions C65_tall_refuted.
Print Assumptions C65_error_lost_refuted.
Print Assumptions C65_indivisible_blocks_refuted.
