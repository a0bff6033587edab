(** * PropBlockOrder: property C112 (the order of the blocks that the conversion makes) *)
From Coq Require Import ZArith QArith.Qcanon.
From Verif Require Import Base Alg SRMatrix Async Nd Coo CooSpec CooFacts CooBsr Kernels IluApply TriSpec IluApplyFacts AsyncSweeps Sgs Inst PropCoo.
Open Scope nat_scope.

(** ** Specification *)
Section Spec.
  Context {F : Type}.
  (** the entry belongs to this block *)
  Definition in_block (bs i j : nat) (e : entry F) : Prop := rowind e / bs = i /\ colind e / bs = j.
  (** wherever a block has an entry, each block to its left in the same block row has one in the same row or above *)
  Definition left_starts_first (bs : nat) (c : coo F) : Prop :=
    forall e2 j1, e2 ∈ entries c -> j1 < colind e2 / bs -> (exists e, e ∈ entries c /\ in_block bs (rowind e2 / bs) j1 e) ->
    exists e1, e1 ∈ entries c /\ in_block bs (rowind e2 / bs) j1 e1 /\ rowind e1 <= rowind e2.
  (** the first row of each block has an entry *)
  Definition first_rows (bs : nat) (c : coo F) : Prop :=
    forall e, e ∈ entries c -> exists e', e' ∈ entries c /\ colind e' / bs = colind e / bs /\ rowind e' = rowind e / bs * bs.
End Spec.

(** ** C112 *)
(** The blocks of a block row are in the order in which the list of entries meets them first. *)
Theorem C112_order : forall (F : Type) (O : SOps F) (c : coo F) (so : storage) (bs N : nat) gp gi gv gd,
  coo_ok c -> 0 < bs -> nrows c = N * bs -> ncols c = N * bs -> (entries c = [] \/ exists e, e ∈ entries c /\ rowind e < bs) ->
  exists M d, convertToBSR so bs gp gi gv gd c = Ok (M, d) /\
    forall i k1 k2, i < N -> rp M i <= k1 -> k1 < k2 -> k2 < rp M (i + 1) ->
    exists m1 e1, entries c !! m1 = Some e1 /\ in_block bs i (col M k1) e1 /\
      forall m2 e2, entries c !! m2 = Some e2 -> in_block bs i (col M k2) e2 -> m1 < m2.
Proof.
  intros F O c so bs N gp gi gv gd Hc Hbs Hnr Hnc Hfirst.
  assert (entries c = [] \/ exists k e, entries c !! k = Some e /\ rowind e < bs) as Hfirst'.
  { destruct Hfirst as [|(e & Hin & Hr)]; [auto|]. right. apply elem_of_list_lookup in Hin as [k Hk]. eauto. }
  destruct (proj1 (ok_inv _ _) (convertToBSR_first c so bs N Hc Hbs Hnr Hnc gp gi gv gd Hfirst')) as
    ([M d] & E & bl & [Hnd Hfs] & Hl & Hn & [Lp Hp] & Hb & _).
  exists M, d. split; [exact E|].
  assert (forall i, i <= N -> sep bl i (rp M i)) as Hsep.
  { intros i Hi. destruct (Hp i Hi) as (a & Ea & Hs). unfold rp. rewrite (list_lookup_total_correct _ _ _ Ea). exact Hs. }
  assert (forall i k, i < N -> rp M i <= k < rp M (i + 1) -> bl !! k = Some (i, col M k)) as Hout.
  { intros i k Hi Hk. destruct (Hsep i ltac:(lia)) as [A1 H1], (Hsep (i + 1) ltac:(lia)) as [A2 H2].
    destruct (lookup_lt_is_Some_2 bl k) as [[x y] Exy]; [lia|]. specialize (H1 k x y Exy). specialize (H2 k x y Exy).
    assert (col M k = y) as -> by (unfold col; apply list_lookup_total_correct; rewrite Hb, list_lookup_fmap, Exy; reflexivity).
    assert (x = i) as -> by lia. exact Exy. }
  intros i k1 k2 Hi H1 H12 H2. destruct (Hfs k1 k2 i (col M k1) i (col M k2) H12 (Hout i k1 Hi ltac:(lia)) (Hout i k2 Hi ltac:(lia))) as (m1 & e1 & He1 & -> & E1 & Hm).
  exists m1, e1. split; [exact He1|]. split; [split; auto|]. intros m2 e2 He2 [E2 E3]. apply (Hm m2 e2 He2); auto.
Qed.
(** If the columns of each row are in increasing order, the blocks of each block row are in increasing order if and only if no block starts
    in a row above one to its left. *)
Theorem C112_sorted : forall (F : Type) (O : SOps F) (c : coo F) (so : storage) (bs N : nat) gp gi gv gd,
  coo_ok c -> 0 < bs -> nrows c = N * bs -> ncols c = N * bs -> (entries c = [] \/ exists e, e ∈ entries c /\ rowind e < bs) -> coo_sorted c ->
  exists M d, convertToBSR so bs gp gi gv gd c = Ok (M, d) /\ (wf_sorted M <-> left_starts_first bs c).
Proof.
  intros F O c so bs N gp gi gv gd Hc Hbs Hnr Hnc Hfirst Hsrt.
  destruct (C112_order F O c so bs N gp gi gv gd Hc Hbs Hnr Hnc Hfirst) as (M & d & E & Hord).
  destruct (C05_block_rows F O c so bs N gp gi gv gd Hc Hbs Hnr Hnc Hfirst) as (M' & d' & E' & Hn & Hw & _ & Hnd & _ & _ & _ & _ & Hpos & _).
  rewrite E in E'. injection E' as <- <-. exists M, d. split; [exact E|].
  assert (forall e, e ∈ entries c -> rowind e / bs < N /\ colind e / bs < N) as Hlt.
  { intros e He. apply elem_of_list_lookup in He as [k He]. destruct (co_row c Hc _ _ He). split; apply Nat.div_lt_upper_bound; lia. }
  assert (forall i j, i < N -> j < N -> (exists e, e ∈ entries c /\ in_block bs i j e) -> exists k, rp M i <= k < rp M (i + 1) /\ col M k = j) as Hstored.
  { intros i j Hi Hj He. apply Hpos in He; [|assumption..]. destruct (pos M i j) as [k|] eqn:Ek; [|congruence]. apply pos_Some in Ek as [[_ Hk] Hck]; [|lia]. eauto. }
  assert (forall i k, i < N -> rp M i <= k < rp M (i + 1) -> inrow M i k) as Hrow by (intros i k Hi Hk; split; [lia|exact Hk]).
  split.
  - intros Hs e2 j1 He2 Hj He. destruct (Hlt e2 He2) as [Hi Hj2].
    destruct (Hstored (rowind e2 / bs) j1 Hi ltac:(lia) He) as (k1 & Hk1 & C1).
    destruct (Hstored (rowind e2 / bs) (colind e2 / bs) Hi Hj2 ltac:(exists e2; split; [exact He2|split; reflexivity])) as (k2 & Hk2 & C2).
    assert (k1 < k2) as H12.
    { destruct (Nat.lt_trichotomy k1 k2) as [|[Eq|Hgt]]; [assumption|subst k2; lia|]. pose proof (Hs (rowind e2 / bs) k2 k1 ltac:(lia) ltac:(lia) Hgt ltac:(lia)). lia. }
    destruct (Hord (rowind e2 / bs) k1 k2 Hi ltac:(lia) H12 ltac:(lia)) as (m1 & e1 & He1 & Hb1 & Hm). rewrite C1 in Hb1. rewrite C2 in Hm.
    apply elem_of_list_lookup in He2 as [m2 He2]. exists e1. split; [apply elem_of_list_lookup_2 in He1; exact He1|]. split; [exact Hb1|].
    apply (rows_sorted c bs N Hc Hbs Hnr Hnc m1 m2); auto. apply (Hm m2 e2 He2). split; reflexivity.
  - intros Hleft i k1 k2 Hi H1 H12 H2. rewrite Hn in Hi.
    destruct (Nat.lt_trichotomy (col M k1) (col M k2)) as [|[Eq|Hgt]]; [assumption| |exfalso].
    { assert (k1 = k2) by (apply (Hnd i k1 k2); [lia|apply Hrow; lia|apply Hrow; lia|exact Eq]). lia. }
    destruct (Hord i k1 k2 Hi H1 H12 H2) as (m1 & e1 & He1 & [R1 C1] & Hm).
    assert (exists e, e ∈ entries c /\ in_block bs i (col M k2) e) as Hex.
    { apply Hpos; [exact Hi| |].
      - rewrite <- Hn. apply (wf_col M Hw). eapply inrow_lt; [exact Hw|]. apply (Hrow i k2 Hi). lia.
      - rewrite (pos_of M i k2 Hnd (Hrow i k2 Hi ltac:(lia))). discriminate. }
    destruct (Hleft e1 (col M k2) ltac:(apply elem_of_list_lookup_2 in He1; exact He1) ltac:(lia) ltac:(rewrite R1; exact Hex)) as (e2 & He2 & Hb2 & Hle).
    rewrite R1 in Hb2. apply elem_of_list_lookup in He2 as [m2 He2]. pose proof (Hm m2 e2 He2 Hb2) as Hm12.
    pose proof (rows_sorted c bs N Hc Hbs Hnr Hnc m1 m2 e1 e2 Hm12 He1 He2). pose proof (Hsrt m1 m2 e1 e2 Hm12 He1 He2 ltac:(lia)) as Hcol.
    destruct Hb2 as [_ C2]. pose proof (Nat.div_le_mono (colind e1) (colind e2) bs ltac:(lia) ltac:(lia)). lia.
Qed.
(** So full blocks, and blocks with an entry in the first row, are in increasing order. *)
Theorem C112_first_rows : forall (F : Type) (O : SOps F) (c : coo F) (so : storage) (bs N : nat) gp gi gv gd,
  coo_ok c -> 0 < bs -> nrows c = N * bs -> ncols c = N * bs -> (entries c = [] \/ exists e, e ∈ entries c /\ rowind e < bs) -> coo_sorted c ->
  first_rows bs c -> exists M d, convertToBSR so bs gp gi gv gd c = Ok (M, d) /\ wf_sorted M.
Proof.
  intros F O c so bs N gp gi gv gd Hc Hbs Hnr Hnc Hfirst Hsrt Hrows.
  destruct (C112_sorted F O c so bs N gp gi gv gd Hc Hbs Hnr Hnc Hfirst Hsrt) as (M & d & E & Hiff). exists M, d. split; [exact E|]. apply Hiff.
  intros e2 j1 He2 _ (e & He & R & C). destruct (Hrows e He) as (e1 & He1 & C1 & R1). exists e1. split; [exact He1|]. rewrite R in R1. split.
  - split; [rewrite R1; apply Nat.div_mul; lia|congruence].
  - rewrite R1. rewrite Nat.mul_comm. apply Nat.mul_div_le. lia.
Qed.

(** ** The comment in the code is wrong *)
(** [first_rows] cannot be left out: this matrix has two block rows of four rows, a full diagonal, and the entry [v] in row 5, column 0. *)
Definition exUnsorted {F} {O : SOps F} (v : F) : coo F :=
  Coo [Entry 0 0 s1; Entry 1 1 s1; Entry 2 2 s1; Entry 3 3 s1; Entry 4 4 s1; Entry 5 0 v; Entry 5 5 s1; Entry 6 6 s1; Entry 7 7 s1] 9 8 8 [0; 1; 2; 3; 4; 5; 7; 8; 9].
Lemma exUnsorted_ok {F} {O : SOps F} (v : F) : coo_ok (exUnsorted v) /\ coo_sorted (exUnsorted v) /\ coo_nodup (exUnsorted v).
Proof.
  split; [apply coob_ok; reflexivity|]. split.
  - intros k1 k2 e1 e2 H12 H1 H2. lk k1 H1; lk k2 H2; simpl in *; intros; try discriminate; lia.
  - intros k1 k2 e1 e2 H1 H2. lk k1 H1; lk k2 H2; simpl in *; intros; try discriminate; lia.
Qed.
(** Rows with sorted columns, a full diagonal: the block left of the diagonal comes after the diagonal block. *)
Theorem C112_comment_refuted : forall (F : Type) (O : SOps F) so gp gi gv gd (v : F),
  exists c, coo_ok c /\ coo_sorted c /\ coo_nodup c /\ nrows c = 2 * 4 /\ ncols c = 2 * 4 /\ (forall i, i < 8 -> Entry i i s1 ∈ entries c) /\ Entry 5 0 v ∈ entries c /\
    exists M d, convertToBSR so 4 gp gi gv gd c = Ok (M, d) /\ browptr M = [0; 1; 3] /\ bcolind M = [0; 1; 0] /\ diagind M = [0; 1] /\ ~ wf_sorted M.
Proof.
  intros F O so gp gi gv gd v. exists (exUnsorted v). destruct (exUnsorted_ok v) as (H1 & H2 & H3). split; [exact H1|]. split; [exact H2|]. split; [exact H3|].
  split; [reflexivity|]. split; [reflexivity|]. split.
  { intros i Hi. do 8 (destruct i as [|i]; [cbn; repeat (first [apply elem_of_list_here|apply elem_of_list_further])|]). lia. }
  split; [cbn; repeat (first [apply elem_of_list_here|apply elem_of_list_further])|].
  destruct so; (eexists _, _; split; [reflexivity|]; split; [reflexivity|]; split; [reflexivity|]; split; [reflexivity|];
    intros Hs; specialize (Hs 1 1 2); vm_compute in Hs; lia).
Qed.
(** Then the loops that run from the start of the row to the diagonal, in the forward Gauss-Seidel sweep and in the lower triangular solve, skip the
    block: what they compute for the second block row is the same for all values of the unknowns of the first, whatever the entry [v] is. *)
Theorem C112_lower_block_ignored_refuted : forall (F : Type) (O : SOps F) so gp gi gv gd (v : F) M d, convertToBSR so 4 gp gi gv gd (exUnsorted v) = Ok (M, d) ->
  bdense so 4 M 5 0 = v /\
  forall dinv r rhs : list F, length dinv = 2 * (4 * 4) -> length r = 2 * 4 -> length rhs = 4 -> exists y z, forall x,
    exec x (block_fgsC so 4 M dinv r 1) = Ok (y, x) /\ exec x (block_unit_lower_triangular so 4 (vals M) (bcolind M) (rp M 1) (dg M 1) rhs) = Ok (z, x).
Proof.
  intros F O so gp gi gv gd v M d E. destruct so; vm_compute in E; injection E as <- <-; (split; [reflexivity|]); intros dinv r rhs Hd Hr Hs;
    (do 32 (destruct dinv as [|? dinv]; [discriminate Hd|])); (do 8 (destruct r as [|? r]; [discriminate Hr|])); (do 4 (destruct rhs as [|? rhs]; [discriminate Hs|]));
    eexists _, _; intros x; split; reflexivity.
Qed.
Section Wrong.
  Context {F : Type} {O : SOps F} {R : CRing F}.
  Add Ring FrW : (@cring F O R).
  Local Ltac sring := cbv -[s0 s1 sadd smul ssub sopp sdiv]; ring.
  Lemma one_sweep so gp gi gv gd (v : F) M d chunk ytemp r z :
    convertToBSR so 4 gp gi gv gd (exUnsorted v) = Ok (M, d) -> 1 <= chunk -> length ytemp = 8 -> length r = 8 -> length z = 8 ->
    nok (block_ilu0_apply so 4 M (vals M) None ytemp 1 chunk false 1 INIT_A_ZERO r z) (fun '(_, z') =>
      (forall i, i < 8 -> vat z' i = vat r i) /\ bsum 8 (fun j => bdense so 4 M 5 j * vat z' j)%s = (vat r 5 + v * vat r 0)%s).
  Proof.
    intros E Hch Hy Hr Hz. assert (nbrows M = 2) as Hn by (destruct so; cbv -[s0 s1 sadd smul ssub sopp sdiv] in E; injection E as <- <-; reflexivity).
    unfold block_ilu0_apply, ilu0_apply. rewrite Hn. change (2 * 4) with 8.
    eapply nok_bind; [apply init_z_spec; [exact Logic.I|assumption..]|]. intros ? ->. cbn [scaled_rhs].
    eapply nok_bind; [apply fill_spec, Hy|]. intros ? ->. rewrite omp_region_seq by auto. rewrite concat_nowait by lia.
    do 8 (destruct r as [|? r]; [discriminate Hr|]). destruct r; [|discriminate Hr].
    destruct so; cbv -[s0 s1 sadd smul ssub sopp sdiv] in E; injection E as <- <-;
      (match goal with |- nok (nbind (nlift ?e) _) _ => let e' := eval cbv -[s0 s1 sadd smul ssub sopp sdiv] in e in change e with e' end);
      (eapply nok_bind; [apply nok_lift, ok_ret, eq_refl|]); intros ? <-;
      (eapply nok_bind; [apply fill_spec; reflexivity|]); intros ? ->; rewrite omp_region_seq by auto; rewrite concat_nowait by lia;
      (match goal with |- nok (nbind (nlift ?e) _) _ => let e' := eval cbv -[s0 s1 sadd smul ssub sopp sdiv] in e in change e with e' end);
      (eapply nok_bind; [apply nok_lift, ok_ret, eq_refl|]); intros ? <-;
      cbn [final_scale]; (eapply nok_bind; [apply nok_ret, eq_refl|]); intros ? <-; apply nok_ret; (split;
      [intros i Hi; do 8 (destruct i as [|i]; [cbn; ring|]); lia|sring]).
  Qed.
End Wrong.
(** The matrix is its own exact block factorisation: the second factor is the identity. One sweep in the order of the rows should apply the inverse exactly
    (C34), but returns the right-hand side itself: the product of the matrix with the result is off by [v] times the first unknown. *)
Theorem C112_one_sweep_refuted : forall (F : Type) (O : SOps F) (R : CRing F) so gp gi gv gd (v : F) M d chunk ytemp r z,
  convertToBSR so 4 gp gi gv gd (exUnsorted v) = Ok (M, d) -> 1 <= chunk -> length ytemp = 8 -> length r = 8 -> length z = 8 ->
  nok (block_ilu0_apply so 4 M (vals M) None ytemp 1 chunk false 1 INIT_A_ZERO r z) (fun '(_, z') =>
    (forall i, i < 8 -> vat z' i = vat r i) /\ bsum 8 (fun j => bdense so 4 M 5 j * vat z' j)%s = (vat r 5 + v * vat r 0)%s).
Proof. intros. eapply one_sweep; eassumption. Qed.
(** Full blocks meet the condition: four rows, blocks of two by two; and the matrix above does not. *)
Definition exFull : coo Qc := Coo [Entry 0 0 (q 1); Entry 0 3 (q 2); Entry 1 1 (q 3); Entry 2 0 (q 4); Entry 2 2 (q 5); Entry 3 1 (q 6); Entry 3 3 (q 7)] 7 4 4 [0; 2; 3; 5; 7].
Example C112_case : coo_ok exFull /\ coo_sorted exFull /\ nrows exFull = 2 * 2 /\ ncols exFull = 2 * 2 /\ (exists e, e ∈ entries exFull /\ rowind e < 2) /\ first_rows 2 exFull /\
  ~ left_starts_first 4 (exUnsorted (q 1)).
Proof.
  split; [apply coob_ok; reflexivity|]. split.
  { intros k1 k2 e1 e2 H12 H1 H2. lk k1 H1; lk k2 H2; simpl in *; intros; try discriminate; lia. }
  split; [reflexivity|]. split; [reflexivity|]. split; [eexists; split; [left|cbn; lia]|]. split.
  { intros e He. cbn in He. rewrite !elem_of_cons, elem_of_nil in He.
    destruct He as [-> |[-> |[-> |[-> |[-> |[-> |[-> |[]]]]]]]]; cbn;
      [exists (Entry 0 0 (q 1))|exists (Entry 0 3 (q 2))|exists (Entry 0 0 (q 1))|exists (Entry 2 0 (q 4))|exists (Entry 2 2 (q 5))|exists (Entry 2 0 (q 4))|exists (Entry 2 2 (q 5))];
      (split; [repeat (first [apply elem_of_list_here|apply elem_of_list_further])|split; reflexivity]). }
  intros H. destruct (H (Entry 4 4 s1) 0) as (e & He & [R C] & Hle).
  - cbn. repeat (first [apply elem_of_list_here|apply elem_of_list_further]).
  - cbn. lia.
  - exists (Entry 5 0 (q 1)). split; [cbn; repeat (first [apply elem_of_list_here|apply elem_of_list_further])|split; reflexivity].
  - cbn in He. rewrite !elem_of_cons, elem_of_nil in He. cbn in R, C, Hle.
    destruct He as [-> |[-> |[-> |[-> |[-> |[-> |[-> |[-> |[-> |[]]]]]]]]]]; cbn in R, C, Hle; lia.
Qed.

Print Assumptions C112_order.
Print Assumptions C112_sorted.
Print Assumptions C112_first_rows.
Print Assumptions C112_comment_refuted.
Print Assumptions C112_lower_block_ignored_refuted.
Print Assumptions C112_one_sweep_refuted.
