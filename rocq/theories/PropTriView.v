(** * PropTriView: C16 *)
From Verif Require Import Base Alg SRMatrix Nd Coo TriView CooFacts Inst.
From Coq Require Import ZArith Qcanon.
Open Scope nat_scope.

(** ** What a view denotes: row [i] is stored from [browptr i] up to [browendptr i] *)
Section ViewSpec.
  Context {F : Type} {O : SOps F}.
  Definition vrange (V : srmat F) (i : nat) : list nat := range (browptr V !!! i) (browendptr V !!! i).
  Definition vpos (V : srmat F) (i c : nat) : option nat :=
    snd <$> list_find (fun j => bcolind V !!! j = c) (vrange V i).
  Definition vdense (so : storage) (bs : nat) (V : srmat F) (I J : nat) : F :=
    match vpos V (I / bs) (J / bs) with
    | Some j => bent so bs (vals V) j (I mod bs) (J mod bs)
    | None => s0
    end.
  (** all (block) entries of the view *)
  Definition visible (V : srmat F) : list nat := seq 0 (nbrows V) ≫= vrange V.
End ViewSpec.

Lemma bind_one {A B} (f : A -> list B) x : [x] ≫= f = f x.
Proof. apply app_nil_r. Qed.
Section Proofs.
  Context {F : Type} {O : SOps F} (M : srmat F).
  Hypothesis Hw : wf_pat M.
  Hypothesis He : wf_end M.
  Hypothesis Hd : wf_diag M.
  Hypothesis Hs : wf_sorted M.

  (** a loop filling two arrays and counting *)
  Lemma two_arrays (a b : nat -> nat) g1 g2 body :
    (forall i, i < nbrows M -> a i <= b i) ->
    (forall i p e z, i < nbrows M -> length p = nbrows M -> length e = nbrows M ->
       body i (p, e, z) = Ok (<[i := a i]> p, <[i := b i]> e, (z + (Z.of_nat (b i) - Z.of_nat (a i)))%Z)) ->
    exists p e z, for_ 0 (nbrows M) body (alloc g1 (nbrows M), alloc g2 (nbrows M), 0%Z) = Ok (p, e, z) /\
      length p = nbrows M /\ length e = nbrows M /\ (forall i, i < nbrows M -> p !! i = Some (a i) /\ e !! i = Some (b i)) /\
      z = Z.of_nat (length (seq 0 (nbrows M) ≫= (fun i => range (a i) (b i)))).
  Proof.
    intros Hab Hb.
    assert (ok (for_ 0 (nbrows M) body (alloc g1 (nbrows M), alloc g2 (nbrows M), 0%Z)) (fun '(p, e, z) =>
      length p = nbrows M /\ length e = nbrows M /\ (forall i, i < nbrows M -> p !! i = Some (a i) /\ e !! i = Some (b i)) /\
      z = Z.of_nat (length (seq 0 (nbrows M) ≫= (fun i => range (a i) (b i)))))) as H.
    { apply ok_for_post with (I := fun k '(p, e, z) => length p = nbrows M /\ length e = nbrows M /\
        (forall i, i < k -> p !! i = Some (a i) /\ e !! i = Some (b i)) /\
        z = Z.of_nat (length (seq 0 k ≫= (fun i => range (a i) (b i))))).
      - lia.
      - rewrite !alloc_length. split; [reflexivity|]. split; [reflexivity|]. split; [intros; lia|reflexivity].
      - intros k [[p e] z] Hk (L1 & L2 & H1 & H2). rewrite Hb by (lia || assumption). simpl. rewrite !insert_length. split; [exact L1|]. split; [exact L2|]. split.
        + intros i Hi. destruct (decide (k = i)) as [->|Hne]; [rewrite !list_lookup_insert by lia; auto|]. rewrite !list_lookup_insert_ne by exact Hne. apply H1. lia.
        + rewrite seq_app, bind_app, app_length. cbn [seq]. rewrite Nat.add_0_l, bind_one, range_length. specialize (Hab k ltac:(lia)). lia.
      - intros [[p e] z] H. exact H. }
    apply ok_inv in H as ([[p e] z] & E & H). exists p, e, z. auto.
  Qed.
  Lemma visible_of (V : srmat F) a b : nbrows V = nbrows M -> (forall i, i < nbrows M -> browptr V !! i = Some (a i) /\ browendptr V !! i = Some (b i)) ->
    visible V = seq 0 (nbrows M) ≫= (fun i => range (a i) (b i)).
  Proof.
    intros Hn H. unfold visible. rewrite Hn. assert (forall l, (forall i, i ∈ l -> i < nbrows M) -> l ≫= vrange V = l ≫= (fun i => range (a i) (b i))) as X.
    { induction l as [|x l IH]; intros Hl; [reflexivity|]. cbn [mbind list_bind]. f_equal; [|apply IH; intros i Hi; apply Hl; right; exact Hi].
      destruct (H x (Hl x (elem_of_list_here _ _))) as [H1 H2]. unfold vrange. rewrite !list_lookup_total_alt, H1, H2. reflexivity. }
    apply X. intros i Hi. apply elem_of_seq in Hi. lia.
  Qed.
  (** searching part of a sorted row *)
  Lemma vpos_part (V : srmat F) i c lo hi (P : Prop) : i < nbrows M -> bcolind V = bcolind M -> browptr V !! i = Some lo -> browendptr V !! i = Some hi ->
    rp M i <= lo -> hi <= rp M (i + 1) -> (forall j, inrow M i j -> col M j = c -> lo <= j < hi <-> P) ->
    (P -> vpos V i c = pos M i c) /\ (~ P -> vpos V i c = None).
  Proof.
    intros Hi Hc H1 H2 Hlo Hhi HP. unfold vpos, vrange. rewrite Hc, !list_lookup_total_alt, H1, H2. cbn [default from_option id].
    assert (forall j, snd <$> list_find (fun j => bcolind M !!! j = c) (range lo hi) = Some j <-> lo <= j < hi /\ col M j = c) as Hfind.
    { intros j. split.
      - intros E. apply fmap_Some in E as ([k j'] & E & ->). apply list_find_Some in E as (E1 & E2 & _). split; [apply elem_of_range; eapply elem_of_list_lookup_2; exact E1|exact E2].
      - intros [Hj Ej]. destruct (list_find _ _) as [[k j']|] eqn:E; simpl.
        + apply list_find_Some in E as (E1 & E2 & _). apply elem_of_list_lookup_2, elem_of_range in E1. f_equal.
          apply (sorted_nodup M Hs i); [exact Hi|split; [exact Hi|lia]|split; [exact Hi|lia]|unfold col; rewrite E2; symmetry; exact Ej].
        + exfalso. apply list_find_None in E. rewrite Forall_forall in E. apply (E j); [apply elem_of_range; exact Hj|exact Ej]. }
    split.
    - intros Hp. destruct (pos M i c) as [j|] eqn:E.
      + apply Hfind. apply pos_Some in E as [E1 E2]; [|exact Hi]. split; [apply (HP j); auto|exact E2].
      + destruct (snd <$> list_find _ _) as [j|] eqn:E2; [|reflexivity]. destruct (proj1 (Hfind j) eq_refl) as [E4 E3]. exfalso.
        apply (proj1 (pos_None M i c Hi) E j); [split; [exact Hi|lia]|exact E3].
    - intros Hp. destruct (snd <$> list_find _ _) as [j|] eqn:E2; [|reflexivity]. destruct (proj1 (Hfind j) eq_refl) as [E4 E3]. exfalso. apply Hp, (HP j); [split; [exact Hi|lia]|exact E3|exact E4].
  Qed.
  Lemma block_entry so bs (V : srmat F) I J (P : Prop) : vals V = vals M -> 
    (P -> vpos V (I / bs) (J / bs) = pos M (I / bs) (J / bs)) -> (~ P -> vpos V (I / bs) (J / bs) = None) ->
    (P -> vdense so bs V I J = bdense so bs M I J) /\ (~ P -> vdense so bs V I J = s0).
  Proof.
    intros Hv H1 H2. unfold vdense, bdense. rewrite Hv. split; intros Hp; [rewrite (H1 Hp)|rewrite (H2 Hp)]; reflexivity.
  Qed.
End Proofs.

(** For every matrix with sorted rows and a full diagonal: the lower view exists, at
    each place it has the matrix entry if the (block) column is not right of the (block) row, zero
    otherwise; its count is the number of its entries. Likewise the upper view. The counts add up to
    the matrix's count and the number of rows. *)
Theorem C16_views : forall (F : Type) (O : SOps F) (M : srmat F) g1 g2 g3 g4,
  wf_pat M -> wf_end M -> wf_diag M -> wf_sorted M ->
  exists L U, getLowerTriangularView g1 g2 M = Ok L /\ getUpperTriangularView g3 g4 M = Ok U /\
    (forall so bs I J, 0 < bs -> I < nbrows M * bs ->
       vdense so bs L I J = (if decide (J / bs <= I / bs) then bdense so bs M I J else s0) /\
       vdense so bs U I J = (if decide (I / bs <= J / bs) then bdense so bs M I J else s0)) /\
    nnzb L = length (visible L) /\ nnzb U = length (visible U) /\
    NoDup (visible L) /\ NoDup (visible U) /\
    nnzb L + nnzb U = nnz M + nbrows M.
Proof.
  intros F O M g1 g2 g3 g4 Hw He Hd Hs. destruct Hd as [Hdl Hd']. pose proof (conj Hdl Hd' : wf_diag M) as Hd.
  destruct (two_arrays M (fun i => rp M i) (fun i => dg M i + 1) g1 g2 (fun irow s =>
      let! b := get (browptr M) irow in
      let '(lrowptr, lrowendptr, nnz) := s in
      let! lrowptr := set lrowptr irow b in
      let! d := get (diagind M) irow in
      let! lrowendptr := set lrowendptr irow (d + 1) in
      Ok (lrowptr, lrowendptr, (nnz + (Z.of_nat d - Z.of_nat b + 1))%Z))) as (p & e & z & E1 & L1 & L2 & H1 & Hz).
  { intros i Hi. destruct (Hd' i Hi). lia. }
  { intros i p e z Hi Lp Le. rewrite (proj2 (get_Some _ _ _) (wf_browptr M i Hw ltac:(lia))). cbn [bind]. rewrite set_Ok by lia. cbn [bind].
    rewrite (proj2 (get_Some _ _ _) (wf_diagind M i Hd Hi)). cbn [bind]. rewrite set_Ok by lia. cbn [bind]. do 2 f_equal. lia. }
  destruct (two_arrays M (fun i => dg M i) (fun i => rp M (i + 1)) g3 g4 (fun irow s =>
      let! d := get (diagind M) irow in
      let '(urowptr, urowendptr, nnz) := s in
      let! urowptr := set urowptr irow d in
      let! e := get (browendptr M) irow in
      let! urowendptr := set urowendptr irow e in
      Ok (urowptr, urowendptr, (nnz + (Z.of_nat e - Z.of_nat d))%Z))) as (p' & e' & z' & E2 & L3 & L4 & H2 & Hz').
  { intros i Hi. destruct (Hd' i Hi). lia. }
  { intros i p0 e0 z0 Hi Lp Le. rewrite (proj2 (get_Some _ _ _) (wf_diagind M i Hd Hi)). cbn [bind]. rewrite set_Ok by lia. cbn [bind].
    rewrite (proj2 (get_Some _ _ _) (proj2 He i Hi)). cbn [bind]. rewrite set_Ok by lia. reflexivity. }
  set (L := SR p (bcolind M) (vals M) (diagind M) e (nbrows M) (Z.to_nat z) (nbstored M)).
  set (U := SR p' (bcolind M) (vals M) (diagind M) e' (nbrows M) (Z.to_nat z') (nbstored M)).
  pose proof (visible_of M L (fun i => rp M i) (fun i => dg M i + 1) eq_refl H1) as VL.
  pose proof (visible_of M U (fun i => dg M i) (fun i => rp M (i + 1)) eq_refl H2) as VU.
  exists L, U. split; [unfold getLowerTriangularView; rewrite E1; reflexivity|]. split; [unfold getUpperTriangularView; rewrite E2; reflexivity|]. split.
  { intros so bs I J Hbs HI. assert (I / bs < nbrows M) as Hi by (apply Nat.div_lt_upper_bound; lia). destruct (Hd' (I / bs) Hi) as [D1 D2].
    destruct (H1 _ Hi) as [H1a H1b]. destruct (H2 _ Hi) as [H2a H2b].
    assert (forall j, inrow M (I / bs) j -> (j < dg M (I / bs) <-> col M j < I / bs) /\ (dg M (I / bs) < j <-> I / bs < col M j)) as Hbd
      by (intros j Hj; split; [apply before_diag|apply after_diag]; assumption).
    split.
    - destruct (vpos_part M Hs L (I / bs) (J / bs) _ _ (J / bs <= I / bs) Hi eq_refl H1a H1b) as [X1 X2]; try lia.
      { intros j Hj Hc. specialize (Hbd j Hj). destruct Hj as [_ Hj]. lia. }
      destruct (block_entry M so bs L I J _ eq_refl X1 X2). destruct (decide _); auto.
    - destruct (vpos_part M Hs U (I / bs) (J / bs) _ _ (I / bs <= J / bs) Hi eq_refl H2a H2b) as [X1 X2]; try lia.
      { intros j Hj Hc. specialize (Hbd j Hj). destruct Hj as [_ Hj]. lia. }
      destruct (block_entry M so bs U I J _ eq_refl X1 X2). destruct (decide _); auto. }
  assert (nnzb L = length (visible L)) as NL by (simpl; rewrite VL, Hz, Nat2Z.id; reflexivity).
  assert (nnzb U = length (visible U)) as NU by (simpl; rewrite VU, Hz', Nat2Z.id; reflexivity).
  split; [exact NL|]. split; [exact NU|].
  assert (forall (a b : nat -> nat), (forall i, i < nbrows M -> rp M i <= a i /\ b i <= rp M (i + 1)) -> forall k, k <= nbrows M ->
    NoDup (seq 0 k ≫= (fun i => range (a i) (b i))) /\ forall j, j ∈ seq 0 k ≫= (fun i => range (a i) (b i)) -> j < rp M k) as Hnd.
  { intros a b Hab. induction k as [|k IH]; intros Hk; [split; [constructor|intros j Hj; apply elem_of_nil in Hj as []]|].
    destruct (IH ltac:(lia)) as [N1 N2]. destruct (Hab k ltac:(lia)) as [B1 B2]. pose proof (wf_mono M Hw k ltac:(lia)) as Hm. replace (k + 1) with (S k) in * by lia.
    rewrite seq_S, bind_app, Nat.add_0_l, bind_one. split.
    - apply NoDup_app. split; [exact N1|]. split; [|apply NoDup_range]. intros j Hj Hj'. specialize (N2 j Hj). apply elem_of_range in Hj'. lia.
    - intros j Hj. apply elem_of_app in Hj as [Hj|Hj]; [specialize (N2 j Hj); lia|apply elem_of_range in Hj; lia]. }
  split; [rewrite VL; apply (Hnd (fun i => rp M i) (fun i => dg M i + 1)); [intros i Hi; destruct (Hd' i Hi); lia|lia]|].
  split; [rewrite VU; apply (Hnd (fun i => dg M i) (fun i => rp M (i + 1))); [intros i Hi; destruct (Hd' i Hi); lia|lia]|].
  rewrite NL, NU, VL, VU. unfold nnz.
  assert (forall k, k <= nbrows M -> length (seq 0 k ≫= (fun i => range (rp M i) (dg M i + 1))) + length (seq 0 k ≫= (fun i => range (dg M i) (rp M (i + 1)))) = rp M k + k) as Hsum.
  { induction k as [|k IH]; intros Hk; [simpl; rewrite (wf_0 M Hw); reflexivity|]. specialize (IH ltac:(lia)).
    rewrite seq_S, !bind_app, !app_length, Nat.add_0_l, !bind_one, !range_length.
    destruct (Hd' k ltac:(lia)) as [D1 _]. pose proof (wf_mono M Hw k ltac:(lia)). replace (k + 1) with (S k) in * by lia. lia. }
  apply Hsum. lia.
Qed.
(** the 3x3 tridiagonal example: 5 and 5 entries of 7 *)
Example C16_case : wf_pat exM /\ wf_end exM /\ wf_diag exM /\ wf_sorted exM /\
  exists L U, getLowerTriangularView (fun _ => 9) (fun _ => 9) exM = Ok L /\ getUpperTriangularView (fun _ => 9) (fun _ => 9) exM = Ok U /\ nnzb L = 5 /\ nnzb U = 5.
Proof.
  split; [exact exM_pat|]. split.
  { split; [reflexivity|]. intros i Hi. simpl in Hi. do 3 (destruct i as [|i]; [reflexivity|]). lia. }
  split; [exact exM_diag|]. split; [exact exM_sorted|]. do 2 eexists. split; [reflexivity|]. split; [reflexivity|]. split; reflexivity.
Qed.

Print Assumptions C16_views.
