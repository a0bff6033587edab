(** * PropReorder: properties C18-C22 (reordering and scaling) *)
From Verif Require Import Base Alg SRMatrix Async Nd Own TriSpec TriFacts Helpers IluApply IluApplyFacts SgsMain IluFactorMain Reorder ReorderFacts ReorderMain Inst.
From Coq Require Import QArith.Qcanon.
Open Scope nat_scope.

(** ** C18: permutations and vectors *)
(** invertPermutationVector returns the inverse permutation *)
Theorem C18_inverse_permutation : forall n p, p ≡ₚ seq 0 n ->
  exists ip, invertPermutationVector p = Ok ip /\ length ip = n /\ ip ≡ₚ seq 0 n /\
    forall i v, p !! i = Some v <-> ip !! v = Some i.
Proof.
  intros n p Hp. destruct (proj1 (ok_inv _ _) (invertPermutationVector_spec n p Hp)) as (ip & E & Hip).
  pose proof (inverse_perm_perm n p ip Hp Hip) as Hpp.
  exists ip. split; [exact E|]. split; [apply Hip|]. split; [exact Hpp|].
  assert (forall p ip, p ≡ₚ seq 0 n -> inverse_perm n p ip -> forall i v, p !! i = Some v -> ip !! v = Some i) as Hone.
  { clear. intros p ip Hp [_ Hip] i v Hv. assert (i < n) as Hi by (apply lookup_lt_Some in Hv; rewrite (perm_length _ _ Hp) in Hv; exact Hv).
    rewrite <- (Hip i Hi). f_equal. symmetry. apply list_lookup_total_correct, Hv. }
  intros i v. split; apply Hone; auto. apply inverse_perm_sym; auto.
Qed.
Example C18_permutation_case : invertPermutationVector [2; 0; 3; 1] = Ok [1; 3; 0; 2]. Proof. reflexivity. Qed.

(** the object used below: a new one, with the given orderings *)
Definition with_ordering (n : nat) rord cord (o : ordering) : Prop :=
  is_order n rord /\ is_order n cord /\ setOrdering rord cord n ordering_new = Ok o.
Lemma with_ordering_of n rord cord o : with_ordering n rord cord o -> order_of n rord cord o.
Proof.
  intros (H1 & H2 & E). pose proof (setOrdering_spec n rord cord H1 H2) as H. rewrite E in H. exact H.
Qed.
Theorem C18_set_ordering : forall n rord cord, is_order n rord -> is_order n cord -> exists o, with_ordering n rord cord o.
Proof.
  intros n rord cord H1 H2. destruct (proj1 (ok_inv _ _) (setOrdering_spec n rord cord H1 H2)) as (o & E & _). exists o. split; auto.
Qed.
Definition which (rord cord : option (list nat)) (dir : RSApplyDir) := match dir with ROW => rord | COLUMN => cord end.

(** forward: entry [i] of the result is the old entry [p i] (entries have [bs] components);
    inverse: entry [p i] of the result is the old entry [i] *)
Theorem C18_apply_vector : forall (F : Type) (O : SOps F) bs n rord cord o dir (v : list F),
  with_ordering n rord cord o -> length v = n * bs ->
  let p := oget (which rord cord dir) in
  nok (applyOrdering_vec bs o FORWARD dir v) (fun w => length w = n * bs /\
    forall i k, i < n -> k < bs -> w !! (i * bs + k) = v !! (p i * bs + k)) /\
  nok (applyOrdering_vec bs o INVERSE dir v) (fun w => length w = n * bs /\
    forall i k, i < n -> k < bs -> w !! (p i * bs + k) = v !! (i * bs + k)).
Proof.
  intros F O bs n rord cord o dir v Ho Hl p. pose proof (with_ordering_of _ _ _ _ Ho) as Ho'. destruct Ho as (H1 & H2 & _).
  split; [apply (order_vec bs rord cord o n H1 H2 Ho' FORWARD)|apply (order_vec bs rord cord o n H1 H2 Ho' INVERSE)]; exact Hl.
Qed.
Lemma block_list_eq {A} n bs (v w : list A) : length v = n * bs -> length w = n * bs ->
  (forall i k, i < n -> k < bs -> v !! (i * bs + k) = w !! (i * bs + k)) -> v = w.
Proof.
  intros H1 H2 H. apply list_eq_lt; [lia|]. intros x Hx. assert (0 < bs) by nia.
  rewrite (Nat.div_mod x bs) by lia. rewrite Nat.mul_comm. apply H; [apply Nat.div_lt_upper_bound; lia|apply Nat.mod_upper_bound; lia].
Qed.
Theorem C18_vector_round_trip : forall (F : Type) (O : SOps F) bs n rord cord o dir (v : list F),
  with_ordering n rord cord o -> length v = n * bs ->
  nok (ndo w := applyOrdering_vec bs o FORWARD dir v in applyOrdering_vec bs o INVERSE dir w) (fun w => w = v) /\
  nok (ndo w := applyOrdering_vec bs o INVERSE dir v in applyOrdering_vec bs o FORWARD dir w) (fun w => w = v).
Proof.
  intros F O bs n rord cord o dir v Ho Hl.
  assert (is_order n (which rord cord dir)) as Hp by (destruct dir; apply Ho).
  split.
  - eapply nok_bind; [apply (proj1 (C18_apply_vector F O bs n rord cord o dir v Ho Hl))|]. intros w [Hw E].
    eapply nok_mono; [apply (proj2 (C18_apply_vector F O bs n rord cord o dir w Ho Hw))|]. intros u [Hu E'].
    apply (block_list_eq n bs); auto. intros i k Hi Hk. destruct (oget_surj n _ i Hp Hi) as (i' & Hi' & <-).
    rewrite E', E by auto. reflexivity.
  - eapply nok_bind; [apply (proj2 (C18_apply_vector F O bs n rord cord o dir v Ho Hl))|]. intros w [Hw E].
    eapply nok_mono; [apply (proj1 (C18_apply_vector F O bs n rord cord o dir w Ho Hw))|]. intros u [Hu E'].
    apply (block_list_eq n bs); auto. intros i k Hi Hk. rewrite E', E by auto. reflexivity.
Qed.
Example C18_case : exists o, with_ordering 3 (Some [1; 2; 0]) None o. 
Proof. apply C18_set_ordering; [|exact I]. apply nodup_perm; [|reflexivity|].
  - apply (bool_decide_eq_true_1 (NoDup [1; 2; 0])). reflexivity.
  - intros x Hx. rewrite !elem_of_cons, elem_of_nil in Hx. lia.
Qed.

(** ** C19: matrices. [stored bs M i j] is the block stored at (i,j), if there is one. *)
Definition mat_ok {F} bs (M : srmat F) : Prop := wf_pat M /\ wf_nodup M /\ length (vals M) = nnz M * (bs * bs).

Theorem C19_forward : forall (F : Type) (O : SOps F) bs (M : srmat F) rord cord o,
  let n := nbrows M in
  mat_ok bs M -> with_ordering n rord cord o ->
  nok (applyOrdering_mat bs o FORWARD M) (fun M' => nbrows M' = n /\ nnz M' = nnz M /\ mat_ok bs M' /\
    (cord <> None \/ wf_sorted M -> wf_sorted M') /\
    forall i j, i < n -> j < n -> stored bs M' i j = stored bs M (oget rord i) (oget cord j)).
Proof.
  intros F O bs M rord cord o n (Hw & Hnd & Hv) Ho. pose proof (with_ordering_of _ _ _ _ Ho) as Ho'. destruct Ho as (H1 & H2 & _).
  eapply nok_mono; [apply (order_fwd bs rord cord o n H1 H2 Ho' M); auto|]. intros M' [Hm Hs].
  assert (forall c c', c < n -> c' < n -> oinv cord (o_icp o) c = oinv cord (o_icp o) c' -> c = c') as Hinj.
  { intros c c' Hc Hc'. eapply half_inv_inj; eauto. apply Ho'. }
  assert (forall i, i < n -> oget rord i < n) as Hlt by (intros; apply oget_lt; auto).
  pose proof (mapped_nodup bs _ _ _ _ Hw Hnd Hm Hlt Hinj) as Hnd'.
  split; [apply Hm|]. split; [apply Hm|]. split; [|split].
  - split; [apply Hm|]. split; [exact Hnd'|]. rewrite (mp_vals _ _ _ _ _ Hm), (mp_nnz _ _ _ _ _ Hm). exact Hv.
  - auto.
  - intros i j Hi Hj. rewrite <- (mapped_stored bs _ _ M M' i (oget cord j) Hw Hnd Hm Hlt Hinj Hi) by (apply oget_lt; auto).
    f_equal. symmetry. eapply half_inv_l; eauto. apply Ho'.
Qed.
Theorem C19_inverse : forall (F : Type) (O : SOps F) bs (M : srmat F) rord cord o,
  let n := nbrows M in
  mat_ok bs M -> with_ordering n rord cord o ->
  nok (applyOrdering_mat bs o INVERSE M) (fun M' => nbrows M' = n /\ nnz M' = nnz M /\ mat_ok bs M' /\
    (cord <> None \/ wf_sorted M -> wf_sorted M') /\
    forall i j, i < n -> j < n -> stored bs M' (oget rord i) (oget cord j) = stored bs M i j).
Proof.
  intros F O bs M rord cord o n (Hw & Hnd & Hv) Ho. pose proof (with_ordering_of _ _ _ _ Ho) as Ho'. destruct Ho as (H1 & H2 & _).
  eapply nok_mono; [apply (order_inv bs rord cord o n H1 H2 Ho' M); auto|]. intros M' [Hm Hs].
  assert (forall c c', c < n -> c' < n -> oget cord c = oget cord c' -> c = c') as Hinj by (intros c c'; apply oget_inj; auto).
  assert (forall i, i < n -> oinv rord (o_irp o) i < n) as Hlt by (intros; eapply half_inv_lt; eauto; apply Ho').
  pose proof (mapped_nodup bs _ _ _ _ Hw Hnd Hm Hlt Hinj) as Hnd'.
  split; [apply Hm|]. split; [apply Hm|]. split; [|split].
  - split; [apply Hm|]. split; [exact Hnd'|]. rewrite (mp_vals _ _ _ _ _ Hm), (mp_nnz _ _ _ _ _ Hm). exact Hv.
  - auto.
  - intros i j Hi Hj. rewrite (mapped_stored bs _ _ M M' (oget rord i) j Hw Hnd Hm Hlt Hinj) by (auto; apply oget_lt; auto).
    f_equal. eapply half_inv_l; eauto. apply Ho'.
Qed.
(** round trips: the same entries; a matrix with sorted rows comes back exactly *)
Theorem C19_round_trip : forall (F : Type) (O : SOps F) bs (M : srmat F) rord cord o,
  let n := nbrows M in
  mat_ok bs M -> with_ordering n rord cord o ->
  let restored M' := (forall i j, i < n -> j < n -> stored bs M' i j = stored bs M i j) /\ (wf_sorted M -> M' = M) in
  nok (ndo M1 := applyOrdering_mat bs o FORWARD M in applyOrdering_mat bs o INVERSE M1) restored /\
  nok (ndo M1 := applyOrdering_mat bs o INVERSE M in applyOrdering_mat bs o FORWARD M1) restored.
Proof.
  intros F O bs M rord cord o n (Hw & Hnd & Hv) Ho restored. pose proof (with_ordering_of _ _ _ _ Ho) as Ho'. destruct Ho as (H1 & H2 & _).
  assert (forall i, i < n -> oget rord i < n) as L1 by (intros; apply oget_lt; auto).
  assert (forall i, i < n -> oinv rord (o_irp o) i < n) as L2 by (intros; eapply half_inv_lt; eauto; apply Ho').
  assert (forall c c', c < n -> c' < n -> oget cord c = oget cord c' -> c = c') as J1 by (intros c c'; apply oget_inj; auto).
  assert (forall c c', c < n -> c' < n -> oinv cord (o_icp o) c = oinv cord (o_icp o) c' -> c = c') as J2.
  { intros c c' Hc Hc'. eapply half_inv_inj; eauto. apply Ho'. }
  assert (forall M', mapped bs id id M M' -> (wf_sorted M -> wf_sorted M') -> restored M') as Hend.
  { intros M' Hm Hs. split.
    - intros i j Hi Hj. apply (mapped_stored bs id id M M' i j); auto.
    - intros Hsm. eapply mapped_id_eq; eauto. }
  split.
  - eapply nok_bind; [apply (order_fwd bs rord cord o n H1 H2 Ho' M); auto|]. intros M1 [Hm1 Hs1].
    pose proof (mapped_nodup bs _ _ _ _ Hw Hnd Hm1 L1 J2) as Hnd1.
    eapply nok_mono; [apply (order_inv bs rord cord o n H1 H2 Ho' M1)|].
    + symmetry. apply Hm1.
    + apply Hm1.
    + rewrite (mp_vals _ _ _ _ _ Hm1), (mp_nnz _ _ _ _ _ Hm1). exact Hv.
    + intros M2 [Hm2 Hs2]. apply Hend.
      * eapply mapped_ext; [exact Hw|eapply mapped_trans; [exact Hm1|exact Hm2|exact L2]|..]; simpl.
        -- intros i Hi. apply L1, L2, Hi.
        -- intros i Hi. eapply half_inv_r; eauto. apply Ho'.
        -- intros c Hc. eapply half_inv_r; eauto. apply Ho'.
      * intros Hs. auto.
  - eapply nok_bind; [apply (order_inv bs rord cord o n H1 H2 Ho' M); auto|]. intros M1 [Hm1 Hs1].
    pose proof (mapped_nodup bs _ _ _ _ Hw Hnd Hm1 L2 J1) as Hnd1.
    eapply nok_mono; [apply (order_fwd bs rord cord o n H1 H2 Ho' M1)|].
    + symmetry. apply Hm1.
    + apply Hm1.
    + rewrite (mp_vals _ _ _ _ _ Hm1), (mp_nnz _ _ _ _ _ Hm1). exact Hv.
    + intros M2 [Hm2 Hs2]. apply Hend.
      * eapply mapped_ext; [exact Hw|eapply mapped_trans; [exact Hm1|exact Hm2|exact L1]|..]; simpl.
        -- intros i Hi. apply L2, L1, Hi.
        -- intros i Hi. eapply half_inv_l; eauto. apply Ho'.
        -- intros c Hc. eapply half_inv_l; eauto. apply Ho'.
      * intros Hs. auto.
Qed.
Lemma perm102 : [1; 0; 2] ≡ₚ seq 0 3.
Proof. apply perm_swap. Qed.
Definition o102 : ordering := Ordering [1; 0; 2] [1; 0; 2] [1; 0; 2] [1; 0; 2].
Lemma o102_ok : with_ordering 3 (Some [1; 0; 2]) (Some [1; 0; 2]) o102.
Proof. split; [exact perm102|]. split; [exact perm102|]. reflexivity. Qed.
Example C19_case : mat_ok 1 exM /\ wf_sorted exM /\ with_ordering (nbrows exM) (Some [1; 0; 2]) (Some [1; 0; 2]) o102.
Proof.
  split; [|split; [exact exM_sorted|exact o102_ok]]. split; [exact exM_pat|]. split; [apply sorted_nodup, exM_sorted|reflexivity].
Qed.

(** ** C20: false. The matrix exM has valid diagonal indices; after swapping unknowns 0
    and 1 its diagonal indices do not point at diagonal entries. *)
Theorem C20_diagonal_kept_refuted :
  exists (M : srmat Qc) rord cord o, mat_ok 1 M /\ wf_sorted M /\ wf_diag M /\ with_ordering (nbrows M) rord cord o /\
    nok (applyOrdering_mat 1 o FORWARD M) (fun M' =>
      (forall i, i < nbrows M' -> stored 1 M' i i <> None) /\ exists i, i < nbrows M' /\ col M' (dg M' i) <> i).
Proof.
  exists exM, (Some [1; 0; 2]), (Some [1; 0; 2]), o102. destruct C19_case as (H1 & H2 & H3).
  split; [exact H1|]. split; [exact H2|]. split; [exact exM_diag|]. split; [exact H3|].
  pose proof (with_ordering_of _ _ _ _ H3) as Ho'. pose proof H1 as (Hw & Hnd & Hv).
  eapply nok_mono; [apply (nok_and _ _ _ (C19_forward Qc _ 1 exM _ _ o102 H1 H3)
    (order_fwd 1 (Some [1; 0; 2]) (Some [1; 0; 2]) o102 3 perm102 perm102 Ho' exM eq_refl Hw Hv))|].
  intros M' [(E1 & _ & (Hw' & _) & Hs & Hst) [Hm _]]. change (nbrows exM) with 3 in *. rewrite E1. split.
  - intros i Hi. rewrite Hst by done. destruct i as [|[|[|i]]]; [vm_compute; discriminate..|lia].
  - exists 1. split; [lia|]. intros E.
    assert (dg M' 1 = 3) as Hdg by (unfold dg; rewrite (mp_dg _ _ _ _ _ Hm); reflexivity). rewrite Hdg in E.
    pose proof (wf_0 M' Hw') as R0. pose proof (wf_mono M' Hw' 0 ltac:(lia)) as G0. pose proof (wf_mono M' Hw' 1 ltac:(lia)) as G1.
    destruct (mp_row _ _ _ _ _ Hm 0 ltac:(simpl; lia)) as [L0 _]. destruct (mp_row _ _ _ _ _ Hm 1 ltac:(simpl; lia)) as [L1 _].
    unfold rowlen in L0, L1. change (rp exM (oget (Some [1; 0; 2]) 0 + 1) - rp exM (oget (Some [1; 0; 2]) 0)) with 3 in L0.
    change (rp exM (oget (Some [1; 0; 2]) 1 + 1) - rp exM (oget (Some [1; 0; 2]) 1)) with 2 in L1. simpl in L0, L1, G0, G1.
    assert (stored 1 M' 1 0 <> None) as Hx by (rewrite Hst by lia; vm_compute; discriminate).
    unfold stored in Hx. destruct (pos M' 1 0) as [j|] eqn:Ej; [|destruct Hx; reflexivity].
    apply pos_Some in Ej as [[_ Hj] Hc]; [|lia]. simpl in Hj.
    assert (j <> 3) by (intros ->; lia). assert (col M' 3 < col M' j); [|lia].
    apply (Hs ltac:(left; discriminate) 1); simpl; lia.
Qed.

(** ** C21: scaling *)
(** each set of factors is absent or has one factor per (block) row *)
Definition scaling_ok {F} n (sc : scaling (F := F)) : Prop := is_scale n (rowscale sc) /\ is_scale n (colscale sc).
(** the factors as numbers; 1 if absent *)
Definition fac {F} {O : SOps F} (s : list F) (i : nat) : F := default s1 (s !! i).

(** Entries of the forward scaled matrix: times the row factor, then times the column
    factor (a missing set of factors does nothing); inverse: divided by them.
    The pattern does not change. No laws of arithmetic are used. *)
Theorem C21_matrix : forall (F : Type) (O : SOps F) bs (M : srmat F) sc mode,
  let n := nbrows M in
  mat_ok bs M -> scaling_ok n sc ->
  nok (applyScaling_mat bs sc mode M) (fun M' =>
    M' = with_arrays M (browptr M) (bcolind M) (vals M') /\ length (vals M') = length (vals M) /\
    forall i j, i < n -> j < n ->
      stored bs M' i j = option_map (map (fun x => scl mode (colscale sc) j (scl mode (rowscale sc) i x))) (stored bs M i j)).
Proof.
  intros F O bs M sc mode n (Hw & Hnd & Hv) [Hr Hc].
  eapply nok_mono; [apply (scale_mat bs sc mode M); auto|]. intros M' (v & -> & Hl & H). simpl.
  split; [reflexivity|]. split; [exact Hl|]. intros i j Hi Hj.
  unfold stored. change (pos (with_arrays M (browptr M) (bcolind M) v) i j) with (pos M i j).
  destruct (pos M i j) as [k|] eqn:E; [|reflexivity]. simpl. f_equal.
  apply pos_Some in E as [Hin Hcol]; [|exact Hi].
  apply list_eq. intros e. change (map ?f ?l) with (f <$> l). rewrite list_lookup_fmap. destruct (decide (e < bs * bs)) as [He|He].
  - rewrite !lookup_take, !lookup_drop by lia. rewrite (H i k e Hin He), Hcol. reflexivity.
  - rewrite !lookup_take_ge by lia. reflexivity.
Qed.
Theorem C21_vector : forall (F : Type) (O : SOps F) bs n sc mode dir (v : list F),
  scaling_ok n sc -> length v = n * bs ->
  nok (applyScaling_vec bs sc mode dir v) (fun w => length w = n * bs /\
    forall i k, i < n -> k < bs ->
      w !! (i * bs + k) = scl mode (match dir with ROW => rowscale sc | COLUMN => colscale sc end) i <$> v !! (i * bs + k)).
Proof. intros F O bs n sc mode dir v [Hr Hc] Hl. apply scale_vec; auto. Qed.

Section FieldLaws.
  Context {F : Type} {O : SOps F} {R : Field F}.
  Add Ring Fr : cring.
  Open Scope s_scope.
  Definition factors_nz (s : list F) : Prop := forall i a, s !! i = Some a -> a <> s0.
  Lemma div_mul (x a : F) : a <> s0 -> (x / a) * a = x.
  Proof. apply field_div. Qed.
  Lemma mul_div (x a : F) : a <> s0 -> (x * a) / a = x.
  Proof.
    intros H. transitivity (((x * a) / a) * a * (s1 / a)).
    - transitivity (((x * a) / a) * ((s1 / a) * a)); [rewrite (field_div s1 a H); ring|ring].
    - rewrite field_div by exact H. transitivity (x * ((s1 / a) * a)); [ring|]. rewrite field_div by exact H. ring.
  Qed.
  Lemma scl_inverse s i x : factors_nz s -> scl INVERSE s i (scl FORWARD s i x) = x.
  Proof. intros H. unfold scl. destruct (s !! i) as [a|] eqn:E; [|reflexivity]. simpl. apply mul_div. eauto. Qed.
  Lemma scl_forward s i x : factors_nz s -> scl FORWARD s i (scl INVERSE s i x) = x.
  Proof. intros H. unfold scl. destruct (s !! i) as [a|] eqn:E; [|reflexivity]. simpl. apply field_div. eauto. Qed.
  Lemma scl_mul s i x : scl FORWARD s i x = x * fac s i.
  Proof. unfold scl, fac. destruct (s !! i); simpl; [reflexivity|ring]. Qed.
  (** row and column factors commute *)
  Lemma scl_undo sc i j x : factors_nz (rowscale sc) -> factors_nz (colscale sc) ->
    scl INVERSE (colscale sc) j (scl INVERSE (rowscale sc) i (scl FORWARD (colscale sc) j (scl FORWARD (rowscale sc) i x))) = x.
  Proof.
    intros H1 H2. rewrite !scl_mul.
    assert (scl INVERSE (rowscale sc) i (x * fac (rowscale sc) i * fac (colscale sc) j) = x * fac (colscale sc) j) as ->.
    { rewrite <- (scl_inverse (rowscale sc) i (x * fac (colscale sc) j) H1). rewrite !scl_mul. f_equal. ring. }
    rewrite <- scl_mul. apply scl_inverse, H2.
  Qed.
  Lemma scl_redo sc i j x : factors_nz (rowscale sc) -> factors_nz (colscale sc) ->
    scl FORWARD (colscale sc) j (scl FORWARD (rowscale sc) i (scl INVERSE (colscale sc) j (scl INVERSE (rowscale sc) i x))) = x.
  Proof.
    intros H1 H2. rewrite (scl_mul (colscale sc)), (scl_mul (rowscale sc)).
    set (y := scl INVERSE (colscale sc) j (scl INVERSE (rowscale sc) i x)).
    transitivity ((y * fac (colscale sc) j) * fac (rowscale sc) i); [ring|]. rewrite <- !scl_mul. unfold y.
    rewrite scl_forward by exact H2. apply scl_forward, H1.
  Qed.
End FieldLaws.
(** inverse scaling undoes forward scaling, and the other way round: the same matrix and vector *)
Theorem C21_round_trip : forall (F : Type) (O : SOps F) (R : Field F) bs (M : srmat F) sc,
  let n := nbrows M in
  mat_ok bs M -> scaling_ok n sc -> factors_nz (rowscale sc) -> factors_nz (colscale sc) ->
  nok (ndo M1 := applyScaling_mat bs sc FORWARD M in applyScaling_mat bs sc INVERSE M1) (fun M' => M' = M) /\
  nok (ndo M1 := applyScaling_mat bs sc INVERSE M in applyScaling_mat bs sc FORWARD M1) (fun M' => M' = M).
Proof.
  intros F O R bs M sc n (Hw & Hnd & Hv) [Hr Hc] Z1 Z2.
  assert (forall v, length v = length (vals M) -> (forall i j e, inrow M i j -> e < bs * bs -> v !! (j * (bs * bs) + e) = vals M !! (j * (bs * bs) + e)) ->
    with_arrays M (browptr M) (bcolind M) v = M) as Hend.
  { intros v Hl H. assert (v = vals M) as ->; [|destruct M; reflexivity].
    apply (block_list_eq (nnz M) (bs * bs)); [lia|lia|]. intros j e Hj He.
    destruct (inrow_exists M j Hw Hj) as (i & Hi). apply (H i); auto. }
  assert (forall m m', (forall i j x, scl m' (colscale sc) j (scl m' (rowscale sc) i (scl m (colscale sc) j (scl m (rowscale sc) i x))) = x) ->
    nok (ndo M1 := applyScaling_mat bs sc m M in applyScaling_mat bs sc m' M1) (fun M' => M' = M)) as Hgen.
  { intros m m' Hu. eapply nok_bind; [apply (scale_mat bs sc m M); auto|]. intros M1 (v & -> & Hl & H).
    set (M1 := with_arrays M (browptr M) (bcolind M) v).
    assert (wf_pat M1) as Hw1 by (destruct Hw; split; auto).
    eapply nok_mono; [apply (scale_mat bs sc m' M1); auto|].
    - unfold M1. simpl. rewrite Hl. exact Hv.
    - intros M2 (w & -> & Hl' & H'). unfold M1 in *. simpl. apply (Hend w); [simpl in Hl'; lia|].
      intros i j e Hij He. rewrite (H' i j e Hij He). simpl. rewrite (H i j e Hij He).
      change (col (with_arrays M (browptr M) (bcolind M) v) j) with (col M j).
      destruct (vals M !! _); simpl; [rewrite Hu|]; reflexivity. }
  split; apply Hgen; intros i j x; [apply scl_undo|apply scl_redo]; auto.
Qed.
Theorem C21_vector_round_trip : forall (F : Type) (O : SOps F) (R : Field F) bs n sc dir (v : list F),
  scaling_ok n sc -> length v = n * bs -> factors_nz (rowscale sc) -> factors_nz (colscale sc) ->
  nok (ndo w := applyScaling_vec bs sc FORWARD dir v in applyScaling_vec bs sc INVERSE dir w) (fun w => w = v) /\
  nok (ndo w := applyScaling_vec bs sc INVERSE dir v in applyScaling_vec bs sc FORWARD dir w) (fun w => w = v).
Proof.
  intros F O R bs n sc dir v Hsc Hl Z1 Z2.
  set (s := match dir with ROW => rowscale sc | COLUMN => colscale sc end).
  assert (factors_nz s) as Hz by (unfold s; destruct dir; auto).
  split.
  - eapply nok_bind; [apply (C21_vector F O bs n sc FORWARD dir v Hsc Hl)|]. intros w [Hw E].
    eapply nok_mono; [apply (C21_vector F O bs n sc INVERSE dir w Hsc Hw)|]. intros u [Hu E'].
    apply (block_list_eq n bs); auto. intros i k Hi Hk. rewrite E', E by auto. fold s.
    destruct (v !! _); simpl; [rewrite scl_inverse by exact Hz|]; reflexivity.
  - eapply nok_bind; [apply (C21_vector F O bs n sc INVERSE dir v Hsc Hl)|]. intros w [Hw E].
    eapply nok_mono; [apply (C21_vector F O bs n sc FORWARD dir w Hsc Hw)|]. intros u [Hu E'].
    apply (block_list_eq n bs); auto. intros i k Hi Hk. rewrite E', E by auto. fold s.
    destruct (v !! _); simpl; [rewrite scl_forward by exact Hz|]; reflexivity.
Qed.
Definition sc231 : scaling := Scaling (q <$> [2; 3; 1]%Z) (q <$> [1; 5; 2]%Z).
Example C21_case : mat_ok 1 exM /\ scaling_ok (nbrows exM) sc231 /\ factors_nz (rowscale sc231) /\ factors_nz (colscale sc231).
Proof.
  split; [apply C19_case|]. split; [split; right; reflexivity|].
  split; intros i a Ha; destruct i as [|[|[|i]]]; simpl in Ha; try discriminate; injection Ha as <-; discriminate.
Qed.

(** ** C22: solving through a reordered and scaled system.
    [B]: the matrix reorderScale makes of [M]. [b2]: the right-hand side [b], scaled and
    ordered as the rows. [y]: any solution of B y = b2. [x]: [y] with the column ordering
    undone, scaled as the columns. Then A x = b. *)
Section Solve.
  Context {F : Type} {O : SOps F} {R : Field F}.
  Add Ring Fr2 : cring.
  Open Scope s_scope.
  Lemma bsum_order n x (f : nat -> F) : is_order n x -> bsum n f = bsum n (fun j => f (oget x j)).
  Proof.
    intros Hx. assert (forall g, bsum n g = lsum g (seq 0 n)) as Hl.
    { clear x f Hx. intros g. induction n as [|n IH]; [reflexivity|]. rewrite seq_S. simpl. rewrite lsum_app, IH. simpl. ring. }
    rewrite !Hl. destruct x as [p|]; simpl in *; [|reflexivity].
    rewrite <- (lsum_perm f _ _ Hx).
    assert (p = (fun j => p !!! j) <$> seq 0 n) as Ep.
    { apply list_eq_lt; [rewrite fmap_length, seq_length; apply perm_length, Hx|]. intros i Hi.
      rewrite (perm_length _ _ Hx) in Hi. rewrite list_lookup_fmap, lookup_seq_lt by exact Hi. simpl. apply (perm_get n); auto. }
    rewrite Ep at 1. generalize (seq 0 n). intros l. induction l as [|a l IH]; [reflexivity|]. simpl. f_equal. exact IH.
  Qed.
  Lemma bdense_stored so bs (M : srmat F) i j p q : (p < bs)%nat -> (q < bs)%nat ->
    bdense so bs M (i * bs + p)%nat (j * bs + q)%nat =
    match stored bs M i j with Some b => default s0 (b !! lay so bs p q) | None => s0 end.
  Proof.
    intros Hp Hq. unfold bdense, stored. rewrite !flat_div, !flat_mod by lia.
    destruct (pos M i j) as [k|]; [|reflexivity]. simpl. unfold bent. rewrite lookup_take, lookup_drop; [reflexivity|].
    unfold lay. destruct so; nia.
  Qed.
End Solve.
Theorem C22_solve_reordered_scaled :
  forall (F : Type) (O : SOps F) (R : Field F) so bs (M : srmat F) rord cord o sc (b y : list F),
  let n := nbrows M in
  let N := n * bs in
  mat_ok bs M -> with_ordering n rord cord o -> scaling_ok n sc -> factors_nz (rowscale sc) ->
  length b = N -> length y = N ->
  nok (reorderScale bs o sc FORWARD M) (fun B =>
    nok (ndo b1 := applyScaling_vec bs sc FORWARD ROW b in applyOrdering_vec bs o FORWARD ROW b1) (fun b2 =>
      is_prod N (bdense so bs B) y b2 ->
      nok (ndo y1 := applyOrdering_vec bs o INVERSE COLUMN y in applyScaling_vec bs sc FORWARD COLUMN y1) (fun x =>
        length x = N /\ is_prod N (bdense so bs M) x b))).
Proof.
  intros F O R so bs M rord cord o sc b y n N HM Ho Hsc Hnz Hb Hy. pose proof HM as (Hw & Hnd & Hv).
  unfold reorderScale. eapply nok_bind; [apply (C21_matrix F O bs M sc FORWARD HM Hsc)|]. intros M1 (E1 & E2 & E3).
  assert (mat_ok bs M1) as HM1.
  { rewrite E1. destruct HM as ([W1 W2 W3 W4 W5] & Hn2 & Hv2). split; [split; auto|]. split; [exact Hn2|]. simpl. rewrite E2. exact Hv2. }
  assert (nbrows M1 = n) as En by (rewrite E1; reflexivity).
  rewrite <- En in Ho. eapply nok_mono; [apply (C19_forward F O bs M1 rord cord o HM1 Ho)|]. rewrite En in *.
  intros B (_ & _ & _ & _ & HB).
  assert (forall i j p q, i < n -> j < n -> p < bs -> q < bs ->
    bdense so bs B (i * bs + p) (j * bs + q) =
    (fac (rowscale sc) (oget rord i) * bdense so bs M (oget rord i * bs + p) (oget cord j * bs + q) * fac (colscale sc) (oget cord j))%s) as Hent.
  { intros i j p q' Hi Hj Hp Hq. rewrite !bdense_stored by auto. rewrite HB by auto.
    rewrite E3 by (apply oget_lt; try apply Ho; auto).
    destruct (stored bs M (oget rord i) (oget cord j)) as [bl|]; simpl; [|rewrite smul_0_r, smul_0_l; reflexivity].
    rewrite list_lookup_fmap. destruct (bl !! lay so bs p q') as [z|]; simpl; [|rewrite smul_0_r, smul_0_l; reflexivity].
    rewrite !scl_mul. rewrite (smul_comm z). reflexivity. }
  eapply nok_bind; [apply (C21_vector F O bs n sc FORWARD ROW b Hsc Hb)|]. intros b1 [L1 V1].
  eapply nok_mono; [apply (proj1 (C18_apply_vector F O bs n rord cord o ROW b1 Ho L1))|]. intros b2 [L2 V2] Hprod.
  eapply nok_bind; [apply (proj2 (C18_apply_vector F O bs n rord cord o COLUMN y Ho Hy))|]. intros y1 [L3 V3].
  eapply nok_mono; [apply (C21_vector F O bs n sc FORWARD COLUMN y1 Hsc L3)|]. intros x [L4 V4].
  split; [exact L4|]. intros I HI. assert (0 < bs) as Hbs by nia.
  set (r := I / bs). set (p := I mod bs).
  assert (I = r * bs + p) as EI by (rewrite (Nat.div_mod I bs) at 1 by lia; unfold r, p; lia).
  assert (r < n) as Hr by (apply Nat.div_lt_upper_bound; lia).
  assert (p < bs) as Hp by (apply Nat.mod_upper_bound; lia).
  clearbody r p. subst I. destruct Ho as (O1 & O2 & _).
  destruct (oget_surj n rord r O1 Hr) as (i & Hi & Er).
  specialize (Hprod (i * bs + p) ltac:(unfold N; nia)).
  unfold N in *. rewrite bsum_flat in Hprod. rewrite bsum_flat.
  assert (vat b2 (i * bs + p) = (vat b (r * bs + p) * fac (rowscale sc) r)%s) as Eb.
  { apply vat_eq. rewrite V2 by auto. simpl. rewrite Er, V1 by auto. rewrite (vat_Some b) by nia. simpl. rewrite scl_mul. reflexivity. }
  rewrite Eb in Hprod.
  assert (fac (rowscale sc) r <> s0) as Hfr.
  { unfold fac. destruct (rowscale sc !! r) as [a|] eqn:E; simpl; [eapply Hnz; eauto|]. apply field_10. }
  rewrite (bsum_order n cord _ O2).
  transitivity ((s1 / fac (rowscale sc) r) * (vat b (r * bs + p) * fac (rowscale sc) r))%s.
  2: { transitivity (vat b (r * bs + p) * ((s1 / fac (rowscale sc) r) * fac (rowscale sc) r))%s.
       - rewrite smul_assoc, (smul_comm (s1 / _)%s), <- smul_assoc. reflexivity.
       - rewrite field_div by exact Hfr. apply smul_1_r. }
  rewrite <- Hprod, <- bsum_mul_l. apply bsum_ext. intros j Hj. rewrite <- bsum_mul_l. apply bsum_ext. intros q' Hq.
  rewrite (Hent i j p q') by auto. rewrite Er.
  assert (vat x (oget cord j * bs + q') = (vat y (j * bs + q') * fac (colscale sc) (oget cord j))%s) as ->.
  { apply vat_eq. rewrite V4 by (auto; apply oget_lt; auto). specialize (V3 j q' Hj Hq). simpl in V3. rewrite V3.
    rewrite (vat_Some y) by nia. simpl. rewrite scl_mul. reflexivity. }
  set (A := bdense so bs M (r * bs + p) (oget cord j * bs + q')). set (c := fac (colscale sc) (oget cord j)).
  set (f := fac (rowscale sc) r) in *. set (v := vat y (j * bs + q')).
  transitivity (((s1 / f) * f) * (A * (v * c)))%s; [rewrite field_div by exact Hfr; rewrite smul_1_l; reflexivity|].
  rewrite <- !smul_assoc. f_equal. f_equal. f_equal. apply smul_comm.
Qed.
(** the hypotheses can be met: exM with the ordering and scaling above; the system B y = b2
    with b = exM (1,1,1) has the solution y = (1/5, 1, 1/2) *)
Example C22_case : mat_ok 1 exM /\ with_ordering (nbrows exM) (Some [1; 0; 2]) (Some [1; 0; 2]) o102 /\ scaling_ok (nbrows exM) sc231 /\
  factors_nz (rowscale sc231) /\
  is_prod 3 (fun i j => (fac (rowscale sc231) ([1; 0; 2] !!! i) * dense exM ([1; 0; 2] !!! i) ([1; 0; 2] !!! j) * fac (colscale sc231) ([1; 0; 2] !!! j))%s)
    [Qcdiv (q 1) (q 5); q 1; Qcdiv (q 1) (q 2)] [q 24; q 10; q 4].
Proof.
  split; [apply C19_case|]. split; [apply C19_case|]. split; [apply C21_case|]. split; [apply C21_case|].
  intros i Hi. destruct i as [|[|[|i]]]; [..|lia]; apply Qc_is_canon; vm_compute; reflexivity.
Qed.

Print Assumptions C18_inverse_permutation.
Print Assumptions C18_set_ordering.
Print Assumptions C18_apply_vector.
Print Assumptions C18_vector_round_trip.
Print Assumptions C19_forward.
Print Assumptions C19_inverse.
Print Assumptions C19_round_trip.
Print Assumptions C20_diagonal_kept_refuted.
Print Assumptions C21_matrix.
Print Assumptions C21_vector.
Print Assumptions C21_round_trip.
Print Assumptions C21_vector_round_trip.
Print Assumptions C22_solve_reordered_scaled.
