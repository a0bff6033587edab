(** * PropReorderedIlu: property C59 (the ILU preconditioner of a reordered matrix) *)
From Verif Require Import Base Alg SRMatrix Async AsyncTheory AsyncSystem AsyncSweeps Nd Kernels KernelFacts
  IluPattern IluPatternFacts IluApply TriSpec TriFacts IluApplyFacts IluApplyProofs Chains IluApplyMain Sgs SgsForms SgsMain
  IluFactor IluFactorFacts IluFactorProofs IluFactorInit IluFactorMain PropIluApply PropIluFactor PropIluInit PropIluSolve
  Helpers Reorder ReorderFacts ReorderMain PropReorder ReorderedIlu Inst.
From Coq Require Import QArith.Qcanon.
Open Scope nat_scope.

(** a matrix on which ILU(0) with scaling is a direct solver (compare C57): no fill-in, the
    diagonal has usable square roots, exact factors with nonzero pivots exist *)
Definition direct_case {F} {O : SOps F} ssqrt (R : srmat F) : Prop :=
  wf_mat R /\ no_fill R /\ (forall i, i < nbrows R -> ssqrt (dense R i i) <> s0) /\
  exists lu, length lu = nnz R /\ (forall i, i < nbrows R -> entry R lu i i <> s0) /\
    exact_on_pattern R (unitlower (entry R lu)) (upper (entry R lu)) (scaled_mat (scale_used ssqrt true (nbrows R) (dense R)) (dense R)).

Lemma nok_agree {A} (m : nd A) (P Q : A -> Prop) : nok m P -> nok m Q -> exists a, P a /\ Q a.
Proof. intros H1 H2. pose proof (nok_and _ _ _ H1 H2) as [[o Ho] H]. specialize (H o Ho). destruct o; simpl in H; try tauto. eauto. Qed.

Lemma nok_ret_inv {A B} (m : nd A) (f : A -> B) (Q : B -> Prop) : nok (nbind m (fun a => nret (f a))) Q -> nok m (fun a => Q (f a)).
Proof.
  intros [[o (x & Hx & _)] H]. split; [exists x; exact Hx|]. intros y Hy.
  destruct y as [a| |e|]; simpl.
  - apply (H (Ok (f a))). exists (Ok a). split; [exact Hy|reflexivity].
  - apply (H UB). exists UB. split; [exact Hy|reflexivity].
  - apply (H (Throw e)). exists (Throw e). split; [exact Hy|reflexivity].
  - apply (H Fuel). exists Fuel. split; [exact Hy|reflexivity].
Qed.
Lemma direct_core {F} {O : SOps F} {Fi : Field F} ssqrt sabs (R : srmat F) : direct_case ssqrt R -> length (vals R) = nnz R ->
  exists lu, forall r, length r = nbrows R -> exists z, length z = nbrows R /\ is_prod (nbrows R) (dense R) z r /\
    (forall k chunk ut nthr finit ilu gs, length ilu = nnz R -> length gs = nbrows R -> finit <> INIT_F_SGS ->
      1 <= k -> 1 <= chunk -> ut = false \/ nthr = 1 ->
      nok (scalar_ilu0_factorize ssqrt sabs R (positions R) k chunk ut nthr finit false ilu (Some gs))
          (fun '(lu', sc, _) => lu' = lu /\ sc = scale_used ssqrt true (nbrows R) (dense R))) /\
    forall ytemp z0 nsweeps chunk ut nthr init,
      length ytemp = nbrows R -> length z0 = nbrows R -> 1 <= nsweeps -> 1 <= chunk -> init <> INIT_A_NONE -> ut = false \/ nthr = 1 ->
      nok (scalar_ilu0_apply R lu (scale_used ssqrt true (nbrows R) (dense R)) ytemp nsweeps chunk ut nthr init r z0) (fun '(_, z') => z' = z).
Proof.
  intros (HM & Hnf & Hsq & lu0 & L0 & P0 & X0) Hv. pose proof HM as (Hw & Hd & Hs).
  destruct (compute_sequential ssqrt sabs R Hw Hd Hs Hv true) as (lu & _ & _ & Hc).
  destruct (C29_compute_sequential F O Fi ssqrt sabs R true HM Hv) as (lu1 & _ & _ & Hu & Hc1).
  destruct (C57_direct_solver F O Fi ssqrt sabs R true HM Hv Hnf ltac:(auto)) as (lu2 & Hc2 & Hsolve).
  set (gs0 := replicate (nbrows R) s0). assert (length gs0 = nbrows R) as Hg0 by apply replicate_length.
  assert (lu = lu1 /\ lu = lu2) as [E1 E2].
  { assert (INIT_F_NONE <> INIT_F_SGS) by discriminate. split.
    - destruct (nok_agree _ _ _ (Hc 1 1 false 1 INIT_F_NONE false (vals R) gs0 ilu_new ltac:(auto) Hv Hg0 ltac:(congruence) ltac:(lia) ltac:(lia) ltac:(auto))
        (Hc1 1 1 false 1 INIT_F_NONE false (vals R) gs0 Hv Hg0 ltac:(lia) ltac:(lia) ltac:(auto) ltac:(auto))) as ([st i] & [-> _] & [E _]).
      simpl in E. congruence.
    - destruct (nok_agree _ _ _ (Hc 1 1 false 1 INIT_F_NONE false (vals R) gs0 ilu_new ltac:(auto) Hv Hg0 ltac:(congruence) ltac:(lia) ltac:(lia) ltac:(auto))
        (Hc2 1 1 false 1 INIT_F_NONE false (vals R) gs0 Hv Hg0 ltac:(lia) ltac:(lia) ltac:(auto) ltac:(auto))) as ([st i] & [-> _] & [E _]).
      simpl in E. congruence. }
  assert (lu0 = lu1) as E0 by (apply Hu; auto). rewrite <- E2 in Hsolve. rewrite E0, <- E1 in P0.
  exists lu. intros r Hr. destruct (Hsolve P0 r Hr) as (z & Hz1 & Hz2 & Hz3). exists z.
  split; [exact Hz1|]. split; [exact Hz2|]. split; [|exact Hz3].
  intros k chunk ut nthr finit ilu gs Hi Hg Hf Hk Hch Hseq.
  set (st := IluState (Some ilu) (Some gs) (positions R)).
  assert (ready 1 true R 1 st) as Hrd.
  { exists ilu. split; [reflexivity|]. split; [lia|]. split; [reflexivity|]. simpl. split; [reflexivity|lia]. }
  pose proof (Hc k chunk ut nthr finit false ilu gs st ltac:(auto) Hi Hg ltac:(congruence) Hk Hch Hseq) as H.
  assert (nok (ndo (ilu, scale, i) := scalar_ilu0_factorize ssqrt sabs R (positions R) k chunk ut nthr finit false ilu (Some gs) in
       nret (IluState (Some ilu) scale (positions R), i))
     (fun '(st', i) => st' = IluState (Some lu) (Some (scaling_list ssqrt R 1)) (positions R) /\ (i = None <-> false = false))) as H'.
  { eapply nok_iff; [|exact H]. intros out. symmetry.
    exact (compute_old ssqrt sabs R k chunk ut nthr finit true false ilu gs st ilu eq_refl eq_refl out). }
  assert (nok (nbind (scalar_ilu0_factorize ssqrt sabs R (positions R) k chunk ut nthr finit false ilu (Some gs))
       (fun a => nret (match a with (ilu, scale, i) => (IluState (Some ilu) scale (positions R), i) end)))
     (fun '(st', i) => st' = IluState (Some lu) (Some (scaling_list ssqrt R 1)) (positions R) /\ (i = None <-> false = false))) as H2.
  { eapply nok_iff; [|exact H']. intros out. apply nbind_ext_r. intros [[? ?] ?]. intros; reflexivity. }
  eapply nok_mono; [apply (nok_ret_inv _ _ _ H2)|].
  intros [[lu' sc] i] [E _]. injection E as -> ->. split; [reflexivity|]. unfold scale_used. f_equal. apply scaling_dense, HM.
Qed.
(** ** C59. A new object and any ordering. Supposed: ILU(0) is a direct solver for the
    reordered matrix (and its diagonal indices are valid, compare C20). *)

(** What compute, then apply, return for a right-hand side [r]: with y the solution of
    R y = P r (R: the reordered matrix; (P r)(i) = r(rp i)), entry i of the result is y(cp i). *)
Theorem C59_reordered_apply :
  forall (F : Type) (O : SOps F) (Fi : Field F) ssqrt sabs (M : srmat F) rord cord o r,
  let n := nbrows M in
  mat_ok 1 M -> with_ordering n rord cord o -> length r = n ->
  (forall R, applyOrdering_mat 1 o FORWARD M (Ok R) -> direct_case ssqrt R) ->
  forall k chunk ut nthr finit gi gs,
  length gi = nnz M -> length gs = n -> finit <> INIT_F_SGS -> 1 <= k -> 1 <= chunk -> ut = false \/ nthr = 1 ->
  nok (reordered_compute ssqrt sabs k chunk ut nthr finit gi gs o M ilu_new) (fun '(st, R) =>
    (forall i j, i < n -> j < n -> dense R i j = dense M (oget rord i) (oget cord j)) /\
    exists y pr, length y = n /\ length pr = n /\ is_prod n (dense R) y pr /\ (forall i, i < n -> pr !! i = r !! oget rord i) /\
    forall ytemp rb z0 nsweeps chunk ut nthr init,
      length ytemp = n -> length rb = n -> length z0 = n -> 1 <= nsweeps -> 1 <= chunk -> init <> INIT_A_NONE -> ut = false \/ nthr = 1 ->
      nok (reordered_apply o st R ytemp nsweeps chunk ut nthr init rb r z0) (fun '(_, z) =>
        length z = n /\ forall i, i < n -> z !! i = y !! oget cord i)).
Proof.
  intros F O Fi ssqrt sabs M rord cord o r n HM Ho Hr HR k chunk ut nthr finit gi gs Hgi Hgs Hf Hk Hch Hseq.
  pose proof HM as (Hw & Hnd & Hv). assert (length (vals M) = nnz M) as Hv' by lia. clear Hv. rename Hv' into Hv. pose proof (with_ordering_of _ _ _ _ Ho) as Ho'.
  unfold reordered_compute. simpl st_ilu. cbv iota.
  eapply nok_bind with (P := fun x => length (fst x) = nnz M /\ snd x = Some gs).
  { eapply nok_bind; [apply nok_lift; eapply ok_get; [apply (wf_browptr M _ Hw); lia|exact eq_refl]|]. intros ? <-.
    change (rp M (nbrows M)) with (nnz M). eapply nok_bind; [apply vcopy_spec; [exact Hgi|exact Hv]|]. intros ? ->.
    apply nok_ret. simpl. auto. }
  intros [ilu sc] [Hi Hsc]. simpl in Hi, Hsc. subst sc.
  eapply nok_bind with (P := fun R => applyOrdering_mat 1 o FORWARD M (Ok R) /\ (nbrows R = n /\ nnz R = nnz M /\ mat_ok 1 R /\
    (cord <> None \/ wf_sorted M -> wf_sorted R) /\
    forall i j, i < n -> j < n -> stored 1 R i j = stored 1 M (oget rord i) (oget cord j))).
  { pose proof (C19_forward F O 1 M rord cord o HM Ho) as H. split; [apply H|]. intros x Hx. pose proof (proj2 H x Hx) as Hok.
    destruct x; simpl in *; auto. }
  intros R0 (HR0 & En & Ennz & HM0 & _ & Hst). apply HR in HR0.
  apply nok_bind with (P := fun R => R = alias_end R0); [apply nok_ret; reflexivity|]. intros R ->.
  assert (direct_case ssqrt (alias_end R0)) as HD.
  { destruct HR0 as (([] & Hd0 & Hs0) & Hrest). split; [|exact Hrest]. split; [split; assumption|].
    split; [|exact Hs0]. destruct Hd0; split; assumption. } set (R := alias_end R0) in *.
  assert (nbrows R = n) as EnR by exact En. assert (nnz R = nnz M) as EzR by exact Ennz.
  assert (length (vals R) = nnz R) as HvR.
  { destruct HM0 as (_ & _ & H). subst R. unfold alias_end, nnz in *. simpl in *. lia. }
  assert (forall i j, i < n -> j < n -> dense R i j = dense M (oget rord i) (oget cord j)) as Hden.
  { intros i j Hi' Hj'. specialize (Hst i j Hi' Hj').
    assert (forall (X : srmat F) a b, dense X a b = match stored 1 X a b with Some bl => default s0 (bl !! 0) | None => s0 end) as Hds.
    { intros X a b. unfold dense, stored. destruct (pos X a b) as [p|]; [|reflexivity]. simpl. rewrite lookup_take, lookup_drop by lia.
      f_equal. f_equal. lia. }
    rewrite !Hds. change (stored 1 R i j) with (stored 1 R0 i j). rewrite Hst. reflexivity. }
  pose proof HD as ((HwR & HdR & HsR) & _).
  eapply nok_bind with (P := fun p => p = positions R).
  { apply nok_lift. rewrite (compute_ILU_positions_spec R HwR HdR HsR). reflexivity. }
  intros ? ->.
  destruct (direct_core ssqrt sabs R HD HvR) as (lu & Hcore).
  assert (exists pr, length pr = n /\ (forall i, i < n -> pr !! i = r !! oget rord i)) as (pr & Hpl & Hpr).
  { exists ((fun i => vat r (oget rord i)) <$> seq 0 n). split; [rewrite fmap_length, seq_length; reflexivity|].
    intros i Hi'. rewrite list_lookup_fmap, lookup_seq_lt by exact Hi'. simpl. symmetry. apply vat_Some. rewrite Hr.
    apply (oget_lt n); [apply Ho|exact Hi']. }
  destruct (Hcore pr ltac:(lia)) as (y & Hyl & Hyp & Hfac & Happ). rewrite EnR in *.
  eapply nok_bind; [apply (Hfac k chunk ut nthr finit ilu gs); auto; lia|]. intros [[lu' sc] i'] [-> ->].
  apply nok_ret. split; [exact Hden|]. exists y, pr. split; [exact Hyl|]. split; [exact Hpl|]. split; [exact Hyp|]. split; [exact Hpr|].
  intros ytemp rb z0 nsweeps chunk' ut' nthr' init Hy Hrb Hz0 Hns Hch' Hin Hseq'.
  unfold reordered_apply. simpl st_ilu. simpl st_scale. cbv iota.
  apply nok_bind with (P := fun x => x = lu); [apply nok_lift; reflexivity|]. intros ? ->.
  eapply nok_bind with (P := fun rr => rr = pr).
  { destruct (isRowReordering o) eqn:Erow.
    - eapply nok_bind; [apply vcopy_spec; [rewrite EnR; exact Hrb|lia]|]. intros ? ->.
      eapply nok_mono; [apply (proj1 (C18_apply_vector F O 1 n rord cord o ROW r Ho ltac:(lia)))|]. intros w [Hwl Hw'].
      apply list_eq_lt; [lia|]. intros i Hi'. specialize (Hw' i 0 ltac:(lia) ltac:(lia)).
      rewrite !Nat.mul_1_r, !Nat.add_0_r in Hw'. rewrite Hw'. simpl. symmetry. apply Hpr. lia.
    - apply nok_ret. destruct Ho' as [Hh _]. unfold isRowReordering in Erow.
      apply list_eq_lt; [lia|]. intros i Hi'. rewrite Hpr by lia. destruct rord as [p|]; [|reflexivity]. exfalso.
      destruct Hh as [E [El _]]. rewrite E in Erow. destruct Ho as (O1 & _). simpl in O1.
      rewrite (perm_length _ _ O1), El, Nat.eqb_refl, andb_true_r in Erow. apply Nat.ltb_ge in Erow. lia. }
  intros ? ->.
  eapply nok_bind; [apply (Happ ytemp z0 nsweeps chunk' ut' nthr' init); auto|]. intros [y' z'] ->.
  eapply nok_bind; [apply (proj1 (C18_apply_vector F O 1 n rord cord o COLUMN y Ho ltac:(lia)))|]. intros w [Hwl Hw'].
  apply nok_ret. split; [lia|]. intros i Hi'. specialize (Hw' i 0 ltac:(lia) ltac:(lia)).
  rewrite !Nat.mul_1_r, !Nat.add_0_r in Hw'. exact Hw'.
Qed.
(** If the column ordering is its own inverse (in particular if there is none), apply
    returns the solution of the original system. *)
Theorem C59_solves_if_involution :
  forall (F : Type) (O : SOps F) (Fi : Field F) ssqrt sabs (M : srmat F) rord cord o r,
  let n := nbrows M in
  mat_ok 1 M -> with_ordering n rord cord o -> length r = n ->
  (forall R, applyOrdering_mat 1 o FORWARD M (Ok R) -> direct_case ssqrt R) ->
  (forall i, i < n -> oget cord (oget cord i) = i) ->
  forall k chunk ut nthr finit gi gs,
  length gi = nnz M -> length gs = n -> finit <> INIT_F_SGS -> 1 <= k -> 1 <= chunk -> ut = false \/ nthr = 1 ->
  nok (reordered_compute ssqrt sabs k chunk ut nthr finit gi gs o M ilu_new) (fun '(st, R) =>
    forall ytemp rb z0 nsweeps chunk ut nthr init,
      length ytemp = n -> length rb = n -> length z0 = n -> 1 <= nsweeps -> 1 <= chunk -> init <> INIT_A_NONE -> ut = false \/ nthr = 1 ->
      nok (reordered_apply o st R ytemp nsweeps chunk ut nthr init rb r z0) (fun '(_, z) => is_prod n (dense M) z r)).
Proof.
  intros F O Fi ssqrt sabs M rord cord o r n HM Ho Hr HR Hinv k chunk ut nthr finit gi gs Hgi Hgs Hf Hk Hch Hseq.
  eapply nok_mono; [apply (C59_reordered_apply F O Fi ssqrt sabs M rord cord o r HM Ho Hr HR k chunk ut nthr finit gi gs); auto|].
  intros [st R] (Hden & y & pr & Hyl & Hpl & Hyp & Hpr & Happ). fold n in Hden, Hyl, Hpl, Hyp, Hpr, Happ.
  intros ytemp rb z0 nsweeps chunk' ut' nthr' init H1 H2 H3 H4 H5 H6 H7.
  eapply nok_mono; [apply Happ; auto|]. intros [y' z] [Hzl Hz]. destruct Ho as (O1 & O2 & _).
  intros I HI. destruct (oget_surj n rord I O1 HI) as (i & Hi & <-). specialize (Hyp i Hi).
  assert (vat pr i = vat r (oget rord i)) as E by (unfold vat; rewrite Hpr by exact Hi; reflexivity).
  rewrite <- E, <- Hyp. rewrite (bsum_order n cord _ O2). apply bsum_ext. intros j Hj. rewrite Hden by auto.
  f_equal. unfold vat. rewrite Hz by (apply (oget_lt n); auto). rewrite Hinv by exact Hj. reflexivity.
Qed.

(** In general it does not: for the permuted identity matrix
      0 1 0
      0 0 1
      1 0 0   (stored with its zeros)
    whose columns are put in the order 1,2,0 the reordered matrix is the identity, but every
    application to the first unit vector returns something else than the solution. *)
Lemma perm3 l : l ≡ₚ [0; 1; 2] -> l ∈ [[0; 1; 2]; [0; 2; 1]; [1; 0; 2]; [1; 2; 0]; [2; 0; 1]; [2; 1; 0]].
Proof.
  intros H. pose proof (Permutation_length H) as Hl. destruct l as [|a [|b [|c [|]]]]; try discriminate Hl.
  assert (forall x, x ∈ [a; b; c] -> x = 0 \/ x = 1 \/ x = 2) as Hx.
  { intros x Hin. rewrite H in Hin. rewrite !elem_of_cons, elem_of_nil in Hin. tauto. }
  assert (NoDup [a; b; c]) as Hn by (rewrite H; apply (bool_decide_eq_true_1 (NoDup [0; 1; 2])); reflexivity).
  destruct (Hx a ltac:(rewrite !elem_of_cons; auto)) as [-> |[-> | ->]];
  destruct (Hx b ltac:(rewrite !elem_of_cons; auto)) as [-> |[-> | ->]];
  destruct (Hx c ltac:(rewrite !elem_of_cons; auto)) as [-> |[-> | ->]];
    try (exfalso; rewrite !NoDup_cons, !elem_of_cons, !elem_of_nil in Hn; lia);
    apply elem_of_list_In; simpl; auto 8.
Qed.
Definition exP {F} {O : SOps F} : srmat F :=
  SR [0; 3; 6; 9] [0; 1; 2; 0; 1; 2; 0; 1; 2] [s0; s1; s0; s0; s0; s1; s1; s0; s0] [0; 4; 8] [3; 6; 9] 3 9 9.
Lemma exP_ok {F} {O : SOps F} : mat_ok 1 exP /\ wf_mat exP.
Proof.
  assert (wf_pat exP) as Hw by (apply wfb_pat_ok; reflexivity).
  assert (wf_diag exP) as Hd by (apply wfb_diag_ok; reflexivity).
  assert (wf_sorted exP) as Hs by (apply wfb_sorted_ok; reflexivity).
  split; [|split; auto]. split; [exact Hw|]. split; [apply sorted_nodup, Hs|reflexivity].
Qed.
Definition o120 : ordering := Ordering [] [1; 2; 0] [] [2; 0; 1].
Lemma o120_ok : with_ordering 3 None (Some [1; 2; 0]) o120.
Proof.
  split; [exact I|]. split; [|reflexivity]. apply nodup_perm; [|reflexivity|].
  - apply (bool_decide_eq_true_1 (NoDup [1; 2; 0])). reflexivity.
  - intros x Hx. rewrite !elem_of_cons, elem_of_nil in Hx. lia.
Qed.
Definition exI {F} {O : SOps F} : srmat F :=
  SR [0; 3; 6; 9] [0; 1; 2; 0; 1; 2; 0; 1; 2] [s1; s0; s0; s0; s1; s0; s0; s0; s1] [0; 4; 8] [3; 6; 9] 3 9 9.
Lemma exP_reordered {F} {O : SOps F} R : applyOrdering_mat 1 o120 FORWARD exP (Ok R) -> R = exI.
Proof.
  intros (x & Hx & HR). change (x = Ok exP) in Hx. subst x. change (rename_cols 1 [2; 0; 1] exP (Ok R)) in HR.
  destruct HR as (y & (l & Hl & ->) & HR). apply perm3 in Hl.
  assert (forl l (fun i '(cind, v) =>
      let! lo := get (browptr exP) i in
      let! hi := get (browptr exP) (i + 1) in
      let rsize := hi - lo in
      let! ocinds := mapr (get cind) (range lo hi) in
      let! cind := for_ 0 rsize (fun jj cind =>
        let! oc := get ocinds jj in let! c := get [2; 0; 1] oc in set cind (lo + jj) c) cind in
      sort_inner (1 * 1) rsize lo (cind, v)) (bcolind exP, vals exP) = Ok (bcolind exI, vals exI)) as E.
  { rewrite !elem_of_cons, elem_of_nil in Hl. destruct Hl as [-> |[-> |[-> |[-> |[-> |[-> |[]]]]]]]; vm_compute; reflexivity. }
  rewrite E in HR. injection HR as HR. exact HR.
Qed.
Section Refute.
Context {F : Type} {O : SOps F} {Fi : Field F}.
Add Ring Fr : cring.
Lemma exI_direct ssqrt : ssqrt s1 = s1 -> direct_case ssqrt exI.
Proof.
  intros Hs1.
  assert (wf_mat exI) as HM.
  { split; [apply wfb_pat_ok; reflexivity|]. split; [apply wfb_diag_ok; reflexivity|apply wfb_sorted_ok; reflexivity]. }
  assert (forall i j, i < 3 -> j < 3 -> dense exI i j = if i =? j then s1 else s0) as Hden.
  { intros i j Hi Hj. destruct i as [|[|[|]]]; [| | |lia]; (destruct j as [|[|[|]]]; [| | |lia]); reflexivity. }
  split; [exact HM|]. split.
  { intros i c t Hi Hc. simpl in Hi, Hc. destruct i as [|[|[|]]]; [| | |lia]; (destruct c as [|[|[|]]]; [| | |lia]);
      intros; vm_compute; congruence. }
  split.
  { intros i Hi. simpl in Hi. rewrite Hden, Nat.eqb_refl, Hs1 by auto. apply field_10. }
  exists (vals exI). split; [reflexivity|]. change (entry exI (vals exI)) with (dense exI). split.
  { intros i Hi. simpl in Hi. rewrite Hden, Nat.eqb_refl by auto. apply field_10. }
  assert (sdiv s1 s1 = s1) as Hdv.
  { pose proof (field_div s1 s1 field_10) as H. rewrite smul_1_r in H. exact H. }
  intros i c Hi Hc _. unfold scaled_mat, scale_used, diagonal_scale. simpl nbrows in *.
  assert (forall k, k < 3 -> vat ((fun I => (s1 / ssqrt (dense exI I I))%s) <$> seq 0 3) k = s1) as Hsc.
  { intros k Hk. rewrite vat_fmap_seq by exact Hk. simpl. rewrite Hden, Nat.eqb_refl, Hs1 by auto. exact Hdv. }
  rewrite !Hsc by auto.
  destruct i as [|[|[|]]]; [| | |lia]; (destruct c as [|[|[|]]]; [| | |lia]);
    unfold mprod, unitlower, upper; simpl; rewrite ?Hden by lia; simpl; ring.
Qed.
Lemma exP_wrong (R : srmat F) (y z pr : list F) : length y = 3 -> length z = 3 ->
  (forall i j, i < 3 -> j < 3 -> dense R i j = dense exP (oget None i) (oget (Some [1; 2; 0]) j)) ->
  is_prod 3 (dense R) y pr -> (forall i, i < 3 -> pr !! i = [s1; s0; s0] !! i) ->
  (forall i, i < 3 -> z !! i = y !! oget (Some [1; 2; 0]) i) -> ~ is_prod 3 (dense exP) z [s1; s0; s0].
Proof.
  intros Hyl Hzl Hden Hyp Hpr Hz Hbad. apply (@field_10 F O Fi).
  pose proof (Hbad 0 ltac:(lia)) as B0. pose proof (Hyp 1 ltac:(lia)) as B1. unfold vat at 2 in B1. rewrite Hpr in B1 by lia.
  pose proof (Hyp 2 ltac:(lia)) as B2. unfold vat at 2 in B2. rewrite Hpr in B2 by lia.
  simpl in B0, B1, B2. rewrite !Hden in B1 by lia. rewrite !Hden in B2 by lia.
  assert (vat z 1 = vat y 2) as Z1 by (unfold vat; rewrite Hz by lia; reflexivity).
  rewrite Z1 in B0. revert B0 B1 B2. generalize (vat y 0), (vat y 1), (vat y 2), (vat z 0), (vat z 2). intros a b c d e.
  cbn [oget]. 
  change (dense exP 0 0) with (@s0 F O). change (dense exP 0 1) with (@s1 F O). change (dense exP 0 2) with (@s0 F O).
  unfold vat. simpl. intros B0 B1 B2.
  change (dense exP 2 1) with (@s0 F O) in B2. change (dense exP 2 2) with (@s0 F O) in B2. change (dense exP 2 0) with (@s1 F O) in B2.
  transitivity c; [rewrite <- B0|rewrite <- B2]; ring.
Qed.
End Refute.
Theorem C59_column_ordering_refuted :
  forall (F : Type) (O : SOps F) (Fi : Field F) ssqrt sabs, ssqrt s1 = s1 ->
  exists (M : srmat F) cord o r, mat_ok 1 M /\ wf_mat M /\ with_ordering 3 None (Some cord) o /\ length r = 3 /\
  (forall R, applyOrdering_mat 1 o FORWARD M (Ok R) -> direct_case ssqrt R) /\
  forall k chunk ut nthr finit gi gs,
  length gi = nnz M -> length gs = 3 -> finit <> INIT_F_SGS -> 1 <= k -> 1 <= chunk -> ut = false \/ nthr = 1 ->
  nok (reordered_compute ssqrt sabs k chunk ut nthr finit gi gs o M ilu_new) (fun '(st, R) =>
    forall ytemp rb z0 nsweeps chunk ut nthr init,
      length ytemp = 3 -> length rb = 3 -> length z0 = 3 -> 1 <= nsweeps -> 1 <= chunk -> init <> INIT_A_NONE -> ut = false \/ nthr = 1 ->
      nok (reordered_apply o st R ytemp nsweeps chunk ut nthr init rb r z0) (fun '(_, z) => ~ is_prod 3 (dense M) z r)).
Proof.
  intros F O Fi ssqrt sabs Hs1. exists exP, [1; 2; 0], o120, [s1; s0; s0].
  destruct exP_ok as [HM HW]. split; [exact HM|]. split; [exact HW|]. split; [exact o120_ok|]. split; [reflexivity|].
  assert (forall R, applyOrdering_mat 1 o120 FORWARD exP (Ok R) -> direct_case ssqrt R) as HR.
  { intros R H. apply exP_reordered in H as ->. apply exI_direct, Hs1. }
  split; [exact HR|].
  intros k chunk ut nthr finit gi gs Hgi Hgs Hf Hk Hch Hseq.
  eapply nok_mono; [apply (C59_reordered_apply F O Fi ssqrt sabs exP None (Some [1; 2; 0]) o120 [s1; s0; s0] HM o120_ok eq_refl HR
    k chunk ut nthr finit gi gs); auto|].
  intros [st R] (Hden & y & pr & Hyl & Hpl & Hyp & Hpr & Happ). simpl nbrows in *.
  intros ytemp rb z0 nsweeps chunk' ut' nthr' init H1 H2 H3 H4 H5 H6 H7.
  eapply nok_mono; [apply Happ; auto|]. intros [y' z] [Hzl Hz] Hbad.
  revert Hbad. apply (exP_wrong R y z pr); auto.
Qed.

(** ** Cases that meet the hypotheses *)
(** the matrix 1 1 0 / 2 4 1 / 0 3 1 with rows and columns reversed (an involution) *)
Definition exT : srmat Qc := SR [0; 2; 5; 7] [0; 1; 0; 1; 2; 1; 2] (q <$> [1; 1; 2; 4; 1; 3; 1]%Z) [0; 3; 6] [2; 5; 7] 3 7 7.
Definition exT' : srmat Qc := SR [0; 2; 5; 7] [0; 1; 0; 1; 2; 1; 2] (q <$> [1; 3; 1; 4; 2; 1; 1]%Z) [0; 3; 6] [2; 5; 7] 3 7 7.
Definition exT'_lu : list Qc := [q 1; sdiv (q 3) (q 2); sdiv (q 1) (q 2); sdiv (q 1) (q 4); q 1; q 2; q (-1)].
Definition sqrt14 (x : Qc) : Qc := if Qc_eq_dec x (q 4) then q 2 else x.
Definition o210 : ordering := Ordering [2; 1; 0] [2; 1; 0] [2; 1; 0] [2; 1; 0].
Lemma exT_reordered R : applyOrdering_mat 1 o210 FORWARD exT (Ok R) -> R = exT'.
Proof.
  intros (x & Hx & HR). change (x = forward_rows 1 [2; 1; 0] exT) in Hx.
  assert (forward_rows 1 [2; 1; 0] exT = Ok (SR [0; 2; 5; 7] [1; 2; 0; 1; 2; 0; 1] (q <$> [3; 1; 2; 4; 1; 1; 1]%Z) [0; 3; 6] [2; 5; 7] 3 7 7)) as E
    by reflexivity.
  rewrite E in Hx. subst x. clear E. set (X := SR _ _ _ _ _ _ _ _) in HR. change (rename_cols 1 [2; 1; 0] X (Ok R)) in HR.
  destruct HR as (y & (l & Hl & ->) & HR). apply perm3 in Hl.
  assert (forl l (fun i '(cind, v) =>
      let! lo := get (browptr X) i in
      let! hi := get (browptr X) (i + 1) in
      let rsize := hi - lo in
      let! ocinds := mapr (get cind) (range lo hi) in
      let! cind := for_ 0 rsize (fun jj cind =>
        let! oc := get ocinds jj in let! c := get [2; 1; 0] oc in set cind (lo + jj) c) cind in
      sort_inner (1 * 1) rsize lo (cind, v)) (bcolind X, vals X) = Ok (bcolind exT', vals exT')) as E.
  { rewrite !elem_of_cons, elem_of_nil in Hl. destruct Hl as [-> |[-> |[-> |[-> |[-> |[-> |[]]]]]]]; vm_compute; reflexivity. }
  rewrite E in HR. injection HR as HR. exact HR.
Qed.
Example C59_case :
  mat_ok 1 exT /\ with_ordering 3 (Some [2; 1; 0]) (Some [2; 1; 0]) o210 /\
  (forall R, applyOrdering_mat 1 o210 FORWARD exT (Ok R) -> direct_case sqrt14 R) /\
  (forall i, i < 3 -> oget (Some [2; 1; 0]) (oget (Some [2; 1; 0]) i) = i) /\ sqrt14 s1 = s1.
Proof.
  split; [|split; [|split; [|split]]].
  - split; [apply wfb_pat_ok; reflexivity|]. split; [apply sorted_nodup, wfb_sorted_ok; reflexivity|reflexivity].
  - assert (is_order 3 (Some [2; 1; 0])) as H; [|split; [exact H|split; [exact H|reflexivity]]].
    apply nodup_perm; [|reflexivity|].
    + apply (bool_decide_eq_true_1 (NoDup [2; 1; 0])). reflexivity.
    + intros x Hx. rewrite !elem_of_cons, elem_of_nil in Hx. lia.
  - intros R HR. apply exT_reordered in HR as ->. split; [split; [|split]|].
    + apply wfb_pat_ok; reflexivity.
    + apply wfb_diag_ok; reflexivity.
    + apply wfb_sorted_ok; reflexivity.
    + split.
      * intros i c t Hi Hc. simpl in Hi, Hc. destruct i as [|[|[|]]]; [| | |lia]; destruct c as [|[|[|]]]; try lia;
          destruct t as [|[|]]; try lia; vm_compute; congruence.
      * split; [intros [|[|[|]]] H; [| | |simpl in H; lia]; vm_compute; discriminate|].
        exists exT'_lu. split; [reflexivity|]. split; [intros [|[|[|]]] H; [| | |simpl in H; lia]; vm_compute; discriminate|].
        intros i c Hi Hc _. simpl in Hi, Hc. destruct i as [|[|[|]]]; [| | |lia]; (destruct c as [|[|[|]]]; [| | |lia]);
          apply Qc_is_canon; vm_compute; reflexivity.
  - intros [|[|[|]]] H; [| | |lia]; reflexivity.
  - reflexivity.
Qed.
Print Assumptions C59_reordered_apply.
Print Assumptions C59_solves_if_involution.
Print Assumptions C59_column_ordering_refuted.
