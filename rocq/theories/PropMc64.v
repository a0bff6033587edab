(** * PropMc64: property C73 (orderings and scalings from MC64) *)
From Verif Require Import Base Alg SRMatrix Nd Helpers Reorder ReorderFacts ReorderMain ColMat ColMatFacts PropColMat PropReorder BlockMat PropBlockMat ReorderedIlu IluApply IluFactor IluFactorMain IluApplyMain TriSpec PropReorderedIlu Mc64 Inst.
From Coq Require Import ZArith QArith.Qcanon.
Open Scope nat_scope.

(** ** What MC64 promises (from its documentation) *)
(** lengths of IW and DW it needs *)
Definition needs_iw (job : Z) (n nz : nat) : nat :=
  match job with 2%Z => 4 * n | 3%Z => 10 * n + nz | _ => 5 * n end.
Definition needs_dw (job : Z) (n nz : nat) : nat :=
  match job with 2%Z => n | 3%Z => nz | 4%Z => 2 * n + nz | 5%Z => 3 * n + nz | _ => 0 end.
(** the matrix it is given: 1-based column storage *)
Definition one_based {F} (C : bscmat F) : bscmat F :=
  BSC (S <$> bcolptr C) (S <$> browind C) (cvals C) (Z.succ <$> cdiagind C) (nbcols C).
(** column [t i] is chosen for row [i]; every chosen position is stored *)
Definition transversal {F} (M : srmat F) (t : list nat) : Prop :=
  t ≡ₚ seq 0 (nbrows M) /\ forall i, i < nbrows M -> stored 1 M i (t !!! i) <> None.

Section Promise.
  Context {F : Type} {O : SOps F}.
  (** absolute values, the order, exp *)
  Variables (sabs : F -> F) (le : F -> F -> Prop) (sexp : F -> F).
  (** magnitudes of the chosen entries *)
  Definition chosen (M : srmat F) (t : list nat) : list F := (fun i => sabs (dense M i (t !!! i))) <$> seq 0 (nbrows M).
  (** the magnitudes [d] are at least as good as [d'], in the sense of the job: nothing (1),
      the smallest (2, 3), the sum (4), the product (5) *)
  Definition as_good (job : Z) (d d' : list F) : Prop :=
    match job with
    | 2%Z | 3%Z => forall x, x ∈ d -> exists y, y ∈ d' /\ le y x
    | 4%Z => le (foldr sadd s0 d') (foldr sadd s0 d)
    | 5%Z => le (foldr smul s1 d') (foldr smul s1 d)
    | _ => True
    end.
  (** What it returns when it reports success: cperm holds, 1-based and up to sign, a
      transversal that is best; for job 5 also logarithms u, v of row and column factors with which chosen
      entries get magnitude 1 and no entry a larger one. *)
  Record promised (job : Z) (M : srmat F) (out : mc64_out F) : Prop := {
    pr_len : length (mo_cperm out) = nbrows M;
    pr_trans : mo_info out = 0%Z -> exists t, transversal M t /\
      (forall i, i < nbrows M -> exists c, mo_cperm out !! i = Some c /\ Z.abs c = Z.of_nat (t !!! i + 1)) /\
      (forall t', transversal M t' -> as_good job (chosen M t) (chosen M t')) /\
      (job = 5%Z -> exists u v, (forall i, i < nbrows M -> mo_dw out !! i = Some (u i) /\ mo_dw out !! (nbrows M + i) = Some (v i)) /\
        (forall i, i < nbrows M -> sabs (dense M i (t !!! i) * sexp (u i) * sexp (v (t !!! i)))%s = s1) /\
        (forall i j, i < nbrows M -> j < nbrows M -> le (sabs (dense M i j * sexp (u i) * sexp (v j))%s) s1)) }.
  (** the promise is kept for the matrix [M], given enough room *)
  Definition keeps_promise (job : Z) (mc64ad : Z -> bscmat F -> nat -> nat -> mc64_out F) (M : srmat F) : Prop :=
    forall C liw ldw, is_column_form 1 M C -> needs_iw job (nbrows M) (nnz M) <= liw -> needs_dw job (nbrows M) (nnz M) <= ldw ->
      promised job M (mc64ad job (one_based C) liw ldw).
End Promise.

(** ** What compute leaves *)
(** an MC64 object of this job: no row ordering, factors for job 5 only *)
Definition of_job {F} (job : Z) (m : mc64 F) : Prop :=
  o_rp (mc_ord m) = [] /\ o_irp (mc_ord m) = [] /\
  (job <> 5%Z -> rowscale (mc_scal m) = [] /\ colscale (mc_scal m) = []).
(** the arrays a conversion allocates *)
Definition room_for {F} (M : srmat F) (gp gi : list nat) (gv : list F) (gd : list Z) : Prop :=
  length gp = nbrows M + 1 /\ length gi = nnz M /\ length gv = nnz M * (1 * 1) /\ length gd = nbrows M.

Section Compute.
  Context {F : Type} {O : SOps F}.
  Variables (sabs : F -> F) (le : F -> F -> Prop) (sexp : F -> F).
  Lemma store_spec (job : Z) n (t : list nat) cperm dw sc (u v : nat -> F) :
    t ≡ₚ seq 0 n -> (forall i, i < n -> exists c, cperm !! i = Some c /\ Z.abs c = Z.of_nat (t !!! i + 1)) ->
    (job = 5%Z -> (forall i, i < n -> dw !! i = Some (u i) /\ dw !! (n + i) = Some (v i)) /\ length (rowscale sc) = n /\ length (colscale sc) = n) ->
    ok (mc64_store sexp job n cperm dw sc) (fun '(cp, rs, cs) => cp = t /\
      (job = 5%Z -> rs = (fun i => sexp (u i)) <$> seq 0 n /\ cs = (fun i => sexp (v i)) <$> seq 0 n) /\
      (job <> 5%Z -> rs = rowscale sc /\ cs = colscale sc)).
  Proof.
    intros Ht Hc H5. unfold mc64_store. pose proof (perm_length _ _ Ht) as Hl.
    eapply ok_for_post with (I := fun k '(cp, rs, cs) => length cp = n /\ (forall i, i < k -> cp !! i = Some (t !!! i)) /\
      (job = 5%Z -> length rs = n /\ length cs = n /\ forall i, i < k -> rs !! i = Some (sexp (u i)) /\ cs !! i = Some (sexp (v i))) /\
      (job <> 5%Z -> rs = rowscale sc /\ cs = colscale sc)).
    - lia.
    - split; [apply replicate_length|]. split; [lia|]. split; [|auto]. intros E. destruct (H5 E) as (_ & L1 & L2). split; [exact L1|]. split; [exact L2|lia].
    - intros k [[cp rs] cs] Hk (L & Hcp & Hs5 & Hsn).
      assert (ok (if (job =? 5)%Z then
          let! u := get dw k in let! rs := set rs k (sexp u) in
          let! v := get dw (n + k) in let! cs := set cs k (sexp v) in
          Ok (rs, cs)
        else Ok (rs, cs)) (fun '(rs', cs') => 
          (job = 5%Z -> rs' = <[k := sexp (u k)]> rs /\ cs' = <[k := sexp (v k)]> cs) /\ (job <> 5%Z -> rs' = rs /\ cs' = cs))) as Hfirst.
      { destruct (Z.eqb_spec job 5) as [E|E].
        - destruct (H5 E) as (Hd & _ & _). destruct (Hs5 E) as (L1 & L2 & _). destruct (Hd k ltac:(lia)) as [D1 D2].
          rewrite (proj2 (get_Some _ _ _) D1). cbn [bind]. rewrite set_Ok by lia. cbn [bind].
          rewrite (proj2 (get_Some _ _ _) D2). cbn [bind]. rewrite set_Ok by lia. cbn [bind]. simpl. split; [auto|congruence].
        - simpl. split; [congruence|auto]. }
      eapply ok_bind; [exact Hfirst|]. intros [rs' cs'] [F5 Fn].
      destruct (Hc k ltac:(lia)) as (c & Ec & Ha). rewrite (proj2 (get_Some _ _ _) Ec). cbn [bind].
      destruct (Z.eqb_spec c 0) as [->|Hc0]; [simpl in Ha; lia|]. rewrite set_Ok by lia. cbn [bind].
      assert (Z.abs_nat c - 1 = t !!! k) as -> by lia.
      simpl. split; [rewrite insert_length; exact L|]. split; [|split].
      + intros i Hi. destruct (decide (i = k)) as [->|]; [apply list_lookup_insert; lia|rewrite list_lookup_insert_ne by auto; apply Hcp; lia].
      + intros E. destruct (F5 E) as [-> ->]. destruct (Hs5 E) as (L1 & L2 & Hv). rewrite !insert_length. split; [exact L1|]. split; [exact L2|].
        intros i Hi. destruct (decide (i = k)) as [->|]; [rewrite !list_lookup_insert by lia; auto|rewrite !list_lookup_insert_ne by auto; apply Hv; lia].
      + intros E. destruct (Fn E) as [-> ->]. auto.
    - intros [[cp rs] cs] (L & Hcp & Hs5 & Hsn). split; [|split].
      + apply list_eq_lt; [lia|]. intros i Hi. rewrite Hcp by lia. symmetry. apply (perm_get n); [exact Ht|lia].
      + intros E. destruct (Hs5 E) as (L1 & L2 & Hv). split; (apply list_eq_lt; [rewrite fmap_length, seq_length; lia|]; intros i Hi;
          rewrite list_lookup_fmap, lookup_seq_lt by lia; simpl; apply Hv; lia).
      + exact Hsn.
  Qed.
  Lemma fresize_length n (v : list F) : length (fresize n v) = n.
  Proof. unfold fresize. rewrite app_length, take_length, replicate_length. lia. Qed.
  Lemma column_with_ordering n (t ic : list nat) : t ≡ₚ seq 0 n -> invertPermutationVector t = Ok ic -> with_ordering n None (Some t) (Ordering [] t [] ic).
  Proof.
    intros Ht Hi. split; [exact Logic.I|]. split; [exact Ht|].
    pose proof (setOrdering_spec n None (Some t) Logic.I Ht) as H. apply ok_inv in H as (o & E & Ho). rewrite E. f_equal.
    unfold setOrdering in E. cbn [bind] in E. destruct (set_half t (o_cp ordering_new) (o_icp ordering_new) n) as [[p ip]| | |] eqn:E2; try discriminate.
    cbn [bind] in E. injection E as <-. simpl.
    pose proof (set_half_spec n t [] [] Ht) as Hs. simpl in E2. rewrite E2 in Hs. simpl in Hs. destruct Hs as (-> & Hip).
    pose proof (invertPermutationVector_spec n t Ht) as Hv. rewrite Hi in Hv. simpl in Hv. f_equal.
    destruct Hip as [L1 Q1]. destruct Hv as [L2 Q2]. apply list_eq_lt; [lia|]. intros x Hx.
    destruct (perm_surj n t x Ht ltac:(lia)) as (i & Hil & Ex). pose proof (perm_get n t i Ht Hil) as Eg. rewrite Ex in Eg. injection Eg as Eg.
    specialize (Q1 i Hil). specialize (Q2 i Hil). rewrite <- Eg in Q1, Q2. congruence.
  Qed.
End Compute.

(** [m'] holds the column ordering [t] of the matrix [M] and, for job 5 only, factors that
    bring the chosen entries to magnitude 1 and no entry above 1 *)
Record holds_ordering {F} {O : SOps F} sabs le (job : Z) (M : srmat F) (t : list nat) (m' : mc64 F) : Prop := {
  ho_trans : transversal M t;
  ho_best : forall t', transversal M t' -> as_good le job (chosen sabs M t) (chosen sabs M t');
  ho_ord : with_ordering (nbrows M) None (Some t) (mc_ord m');
  ho_none : job <> 5%Z -> mc_scal m' = Scaling [] [];
  ho_both : job = 5%Z -> length (rowscale (mc_scal m')) = nbrows M /\ length (colscale (mc_scal m')) = nbrows M;
  ho_unit : job = 5%Z -> forall i, i < nbrows M ->
    sabs (dense M i (t !!! i) * fac (rowscale (mc_scal m')) i * fac (colscale (mc_scal m')) (t !!! i))%s = s1;
  ho_bound : job = 5%Z -> forall i j, i < nbrows M -> j < nbrows M ->
    le (sabs (dense M i j * fac (rowscale (mc_scal m')) i * fac (colscale (mc_scal m')) j)%s) s1 }.

(** If MC64 keeps its promise for [M], compute either ends normally, with the column
    storage freed, and leaves a best column ordering (and the factors of job 5); or it ends with one of
    MC64's errors. The work arrays are as long as MC64 needs. The object may have been used
    before, successfully or not. *)
Theorem C73_compute : forall (F : Type) (O : SOps F) sabs le sexp mc64ad job (M : srmat F) gp gi gv gd m,
  (1 <= job <= 5)%Z -> mat_ok 1 M -> room_for M gp gi gv gd -> keeps_promise sabs le sexp job mc64ad M -> of_job job m ->
  nok (mc64_compute sexp mc64ad job gp gi gv gd M m) (fun '(m', e, unfreed) => of_job job m' /\ e <> InvalidJob /\
    (e = Computed -> unfreed = 0 /\ (exists t, holds_ordering sabs le job M t m') /\
      (job = 5%Z -> forall s i a, s = rowscale (mc_scal m') \/ s = colscale (mc_scal m') -> s !! i = Some a -> exists x, a = sexp x))).
Proof.
  intros F O sabs le sexp mc64ad job M gp gi gv gd m Hjob (Hw & Hnd & Hv) (G1 & G2 & G3 & G4) Hkeep (Hrp & Hirp & Hnone).
  unfold mc64_compute. set (n := nbrows M) in *.
  eapply nok_bind; [apply (C11_convert_1based F O 1 M gp gi gv gd); auto|]. intros C1 (C & HC & ->). fold (one_based C).
  eapply nok_bind; [apply nok_lift; eapply ok_get; [apply (wf_browptr M _ Hw); lia|exact eq_refl]|]. intros ? <-. change (rp M n) with (nnz M).
  assert (exists liw ldw, getWorkSizes job n (nnz M) = Some (liw, ldw) /\ needs_iw job n (nnz M) <= liw /\ needs_dw job n (nnz M) <= ldw) as (liw & ldw & -> & N1 & N2).
  { assert (job = 1 \/ job = 2 \/ job = 3 \/ job = 4 \/ job = 5)%Z as [->|[->|[->|[->| ->]]]] by lia; do 2 eexists; (split; [reflexivity|]);
      cbn [needs_iw needs_dw]; lia. }
  cbv zeta. pose proof (Hkeep C liw ldw HC N1 N2) as [Plen Pt]. set (out := mc64ad job (one_based C) liw ldw) in *. clearbody out.
  set (sc := if (job =? 5)%Z then _ else _).
  assert (job = 5%Z -> length (rowscale sc) = n /\ length (colscale sc) = n) as Hsc5.
  { intros E. unfold sc. rewrite E. simpl. split; apply fresize_length. }
  assert (job <> 5%Z -> rowscale sc = [] /\ colscale sc = []) as Hscn.
  { intros E. unfold sc. destruct (Z.eqb_spec job 5); [contradiction|]. auto. }
  clearbody sc.
  destruct (Z.eqb_spec (mo_info out) 0) as [E0|E0]; simpl negb; cbv iota.
  2: { apply nok_ret. split; [split; [exact Hrp|]; split; [exact Hirp|exact Hscn]|].
       destruct (mo_info out =? 1)%Z; split; discriminate. }
  destruct (Pt E0) as (t & Ht & Hcp & Hbest & H5).
  assert (exists u v, job = 5%Z -> (forall i, i < n -> mo_dw out !! i = Some (u i) /\ mo_dw out !! (n + i) = Some (v i)) /\
        (forall i, i < n -> sabs (dense M i (t !!! i) * sexp (u i) * sexp (v (t !!! i)))%s = s1) /\
        (forall i j, i < n -> j < n -> le (sabs (dense M i j * sexp (u i) * sexp (v j))%s) s1)) as (u & v & Huv).
  { destruct (Z.eq_dec job 5) as [E|E]; [|exists (fun _ => s0), (fun _ => s0); congruence].
    destruct (H5 E) as (u & v & H). exists u, v. intros _. exact H. }
  destruct Ht as [Hp Hst]. fold n in Hp, Hst, Hcp.
  eapply nok_bind; [apply nok_lift; apply (store_spec sexp job n t _ _ sc u v Hp Hcp)|].
  { intros E. split; [apply (Huv E)|apply (Hsc5 E)]. }
  intros [[cp rs] cs] (-> & S5 & Sn).
  pose proof (invertPermutationVector_spec n t Hp) as Hinv. apply ok_inv in Hinv as (ic & Ei & Hinv).
  eapply nok_bind; [apply nok_lift; rewrite Ei; apply (ok_ret ic (fun x => x = ic)); reflexivity|]. intros ? ->. apply nok_ret.
  split; [|split; [discriminate|]].
  { split; [exact Hrp|]. split; [exact Hirp|]. intros E. destruct (Sn E) as [-> ->]. exact (Hscn E). }
  intros _. split; [reflexivity|]. split.
  - exists t. split.
    + split; [exact Hp|exact Hst].
    + exact Hbest.
    + simpl. rewrite Hrp, Hirp. apply column_with_ordering; assumption.
    + intros E. simpl. destruct (Sn E) as [-> ->]. destruct (Hscn E) as [-> ->]. reflexivity.
    + intros E. simpl. destruct (S5 E) as [-> ->]. rewrite !fmap_length, !seq_length. split; reflexivity.
    + intros E i Hi. simpl. destruct (S5 E) as [-> ->]. fold n in Hi. assert (t !!! i < n) by (apply perm_get_lt; auto).
      unfold fac. rewrite !list_lookup_fmap, !lookup_seq_lt by auto. simpl. apply (Huv E), Hi.
    + intros E i j Hi Hj. simpl. destruct (S5 E) as [-> ->]. fold n in Hi, Hj.
      unfold fac. rewrite !list_lookup_fmap, !lookup_seq_lt by auto. simpl. apply (Huv E); auto.
  - intros E s i a Hs Ha. simpl in Hs. destruct (S5 E) as [E1 E2]. destruct Hs as [-> | ->]; rewrite ?E1, ?E2 in Ha;
      apply list_lookup_fmap_inv in Ha as (y & -> & _); eauto.
Qed.

(** ** The reordered and scaled matrix *)
Lemma dense_stored1 {F} {O : SOps F} (X : srmat F) a b : dense X a b = match stored 1 X a b with Some bl => default s0 (bl !! 0) | None => s0 end.
Proof.
  unfold dense, stored. destruct (pos X a b) as [p|]; [|reflexivity]. simpl. rewrite lookup_take, lookup_drop by lia. f_equal. f_equal. lia.
Qed.
Lemma stored1_one {F} {O : SOps F} (X : srmat F) a b bl : mat_ok 1 X -> a < nbrows X -> stored 1 X a b = Some bl -> bl = [dense X a b].
Proof.
  intros (Hw & _ & Hv) Ha E. rewrite dense_stored1, E. unfold stored in E. destruct (pos X a b) as [p|] eqn:Ep; [|discriminate].
  injection E as <-. apply pos_Some in Ep as [Hr _]; [|exact Ha]. pose proof (inrow_lt X a p Hw Hr) as Hlt.
  assert (length (take (1 * 1) (drop (p * (1 * 1)) (vals X))) = 1) as Hl by (rewrite take_length, drop_length; lia).
  destruct (take _ _) as [|x [|]]; simpl in *; try lia. reflexivity.
Qed.
Section Reordered.
  Context {F : Type} {O : SOps F}.
  Variables (sabs : F -> F) (le : F -> F -> Prop).
  Lemma ho_scaling job (M : srmat F) t m : holds_ordering sabs le job M t m -> scaling_ok (nbrows M) (mc_scal m).
  Proof.
    intros H. destruct (Z.eq_dec job 5) as [E|E]; [destruct (ho_both _ _ _ _ _ _ H E); split; right; auto|].
    rewrite (ho_none _ _ _ _ _ _ H E). split; left; reflexivity.
  Qed.
  (** the factor applied to an entry *)
  Definition scaled_entry (m : mc64 F) (i j : nat) (x : F) : F :=
    scl FORWARD (colscale (mc_scal m)) j (scl FORWARD (rowscale (mc_scal m)) i x).
  Lemma scaled5 job (M : srmat F) t m i j x : holds_ordering sabs le job M t m -> job = 5%Z -> i < nbrows M -> j < nbrows M ->
    scaled_entry m i j x = (x * fac (rowscale (mc_scal m)) i * fac (colscale (mc_scal m)) j)%s.
  Proof.
    intros H E Hi Hj. destruct (ho_both _ _ _ _ _ _ H E) as [L1 L2]. unfold scaled_entry, scl, fac.
    destruct (lookup_lt_is_Some_2 (rowscale (mc_scal m)) i ltac:(lia)) as [a ->].
    destruct (lookup_lt_is_Some_2 (colscale (mc_scal m)) j ltac:(lia)) as [b ->]. reflexivity.
  Qed.
  Lemma scaledn job (M : srmat F) t m i j x : holds_ordering sabs le job M t m -> job <> 5%Z -> scaled_entry m i j x = x.
  Proof. intros H E. unfold scaled_entry. rewrite (ho_none _ _ _ _ _ _ H E). reflexivity. Qed.
End Reordered.
(** The matrix reorderScale makes (forward) with a computed object. Position (i, j) of the
    result holds position (i, t j) of [M], times the factors of job 5. Every diagonal
    position is stored. Jobs 1 to 4: in the sense of the job, the diagonal is as good as any that
    a choice of entries of [M] gives. Job 5: the diagonal has magnitude 1 and no stored
    entry has a larger one. *)
Theorem C73_reordered : forall (F : Type) (O : SOps F) sabs le job (M : srmat F) t m,
  let n := nbrows M in
  mat_ok 1 M -> holds_ordering sabs le job M t m ->
  nok (mc64_reorderScale m FORWARD M) (fun R => nbrows R = n /\ mat_ok 1 R /\ wf_sorted R /\
    (forall i j, i < n -> j < n -> stored 1 R i j =
      option_map (map (fun x => if (job =? 5)%Z then (x * fac (rowscale (mc_scal m)) i * fac (colscale (mc_scal m)) (t !!! j))%s else x))
        (stored 1 M i (t !!! j))) /\
    (forall i, i < n -> stored 1 R i i <> None) /\
    (job <> 5%Z -> forall t', transversal M t' -> as_good le job ((fun i => sabs (dense R i i)) <$> seq 0 n) (chosen sabs M t')) /\
    (job = 5%Z -> (forall i, i < n -> sabs (dense R i i) = s1) /\
      forall i j, i < n -> j < n -> stored 1 R i j <> None -> le (sabs (dense R i j)) s1)).
Proof.
  intros F O sabs le job M t m n HM H. unfold mc64_reorderScale, reorderScale.
  eapply nok_bind; [apply (C21_matrix F O 1 M (mc_scal m) FORWARD HM (ho_scaling _ _ _ _ _ _ H))|]. intros M1 (E1 & E2 & E3).
  assert (mat_ok 1 M1) as HM1.
  { rewrite E1. destruct HM as ([W1 W2 W3 W4 W5] & Hn2 & Hv2). split; [split; auto|]. split; [exact Hn2|]. simpl. rewrite E2. exact Hv2. }
  assert (nbrows M1 = n) as En by (rewrite E1; reflexivity).
  pose proof (ho_ord _ _ _ _ _ _ H) as Ho. fold n in Ho. rewrite <- En in Ho.
  eapply nok_mono; [apply (C19_forward F O 1 M1 None (Some t) (mc_ord m) HM1 Ho)|]. rewrite En in *.
  intros R (Rn & _ & HR & Hs & Hst). specialize (Hs ltac:(left; discriminate)).
  pose proof (ho_trans _ _ _ _ _ _ H) as [Hp Ht]. fold n in Hp, Ht.
  assert (forall j, j < n -> t !!! j < n) as Htl by (intros; apply perm_get_lt; auto).
  assert (forall i j, i < n -> j < n -> stored 1 R i j = option_map (map (scaled_entry m i (t !!! j))) (stored 1 M i (t !!! j))) as HS.
  { intros i j Hi Hj. rewrite Hst by auto. simpl. apply E3; auto. }
  assert (forall i j, i < n -> j < n -> stored 1 R i j =
      option_map (map (fun x => if (job =? 5)%Z then (x * fac (rowscale (mc_scal m)) i * fac (colscale (mc_scal m)) (t !!! j))%s else x))
        (stored 1 M i (t !!! j))) as HS'.
  { intros i j Hi Hj. rewrite HS by auto. destruct (stored 1 M i (t !!! j)) as [bl|]; [|reflexivity]. simpl. f_equal.
    apply map_ext. intros x. destruct (Z.eqb_spec job 5) as [E|E];
      [apply (scaled5 sabs le job M t m i (t !!! j) x H E); auto|apply (scaledn sabs le job M t m _ _ x H E)]. }
  assert (forall i j, i < n -> j < n -> stored 1 M i (t !!! j) <> None -> dense R i j =
    if (job =? 5)%Z then (dense M i (t !!! j) * fac (rowscale (mc_scal m)) i * fac (colscale (mc_scal m)) (t !!! j))%s else dense M i (t !!! j)) as HD.
  { intros i j Hi Hj Hne. rewrite (dense_stored1 R), HS' by auto. destruct (stored 1 M i (t !!! j)) as [bl|] eqn:Eb; [|contradiction].
    rewrite (stored1_one M i (t !!! j) bl HM Hi Eb). reflexivity. }
  split; [exact Rn|]. split; [exact HR|]. split; [exact Hs|]. split; [exact HS'|]. split; [|split].
  - intros i Hi. rewrite HS' by auto. specialize (Ht i Hi). destruct (stored 1 M i (t !!! i)); [discriminate|contradiction].
  - intros E t' Ht'. pose proof (ho_best _ _ _ _ _ _ H t' Ht') as Hb.
    assert ((fun i => sabs (dense R i i)) <$> seq 0 n = chosen sabs M t) as ->; [|exact Hb].
    unfold chosen. apply list_fmap_ext. intros k i Hk. apply lookup_seq in Hk as [-> Hk]. simpl. rewrite HD by auto.
    destruct (Z.eqb_spec job 5); [contradiction|reflexivity].
  - intros E. split.
    + intros i Hi. rewrite HD by auto. rewrite E. simpl. apply (ho_unit _ _ _ _ _ _ H E i Hi).
    + intros i j Hi Hj Hne. assert (stored 1 M i (t !!! j) <> None) as Hne'.
      { rewrite HS' in Hne by auto. destruct (stored 1 M i (t !!! j)); [discriminate|contradiction]. }
      rewrite HD by auto. rewrite E. simpl. apply (ho_bound _ _ _ _ _ _ H E); auto.
Qed.
Lemma nd_assoc {A B C} (m : nd A) (k : A -> nd B) (h : B -> nd C) o : nbind (nbind m k) h o <-> nbind m (fun a => nbind (k a) h) o.
Proof.
  split.
  - intros (x & (y & Hy & Hx) & Hh). exists y. split; [exact Hy|]. destruct y as [a| | |]; [exists x; auto| | |]; subst x; exact Hh.
  - intros (y & Hy & H). destruct y as [a| |msg|].
    + destruct H as (x & Hx & Hh). exists x. split; [exists (Ok a); auto|exact Hh].
    + exists UB. split; [exists UB; auto|exact H].
    + exists (Throw msg). split; [exists (Throw msg); auto|exact H].
    + exists Fuel. split; [exists Fuel; auto|exact H].
Qed.
(** inverse after forward gives the matrix back *)
Theorem C73_round_trip : forall (F : Type) (O : SOps F) (R : Field F) sabs le job (M : srmat F) t m,
  mat_ok 1 M -> wf_sorted M -> holds_ordering sabs le job M t m ->
  factors_nz (rowscale (mc_scal m)) -> factors_nz (colscale (mc_scal m)) ->
  nok (ndo R := mc64_reorderScale m FORWARD M in mc64_reorderScale m INVERSE R) (fun M' => M' = M).
Proof.
  intros F O Fi sabs le job M t m HM Hso H N1 N2. unfold mc64_reorderScale, reorderScale.
  pose proof (ho_scaling _ _ _ _ _ _ H) as Hsc.
  assert (nok (applyScaling_mat 1 (mc_scal m) FORWARD M) (fun M1 =>
    (nbrows M1 = nbrows M /\ mat_ok 1 M1 /\ wf_sorted M1) /\ nok (applyScaling_mat 1 (mc_scal m) INVERSE M1) (fun M' => M' = M))) as Hfirst.
  { pose proof (C21_matrix F O 1 M (mc_scal m) FORWARD HM Hsc) as HF.
    pose proof (proj1 (C21_round_trip F O Fi 1 M (mc_scal m) HM Hsc N1 N2)) as [_ HRT].
    split; [apply HF|]. intros o Ho. pose proof (proj2 HF o Ho) as Hok. destruct o as [M1| | |]; simpl in Hok |- *; try contradiction.
    destruct Hok as (E1 & E2 & _).
    assert (nbrows M1 = nbrows M /\ mat_ok 1 M1 /\ wf_sorted M1) as (P1 & P2 & P3).
    { rewrite E1. destruct HM as ([W1 W2 W3 W4 W5] & Hn2 & Hv2). split; [reflexivity|]. split; [split; [split; auto|]; split; [exact Hn2|]; simpl; rewrite E2; exact Hv2|].
      exact Hso. }
    split; [auto|]. rewrite <- P1 in Hsc. split; [apply (C21_matrix F O 1 M1 (mc_scal m) INVERSE P2 Hsc)|].
    intros o Ho'. apply HRT. exists (Ok M1). split; assumption. }
  pose proof (ho_ord _ _ _ _ _ _ H) as Hord.
  assert (nok (ndo M1 := applyScaling_mat 1 (mc_scal m) FORWARD M in
     ndo R := applyOrdering_mat 1 (mc_ord m) FORWARD M1 in ndo M2 := applyOrdering_mat 1 (mc_ord m) INVERSE R in
     applyScaling_mat 1 (mc_scal m) INVERSE M2) (fun M' => M' = M)) as Hmain.
  { eapply nok_bind; [exact Hfirst|]. intros M1 ((P1 & P2 & P3) & P4). rewrite <- P1 in Hord.
    assert (nok (ndo M2 := (ndo R := applyOrdering_mat 1 (mc_ord m) FORWARD M1 in applyOrdering_mat 1 (mc_ord m) INVERSE R) in
      applyScaling_mat 1 (mc_scal m) INVERSE M2) (fun M' => M' = M)) as Hin.
    { eapply nok_bind; [apply (proj1 (C19_round_trip F O 1 M1 None (Some t) (mc_ord m) P2 Hord))|].
      intros M2 [_ E]. rewrite (E P3). exact P4. }
    revert Hin. apply nok_iff. intros o. symmetry. apply nd_assoc. }
  revert Hmain. apply nok_iff. intros o. apply nd_assoc.
Qed.

(** ** What goes wrong *)
(** An error, of MC64 or of the job number, leaves the four arrays of the column storage
    allocated for ever. *)
Theorem C73_failure_leaks_refuted : forall (F : Type) (O : SOps F) sexp mc64ad job (M : srmat F) gp gi gv gd m,
  mat_ok 1 M -> room_for M gp gi gv gd ->
  (exists p, getWorkSizes job (nbrows M) (nnz M) = p /\ match p with None => True | Some (liw, ldw) => forall C, mo_info (mc64ad job C liw ldw) <> 0%Z end) ->
  nok (mc64_compute sexp mc64ad job gp gi gv gd M m) (fun '(_, e, unfreed) => e <> Computed /\ unfreed = 4).
Proof.
  intros F O sexp mc64ad job M gp gi gv gd m (Hw & Hnd & Hv) (G1 & G2 & G3 & G4) (p & Ep & Hp). unfold mc64_compute.
  eapply nok_bind; [apply (C11_convert_1based F O 1 M gp gi gv gd); auto|]. intros C1 (C & HC & ->). fold (one_based C).
  eapply nok_bind; [apply nok_lift; eapply ok_get; [apply (wf_browptr M _ Hw); lia|exact eq_refl]|]. intros ? <-. change (rp M (nbrows M)) with (nnz M).
  rewrite Ep. destruct p as [[liw ldw]|].
  - specialize (Hp (one_based C)). destruct (Z.eqb_spec (mo_info (mc64ad job (one_based C) liw ldw)) 0); [contradiction|].
    simpl. apply nok_ret. split; [|reflexivity]. destruct (_ =? 1)%Z; discriminate.
  - apply nok_ret. split; [discriminate|reflexivity].
Qed.
(** An object whose job number is not one of 1 to 5 must not be used after the exception:
    its ordering is half made, and applying it to the matrix reads outside an array. *)
Definition c_arrays {F} {O : SOps F} (M : srmat F) : list nat * list nat * list F * list Z :=
  (replicate (nbrows M + 1) 0, replicate (nnz M) 0, replicate (nnz M * (1 * 1)) s0, replicate (nbrows M) 0%Z).
Lemma c_arrays_room {F} {O : SOps F} (M : srmat F) : let '(gp, gi, gv, gd) := c_arrays M in room_for M gp gi gv gd.
Proof. unfold c_arrays, room_for. rewrite !replicate_length. auto. Qed.
Theorem C73_failed_object_refuted : forall sexp mc64ad gp gi gv gd, room_for exM gp gi gv gd ->
  nok (mc64_compute sexp mc64ad 6%Z gp gi gv gd exM mc64_new) (fun '(m', e, _) => e = InvalidJob /\
    ~ nok (mc64_reorderScale m' FORWARD exM) (fun _ => True)).
Proof.
  intros sexp mc64ad gp gi gv gd (G1 & G2 & G3 & G4). destruct C19_case as ((Hw & Hnd & Hv) & _ & _). unfold mc64_compute.
  eapply nok_bind; [apply (C11_convert_1based Qc _ 1 exM gp gi gv gd); auto|]. intros C1 _.
  eapply nok_bind; [apply nok_lift; eapply ok_get; [apply (wf_browptr exM _ Hw); lia|exact eq_refl]|]. intros ? <-.
  apply nok_ret. split; [reflexivity|]. intros [_ H]. specialize (H UB). simpl in H. apply H. clear H.
  exists (Ok exM). split.
  { exists (Ok (vals exM)). split; [reflexivity|]. exists (Ok (vals exM)). split; reflexivity. }
  exists (Ok exM). split; [reflexivity|]. exists UB. split; [|reflexivity]. exists [0; 1; 2]. split; reflexivity.
Qed.
(** The inquiries for the diagonal read the positions the diagonal had before. The matrix
        2 1 .
        . 1 10
        1 . 2
    and job 4 (largest sum of magnitudes): the diagonal of the result has the sum 12 and that of the
    matrix 5, but the inquiry returns 3 for the result: less than for the matrix. *)
Definition exJ : srmat Qc := SR [0; 2; 4; 6] [0; 1; 1; 2; 0; 2] (q <$> [2; 1; 1; 10; 1; 2]%Z) [0; 2; 5] [2; 4; 6] 3 6 6.
Definition mc120 : Z -> bscmat Qc -> nat -> nat -> mc64_out Qc := fun _ _ _ _ => McOut 0%Z 3 [2; 3; 1]%Z [].
Lemma exJ_ok : mat_ok 1 exJ /\ wf_mat exJ.
Proof.
  assert (wf_pat exJ) as Hw by (apply wfb_pat_ok; reflexivity).
  assert (wf_diag exJ) as Hd by (apply wfb_diag_ok; reflexivity).
  assert (wf_sorted exJ) as Hs by (apply wfb_sorted_ok; reflexivity).
  split; [|split; auto]. split; [exact Hw|]. split; [apply sorted_nodup, Hs|reflexivity].
Qed.
Lemma keeps120 sexp (M : srmat Qc) job : nbrows M = 3 -> job <> 5%Z -> (forall i, i < 3 -> stored 1 M i ([1; 2; 0] !!! i) <> None) ->
  (forall t', t' ∈ [[0; 1; 2]; [0; 2; 1]; [1; 0; 2]; [1; 2; 0]; [2; 0; 1]; [2; 1; 0]] -> (forall i, i < 3 -> stored 1 M i (t' !!! i) <> None) ->
     as_good Qcle job (chosen Qabs M [1; 2; 0]) (chosen Qabs M t')) ->
  keeps_promise Qabs Qcle sexp job mc120 M.
Proof.
  intros En Hj Hst Hb C liw ldw HC _ _. split; [exact (eq_sym En)|]. intros _. rewrite En. exists [1; 2; 0].
  assert ([1; 2; 0] ≡ₚ seq 0 3) as Hp by apply o120_ok.
  split; [split; rewrite En; assumption|]. split; [|split; [|congruence]].
  - intros i Hi. destruct i as [|[|[|]]]; [| | |lia]; eexists; split; reflexivity.
  - intros t' [P1 P2]. rewrite En in P1, P2. apply Hb; [apply perm3, P1|exact P2].
Qed.
Lemma compute120 sexp (M : srmat Qc) gp gi gv gd : nbrows M = 3 -> mat_ok 1 M -> room_for M gp gi gv gd ->
  nok (mc64_compute sexp mc120 4%Z gp gi gv gd M mc64_new) (fun x => x = (Mc o120 (Scaling [] []), Computed, 0)).
Proof.
  intros En (Hw & Hnd & Hv) (G1 & G2 & G3 & G4). unfold mc64_compute.
  eapply nok_bind; [apply (C11_convert_1based Qc _ 1 M gp gi gv gd); auto|]. intros C1 _.
  eapply nok_bind; [apply nok_lift; eapply ok_get; [apply (wf_browptr M _ Hw); lia|exact eq_refl]|]. intros ? <-. rewrite En.
  cbn [getWorkSizes]. unfold mc120. cbn [mo_info mo_cperm mo_dw Z.eqb negb].
  eapply nok_bind with (P := fun x => x = ([1; 2; 0], [], [])); [apply nok_lift; reflexivity|]. intros ? ->.
  eapply nok_bind with (P := fun x => x = [2; 0; 1]); [apply nok_lift; reflexivity|]. intros ? ->. apply nok_ret. reflexivity.
Qed.
Lemma exJ_keeps sexp : keeps_promise Qabs Qcle sexp 4%Z mc120 exJ.
Proof.
  apply keeps120; [reflexivity|discriminate|..].
  - intros i Hi. destruct i as [|[|[|]]]; [| | |lia]; vm_compute; discriminate.
  - intros t' Ht' Hs. rewrite !elem_of_cons, elem_of_nil in Ht'.
    destruct Ht' as [-> |[-> |[-> |[-> |[-> |[-> |[]]]]]]];
      try (vm_compute; discriminate); exfalso; first [apply (Hs 0); [lia|vm_compute; reflexivity]|apply (Hs 1); [lia|vm_compute; reflexivity]|apply (Hs 2); [lia|vm_compute; reflexivity]].
Qed.
Definition exJ' : srmat Qc := SR [0; 2; 4; 6] [0; 2; 0; 1; 1; 2] (q <$> [1; 2; 1; 10; 2; 1]%Z) [0; 2; 5] [2; 4; 6] 3 6 6.
Lemma exJ_reordered : nok (mc64_reorderScale (Mc o120 (Scaling [] [])) FORWARD exJ) (fun R => R = exJ').
Proof.
  unfold mc64_reorderScale, reorderScale.
  eapply nok_bind with (P := fun M => M = exJ).
  { eapply nok_bind with (P := fun v => v = vals exJ); [apply nok_ret; reflexivity|]. intros ? ->.
    eapply nok_bind with (P := fun v => v = vals exJ); [apply nok_ret; reflexivity|]. intros ? ->. apply nok_ret. reflexivity. }
  intros ? ->. eapply nok_bind with (P := fun M => M = exJ); [apply nok_ret; reflexivity|]. intros ? ->.
  change (nok (rename_cols 1 [2; 0; 1] exJ) (fun R => R = exJ')).
  eapply nok_bind with (P := fun x => x = (bcolind exJ', vals exJ')); [|intros ? ->; apply nok_ret; reflexivity].
  split; [eexists; exists [0; 1; 2]; split; reflexivity|]. intros o (l & Hl & ->). apply perm3 in Hl.
  rewrite !elem_of_cons, elem_of_nil in Hl. destruct Hl as [-> |[-> |[-> |[-> |[-> |[-> |[]]]]]]]; vm_compute; reflexivity.
Qed.
Theorem C73_inquiry_refuted : forall sexp gp gi gv gd, room_for exJ gp gi gv gd ->
  mat_ok 1 exJ /\ wf_mat exJ /\ keeps_promise Qabs Qcle sexp 4%Z mc120 exJ /\
  nok (ndo (m, e, _) := mc64_compute sexp mc120 4%Z gp gi gv gd exJ mc64_new in mc64_reorderScale m FORWARD exJ) (fun R =>
    foldr sadd s0 ((fun i => Qabs (dense R i i)) <$> seq 0 3) = q 12 /\
    getDiagonalAbsSum Qabs exJ = Ok (q 5) /\ getDiagonalAbsSum Qabs R = Ok (q 3)).
Proof.
  intros sexp gp gi gv gd Hg. destruct exJ_ok as [H1 H2]. split; [exact H1|]. split; [exact H2|]. split; [apply exJ_keeps|].
  eapply nok_bind; [apply (compute120 sexp exJ gp gi gv gd eq_refl H1 Hg)|]. intros ? ->.
  eapply nok_mono; [apply exJ_reordered|]. intros R ->.
  split; [apply Qc_is_canon; vm_compute; reflexivity|]. split; f_equal.
Qed.
(** ILU on the MC64 ordering. exP (a permutation matrix) and job 4: the reordered matrix is
    the identity, for which ILU(0) is a direct solver; what the preconditioner returns is not
    the solution (it applies the column ordering forwards to the solution; see C59). *)
Lemma exP_keeps sexp : keeps_promise Qabs Qcle sexp 4%Z mc120 exP.
Proof.
  apply keeps120; [reflexivity|discriminate|..].
  - intros i Hi. destruct i as [|[|[|]]]; [| | |lia]; vm_compute; discriminate.
  - intros t' Ht' _. rewrite !elem_of_cons, elem_of_nil in Ht'.
    destruct Ht' as [-> |[-> |[-> |[-> |[-> |[-> |[]]]]]]]; vm_compute; discriminate.
Qed.
Theorem C73_preconditioner_refuted : forall sexp ssqrt gp gi gv gd, ssqrt s1 = s1 -> room_for exP gp gi gv gd ->
  keeps_promise Qabs Qcle sexp 4%Z mc120 exP /\
  nok (mc64_compute sexp mc120 4%Z gp gi gv gd exP mc64_new) (fun '(m, e, _) => e = Computed /\
    (forall R, applyOrdering_mat 1 (mc_ord m) FORWARD exP (Ok R) -> R = exI) /\
    forall k chunk ut nthr finit gi gs,
    length gi = nnz (@exP Qc _) -> length gs = 3 -> finit <> INIT_F_SGS -> 1 <= k -> 1 <= chunk -> ut = false \/ nthr = 1 ->
    nok (reordered_compute ssqrt Qabs k chunk ut nthr finit gi gs (mc_ord m) exP ilu_new) (fun '(st, R) =>
      forall ytemp rb z0 nsweeps chunk ut nthr init,
        length ytemp = 3 -> length rb = 3 -> length z0 = 3 -> 1 <= nsweeps -> 1 <= chunk -> init <> INIT_A_NONE -> ut = false \/ nthr = 1 ->
        nok (reordered_apply (mc_ord m) st R ytemp nsweeps chunk ut nthr init rb [s1; s0; s0] z0)
            (fun '(_, z) => ~ is_prod 3 (dense exP) z [s1; s0; s0]))).
Proof.
  intros sexp ssqrt gp gi gv gd Hs1 Hg. split; [apply exP_keeps|]. destruct (@exP_ok Qc _) as [HM HW].
  eapply nok_mono; [apply (compute120 sexp exP gp gi gv gd eq_refl HM Hg)|]. intros ? ->. split; [reflexivity|].
  split; [exact exP_reordered|]. cbn [mc_ord].
  assert (forall R, applyOrdering_mat 1 o120 FORWARD exP (Ok R) -> direct_case ssqrt R) as HR.
  { intros R H. apply exP_reordered in H as ->. apply exI_direct, Hs1. }
  intros k chunk ut nthr finit gi' gs Hgi Hgs Hf Hk Hch Hseq.
  eapply nok_mono; [apply (C59_reordered_apply Qc _ _ ssqrt Qabs exP None (Some [1; 2; 0]) o120 [s1; s0; s0] HM o120_ok eq_refl HR
    k chunk ut nthr finit gi' gs); auto|].
  intros [st R] (Hden & y & pr & Hyl & Hpl & Hyp & Hpr & Happ). simpl nbrows in *.
  intros ytemp rb z0 nsweeps chunk' ut' nthr' init H1 H2 H3 H4 H5 H6 H7.
  eapply nok_mono; [apply Happ; auto|]. intros [y' z] [Hzl Hz] Hbad.
  revert Hbad. apply (exP_wrong R y z pr); auto.
Qed.

(** ** A case that meets the hypotheses: job 5 on exJ, the function "exp" being the identity *)
Definition mc5 : Z -> bscmat Qc -> nat -> nat -> mc64_out Qc := fun _ _ _ _ =>
  McOut 0%Z 3 [(-2); 3; 1]%Z [sdiv (q 1) (q 2); sdiv (q 1) (q 5); q 1; q 1; q 2; sdiv (q 1) (q 2)].
Example C73_case : (1 <= 5 <= 5)%Z /\ mat_ok 1 exJ /\ (let '(gp, gi, gv, gd) := c_arrays exJ in room_for exJ gp gi gv gd) /\
  keeps_promise Qabs Qcle (fun x => x) 5%Z mc5 exJ /\ of_job 5%Z (@mc64_new Qc).
Proof.
  split; [lia|]. split; [apply exJ_ok|]. split; [apply c_arrays_room|]. split; [|split; [reflexivity|]; split; [reflexivity|]; intros []; reflexivity].
  intros C liw ldw HC _ _. split; [reflexivity|]. intros _. exists [1; 2; 0].
  split; [split; [apply o120_ok|intros i Hi; simpl in Hi; destruct i as [|[|[|]]]; [| | |lia]; vm_compute; discriminate]|].
  split; [intros i Hi; simpl in Hi; destruct i as [|[|[|]]]; [| | |lia]; eexists; split; reflexivity|]. split.
  - intros t' [P1 Hs]. apply perm3 in P1. rewrite !elem_of_cons, elem_of_nil in P1.
    destruct P1 as [-> |[-> |[-> |[-> |[-> |[-> |[]]]]]]];
      try (vm_compute; discriminate); exfalso; first [apply (Hs 0); [simpl; lia|vm_compute; reflexivity]|apply (Hs 1); [simpl; lia|vm_compute; reflexivity]|apply (Hs 2); [simpl; lia|vm_compute; reflexivity]].
  - intros _. exists (fun i => nth i [sdiv (q 1) (q 2); sdiv (q 1) (q 5); q 1] s0), (fun i => nth i [q 1; q 2; sdiv (q 1) (q 2)] s0).
    split; [|split].
    + intros i Hi. simpl in Hi. destruct i as [|[|[|]]]; [| | |lia]; split; reflexivity.
    + intros i Hi. simpl in Hi. destruct i as [|[|[|]]]; [| | |lia]; apply Qc_is_canon; vm_compute; reflexivity.
    + intros i j Hi Hj. simpl in Hi, Hj. destruct i as [|[|[|]]]; [| | |lia]; (destruct j as [|[|[|]]]; [| | |lia]); vm_compute; discriminate.
Qed.
Print Assumptions C73_compute.
Print Assumptions C73_reordered.
Print Assumptions C73_round_trip.
Print Assumptions C73_failure_leaks_refuted.
Print Assumptions C73_failed_object_refuted.
Print Assumptions C73_inquiry_refuted.
Print Assumptions C73_preconditioner_refuted.
