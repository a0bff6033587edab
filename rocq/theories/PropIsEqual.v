(** * C84: comparing two matrix objects *)
From Coq Require Import ZArith QArith.Qcanon Sorting.Sorted.
From Verif Require Import Base Alg SRMatrix Nd TriSpec TriFacts BlockMat Reorder ReorderFacts ReorderMain Inst MatObj MatObjSpec
  IluFactorMain PropMatvec PropBlockMat PropConstruct PropReorder PropMatObj.
Open Scope nat_scope.

(** ** When two matrices are the same, up to a tolerance *)
Section Spec.
  Context {F : Type} {O : SOps F} (sabs : F -> F) (slt : F -> F -> bool).
  Definition same_places (a1 a2 : amat F) : Prop :=
    a_rows a1 = a_rows a2 /\ forall i j, i < a_rows a1 -> j < a_rows a1 -> a_stored a1 i j = a_stored a2 i j.
  (** no entry in the pattern differs by more than [tol] *)
  Definition close_to (bs : nat) (tol : F) (a1 a2 : amat F) (A1 A2 : nat -> nat -> F) : Prop :=
    same_places a1 a2 /\ forall I J, I < a_rows a1 * bs -> J < a_rows a1 * bs -> a_stored a1 (I / bs) (J / bs) = true ->
      slt tol (sabs (A1 I J - A2 I J)%s) = false.
End Spec.

(** ** Sorted rows: the pattern determines the arrays *)
Section Arrays.
  Context {F : Type}.
  Implicit Type M : srmat F.
  Definition rowl M i : list nat := (fun k => col M (rp M i + k)) <$> seq 0 (rp M (i + 1) - rp M i).
  Lemma rowl_at M i k : k < rp M (i + 1) - rp M i -> rowl M i !! k = Some (col M (rp M i + k)).
  Proof. intros Hk. unfold rowl. rewrite list_lookup_fmap, lookup_seq_lt by exact Hk. reflexivity. Qed.
  Lemma sorted_unique (l1 l2 : list nat) : StronglySorted lt l1 -> StronglySorted lt l2 -> (forall x, x ∈ l1 <-> x ∈ l2) -> l1 = l2.
  Proof.
    revert l2. induction l1 as [|x l1 IH]; intros [|y l2] H1 H2 H; try reflexivity.
    - exfalso. apply (elem_of_nil y). apply H. left.
    - exfalso. apply (elem_of_nil x). apply H. left.
    - inversion H1 as [|x' l1' S1 F1]; subst. inversion H2 as [|y' l2' S2 F2]; subst. rewrite Forall_forall in F1, F2.
      assert (x = y) as ->.
      { assert (x ∈ y :: l2) as Hx by (apply H; left). assert (y ∈ x :: l1) as Hy by (apply H; left). apply elem_of_cons in Hx as [|Hx]; [assumption|]. apply elem_of_cons in Hy as [|Hy]; [auto|].
        specialize (F1 y Hy). specialize (F2 x Hx). lia. }
      f_equal. apply IH; try assumption. intros z. specialize (H z). rewrite !elem_of_cons in H. split; intros Hz.
      + destruct (proj1 H (or_intror Hz)) as [-> |]; [|assumption]. specialize (F1 y Hz). lia.
      + destruct (proj2 H (or_intror Hz)) as [-> |]; [|assumption]. specialize (F2 y Hz). lia.
  Qed.
  Lemma rowl_sorted M i : wf_sorted M -> i < nbrows M -> StronglySorted lt (rowl M i).
  Proof.
    intros Hs Hi. unfold rowl.
    assert (forall m s, s + m = rp M (i + 1) - rp M i -> StronglySorted lt ((fun k => col M (rp M i + k)) <$> seq s m)) as H.
    { induction m as [|m IH]; intros s E; cbn [seq fmap list_fmap]; constructor; [apply IH; lia|]. rewrite Forall_fmap. apply Forall_forall. intros k Hk.
      apply elem_of_seq in Hk. simpl. apply (Hs i); lia. }
    apply H. lia.
  Qed.
  Lemma rowl_elem M i j : wf_nodup M -> i < nbrows M -> j ∈ rowl M i <-> pos M i j <> None.
  Proof.
    intros Hn Hi. unfold rowl. rewrite elem_of_list_fmap. split.
    - intros (k & -> & Hk). apply elem_of_seq in Hk. rewrite (pos_of M i (rp M i + k) Hn); [discriminate|]. split; lia.
    - intros H. destruct (pos M i j) as [p|] eqn:E; [|congruence]. apply pos_Some in E as [[_ Hp] <-]; [|exact Hi]. exists (p - rp M i).
      split; [f_equal; lia|]. apply elem_of_seq. lia.
  Qed.
  Lemma arrays_unique M1 M2 : wf_pat M1 -> wf_pat M2 -> wf_sorted M1 -> wf_sorted M2 -> nbrows M1 = nbrows M2 ->
    (forall i j, i < nbrows M1 -> j < nbrows M1 -> pos M1 i j <> None <-> pos M2 i j <> None) -> browptr M1 = browptr M2 /\ bcolind M1 = bcolind M2.
  Proof.
    intros W1 W2 S1 S2 En Hp. pose proof (sorted_nodup M1 S1) as N1. pose proof (sorted_nodup M2 S2) as N2.
    assert (forall i, i < nbrows M1 -> rowl M1 i = rowl M2 i) as Hrow.
    { intros i Hi. apply sorted_unique; [apply rowl_sorted; assumption|apply rowl_sorted; [assumption|lia]|]. intros j. rewrite !rowl_elem by (try assumption; lia).
      destruct (decide (j < nbrows M1)) as [Hj|Hj]; [apply Hp; assumption|].
      assert (forall M, wf_pat M -> nbrows M = nbrows M1 -> pos M i j = None) as Hno.
      { intros M W E. apply pos_None; [lia|]. intros p Hr <-. pose proof (wf_col M W p (inrow_lt M i p W Hr)). lia. }
      rewrite !Hno by (try assumption; lia). tauto. }
    assert (forall i, i <= nbrows M1 -> rp M1 i = rp M2 i) as Hrp.
    { induction i as [|i IH]; intros Hi; [rewrite (wf_0 _ W1), (wf_0 _ W2); reflexivity|]. specialize (IH ltac:(lia)).
      pose proof (f_equal length (Hrow i ltac:(lia))) as L. unfold rowl in L. rewrite !fmap_length, !seq_length in L. replace (S i) with (i + 1) by lia.
      pose proof (wf_mono M1 W1 i ltac:(lia)). pose proof (wf_mono M2 W2 i ltac:(lia)). lia. }
    assert (nnz M1 = nnz M2) as Ez by (unfold nnz; rewrite <- En; apply Hrp; lia).
    split.
    - apply list_eq_lt; [rewrite (wf_len _ W1), (wf_len _ W2); lia|]. intros i Hi. rewrite (wf_len _ W1) in Hi.
      rewrite (wf_browptr M1 i W1), (wf_browptr M2 i W2) by lia. f_equal. apply Hrp. lia.
    - apply list_eq_lt; [rewrite (wf_clen _ W1), (wf_clen _ W2); exact Ez|]. intros p Hlt. rewrite (wf_clen _ W1) in Hlt.
      rewrite (wf_bcolind M1 p W1), (wf_bcolind M2 p W2) by lia. f_equal. destruct (inrow_exists M1 p W1 Hlt) as (i & Hi & Hr).
      pose proof (Hrp i ltac:(lia)) as E1. pose proof (Hrp (i + 1) ltac:(lia)) as E2.
      pose proof (rowl_at M1 i (p - rp M1 i) ltac:(lia)) as R1. pose proof (rowl_at M2 i (p - rp M1 i) ltac:(lia)) as R2. rewrite Hrow, R2 in R1 by exact Hi. injection R1 as R1.
      replace (rp M1 i + (p - rp M1 i)) with p in R1 by lia. replace (rp M2 i + (p - rp M1 i)) with p in R1 by lia. auto.
  Qed.
End Arrays.

Section C84.
  Context {F : Type} {O : SOps F} (sabs : F -> F) (slt : F -> F -> bool).
  Notation isEqual := (mat_isEqual sabs slt).
  (** values which correspond *)
  Lemma close_vals cl tol (a1 a2 : amat F) M1 M2 A1 A2 : 0 < width cl -> refines cl a1 M1 -> refines cl a2 M2 -> is_matrix cl a1 A1 -> is_matrix cl a2 A2 ->
    nbrows M1 = nbrows M2 -> browptr M1 = browptr M2 -> bcolind M1 = bcolind M2 ->
    close sabs slt tol (vals M1) (vals M2) <->
    forall I J, I < a_rows a1 * width cl -> J < a_rows a1 * width cl -> a_stored a1 (I / width cl) (J / width cl) = true -> slt tol (sabs (A1 I J - A2 I J)%s) = false.
  Proof.
    intros Hbs R1 R2 HA1 HA2 En Ep Ec. set (bs := width cl) in *.
    assert (forall i j, pos M2 i j = pos M1 i j) as Epos by (intros i j; unfold pos, col, rp; rewrite Ep, Ec; reflexivity).
    pose proof R1 as [S1 _]. pose proof R2 as [S2 _]. pose proof (sh_rows _ _ _ S1) as E1. pose proof (sh_rows _ _ _ S2) as E2.
    assert (forall i j p r c, i < nbrows M1 -> j < nbrows M1 -> pos M1 i j = Some p -> r < bs -> c < bs ->
      A1 (i * bs + r) (j * bs + c) = vat (vals M1) (p * (bs * bs) + (r * bs + c)) /\ A2 (i * bs + r) (j * bs + c) = vat (vals M2) (p * (bs * bs) + (r * bs + c))) as Hv.
    { intros i j p r c Hi Hj Hp Hr Hc.
      rewrite <- (refines_represents cl a1 M1 A1 Hbs R1 HA1) by (fold bs; nia). rewrite <- (refines_represents cl a2 M2 A2 Hbs R2 HA2) by (fold bs; nia). fold bs.
      unfold bdense. rewrite Epos. replace ((i * bs + r) / bs) with i by (rewrite (Nat.mul_comm i), (Nat.add_comm _ r), Nat.mul_comm, Nat.div_add, Nat.div_small; lia).
      replace ((j * bs + c) / bs) with j by (rewrite (Nat.add_comm _ c), Nat.div_add, Nat.div_small; lia).
      replace ((i * bs + r) mod bs) with r by (rewrite (Nat.add_comm _ r), Nat.mod_add, Nat.mod_small; lia).
      replace ((j * bs + c) mod bs) with c by (rewrite (Nat.add_comm _ c), Nat.mod_add, Nat.mod_small; lia). rewrite Hp. unfold bent, vat, lay. split; reflexivity. }
    unfold close. rewrite (sh_vals _ _ _ S1). fold bs. split.
    - intros H I J HI HJ Hst. rewrite <- E1 in HI, HJ.
      assert (I / bs < nbrows M1) as Hi by (apply Nat.div_lt_upper_bound; lia). assert (J / bs < nbrows M1) as Hj by (apply Nat.div_lt_upper_bound; lia).
      pose proof (Nat.mod_upper_bound I bs ltac:(lia)) as Hr. pose proof (Nat.mod_upper_bound J bs ltac:(lia)) as Hc.
      assert (pos M1 (I / bs) (J / bs) <> None) as Hne by (apply (sh_stored _ _ _ S1); [rewrite <- E1; assumption..|exact Hst]).
      destruct (pos M1 (I / bs) (J / bs)) as [p|] eqn:Hp; [|congruence]. destruct (Hv _ _ p (I mod bs) (J mod bs) Hi Hj Hp Hr Hc) as [V1 V2].
      pose proof (Nat.div_mod I bs ltac:(lia)) as DI. pose proof (Nat.div_mod J bs ltac:(lia)) as DJ. rewrite (Nat.mul_comm bs) in DI, DJ. rewrite <- DI, <- DJ in V1, V2.
      rewrite V1, V2. apply H. apply pos_Some in Hp as [Hin _]; [|exact Hi]. pose proof (inrow_lt M1 _ p (sh_pat _ _ _ S1) Hin). nia.
    - intros H q Hq. set (p := q / (bs * bs)). set (k := q mod (bs * bs)). assert (0 < bs * bs) as Hbb by nia.
      pose proof (Nat.div_mod q (bs * bs) ltac:(lia)) as Dq. fold p k in Dq. pose proof (Nat.mod_upper_bound q (bs * bs) ltac:(lia)) as Hk. fold k in Hk.
      assert (p < nnz M1) as Hp by (apply Nat.div_lt_upper_bound; lia). destruct (inrow_exists M1 p (sh_pat _ _ _ S1) Hp) as (i & Hin). pose proof Hin as [Hi _].
      pose proof (wf_col M1 (sh_pat _ _ _ S1) p Hp) as Hj. pose proof (pos_of M1 i p (sh_nodup _ _ _ S1) Hin) as Hpos.
      pose proof (Nat.mod_upper_bound k bs ltac:(lia)) as Hc. assert (k / bs < bs) as Hr by (apply Nat.div_lt_upper_bound; lia). pose proof (Nat.div_mod k bs ltac:(lia)) as Dk.
      destruct (Hv i (col M1 p) p (k / bs) (k mod bs) Hi Hj Hpos Hr Hc) as [V1 V2]. replace (p * (bs * bs) + (k / bs * bs + k mod bs)) with q in V1, V2 by lia.
      rewrite <- V1, <- V2. apply H; [rewrite <- E1; nia|rewrite <- E1; nia|].
      replace ((i * bs + k / bs) / bs) with i by (rewrite (Nat.add_comm (i * bs)), Nat.div_add, (Nat.div_small (k / bs)); lia).
      replace ((col M1 p * bs + k mod bs) / bs) with (col M1 p) by (rewrite (Nat.add_comm (_ * bs)), Nat.div_add, (Nat.div_small (k mod bs)); lia).
      apply (sh_stored _ _ _ S1); [rewrite <- E1; assumption..|]. rewrite Hpos. discriminate.
  Qed.
  Lemma same_pos cl (a1 a2 : amat F) M1 M2 : refines cl a1 M1 -> refines cl a2 M2 ->
    same_places a1 a2 <-> nbrows M1 = nbrows M2 /\ forall i j, i < nbrows M1 -> j < nbrows M1 -> pos M1 i j <> None <-> pos M2 i j <> None.
  Proof.
    intros [S1 _] [S2 _]. pose proof (sh_rows _ _ _ S1) as E1. pose proof (sh_rows _ _ _ S2) as E2. unfold same_places. split; intros [En H].
    - split; [congruence|]. intros i j Hi Hj. rewrite (sh_stored _ _ _ S1), (sh_stored _ _ _ S2), H by congruence. reflexivity.
    - split; [congruence|]. intros i j Hi Hj. specialize (H i j ltac:(congruence) ltac:(congruence)). rewrite (sh_stored _ _ _ S1), (sh_stored _ _ _ S2) in H by congruence.
      destruct (a_stored a1 i j), (a_stored a2 i j); try reflexivity; exfalso; [discriminate (proj1 H eq_refl)|discriminate (proj2 H eq_refl)].
  Qed.
  Lemma flags cl tol (a1 a2 : amat F) M1 M2 A1 A2 : 0 < width cl -> refines cl a1 M1 -> refines cl a2 M2 -> is_matrix cl a1 A1 -> is_matrix cl a2 A2 ->
    ok (isEqual cl tol M1 M2) (fun '(f0, f1, f2, f3, f4) =>
      (f0 = true <-> a_rows a1 = a_rows a2) /\
      (f0 = true -> f1 = true -> f2 = true -> same_places a1 a2) /\
      (f0 = true -> f1 = true -> f2 = true -> f3 = true <-> close_to sabs slt (width cl) tol a1 a2 A1 A2) /\
      (f0 = true -> f1 = true -> f4 = true <-> diagind M1 = diagind M2) /\
      (cl = None -> same_places a1 a2 -> f0 = true /\ f1 = true /\ f2 = true)).
  Proof.
    intros Hbs R1 R2 HA1 HA2. pose proof R1 as [S1 _]. pose proof R2 as [S2 _]. pose proof (sh_rows _ _ _ S1) as E1. pose proof (sh_rows _ _ _ S2) as E2.
    eapply ok_mono; [apply (C56_flags sabs slt (width cl) tol M1 M2); [apply S1|apply S2|apply S1|apply S2|apply S1|apply S2]|].
    intros [[[[f0 f1] f2] f3] f4] (H0 & H1 & H2).
    assert (f0 = true -> f1 = true -> nbrows M1 = nbrows M2 /\ browptr M1 = browptr M2 /\ nnz M1 = nnz M2) as H01.
    { intros X0 X1. assert (nbrows M1 = nbrows M2) as En by (apply H0, X0). assert (browptr M1 = browptr M2) as Ep by (apply H1; assumption).
      split; [exact En|]. split; [exact Ep|]. unfold nnz, rp. rewrite En, Ep. reflexivity. }
    assert (f0 = true -> f1 = true -> f2 = true -> same_places a1 a2) as Hsame.
    { intros X0 X1 X2. destruct (H01 X0 X1) as (En & Ep & Ez). apply (same_pos cl a1 a2 M1 M2 R1 R2). split; [exact En|]. intros i j _ _.
      assert (pos M2 i j = pos M1 i j) as ->; [|reflexivity]. unfold pos, col, rp. rewrite Ep, (proj1 (proj1 (H2 En Ez)) X2). reflexivity. }
    split; [rewrite H0; split; congruence|]. split; [exact Hsame|]. split; [|split].
    - intros X0 X1 X2. destruct (H01 X0 X1) as (En & Ep & Ez). destruct (H2 En Ez) as (H2' & H3 & _). rewrite H3.
      rewrite (close_vals cl tol a1 a2 M1 M2 A1 A2 Hbs R1 R2 HA1 HA2 En Ep (proj1 H2' X2)). unfold close_to. specialize (Hsame X0 X1 X2). tauto.
    - intros X0 X1. destruct (H01 X0 X1) as (En & Ep & Ez). apply (H2 En Ez).
    - intros Ecl Hs. apply (same_pos cl a1 a2 M1 M2 R1 R2) in Hs as [En Hs].
      destruct (arrays_unique M1 M2) as [Ep Ec]; try assumption; [apply S1|apply S2|apply S1, Ecl|apply S2, Ecl|].
      assert (nnz M1 = nnz M2) as Ez by (unfold nnz, rp; rewrite En, Ep; reflexivity). split; [apply H0, En|]. split; [apply H1; assumption|]. apply (H2 En Ez), Ec.
  Qed.
  Lemma diag_unique (M1 M2 : srmat F) : wf_nodup M1 -> wf_diag M1 -> wf_diag M2 -> nbrows M1 = nbrows M2 -> browptr M1 = browptr M2 -> bcolind M1 = bcolind M2 -> diagind M1 = diagind M2.
  Proof.
    intros Hn [L1 D1] [L2 D2] En Ep Ec. apply list_eq_lt; [congruence|]. intros i Hi. rewrite L1 in Hi.
    rewrite (list_lookup_lookup_total_lt (diagind M1) i), (list_lookup_lookup_total_lt (diagind M2) i) by congruence. f_equal.
    destruct (D1 i Hi) as [D11 D12]. rewrite En in Hi. destruct (D2 i Hi) as [D21 D22]. rewrite <- En in Hi. apply (Hn i); [exact Hi|split; assumption| |].
    - split; [exact Hi|]. unfold rp, dg in *. rewrite Ep. exact D21.
    - unfold dg, col in *. rewrite D12, Ec. auto.
  Qed.

  Context {R : CRing F}.
  (** Scalar class, two objects with any histories: the first flag says whether the numbers of rows are the same, the first three whether
      the patterns are the same too, the first four whether moreover no entry differs by more than the tolerance. The fifth is true if the patterns
      are the same and both objects know where their diagonals are. *)
  Theorem C84_scalar tol (h1 h2 : list (mcall F)) old1 old2 A1 A2 : legal_history None h1 -> legal_history None h2 ->
    let a1 := acalls None h1 anew in let a2 := acalls None h2 anew in is_matrix None a1 A1 -> is_matrix None a2 A2 ->
    nok (ndo M1 := mcalls None h1 old1 in ndo M2 := mcalls None h2 old2 in nlift (isEqual None tol M1 M2)) (fun '(f0, f1, f2, f3, f4) =>
      (f0 = true <-> a_rows a1 = a_rows a2) /\
      (f0 && f1 && f2 = true <-> same_places a1 a2) /\
      (f0 && f1 && f2 && f3 = true <-> close_to sabs slt 1 tol a1 a2 A1 A2) /\
      (same_places a1 a2 -> a_diag a1 = true -> a_diag a2 = true -> f4 = true)).
  Proof.
    intros Hl1 Hl2 a1 a2 HA1 HA2. eapply nok_bind; [apply (history_ok None h1 old1 ltac:(simpl; lia) Hl1)|]. fold a1. intros M1 R1.
    eapply nok_bind; [apply (history_ok None h2 old2 ltac:(simpl; lia) Hl2)|]. fold a2. intros M2 R2. apply nok_lift.
    eapply ok_mono; [apply (flags None tol a1 a2 M1 M2 A1 A2 ltac:(simpl; lia) R1 R2 HA1 HA2)|]. cbn [width].
    intros [[[[f0 f1] f2] f3] f4] (H0 & H1 & H2 & H3 & H4). specialize (H4 eq_refl). split; [exact H0|]. split; [|split].
    - rewrite !andb_true_iff. split; [intros [[X0 X1] X2]; auto|]. intros Hs. destruct (H4 Hs) as (-> & -> & ->). auto.
    - rewrite !andb_true_iff. split; [intros [[[X0 X1] X2] X3]; apply H2; auto|]. intros Hc. destruct (H4 (proj1 Hc)) as (X0 & X1 & X2). split; [auto|]. apply H2; auto.
    - intros Hs D1 D2. destruct (H4 Hs) as (X0 & X1 & X2). apply H3; auto. pose proof R1 as [S1 _]. pose proof R2 as [S2 _].
      apply (same_pos None a1 a2 M1 M2 R1 R2) in Hs as [En Hs].
      destruct (arrays_unique M1 M2) as [Ep Ec]; try assumption; [apply S1|apply S2|apply S1, eq_refl|apply S2, eq_refl|].
      apply diag_unique; try assumption; [apply S1|apply (sh_diag _ _ _ S1 D1)|apply (sh_diag _ _ _ S2 D2)].
  Qed.
  (** Both classes: what is reported equal is the same, up to the tolerance *)
  Theorem C84_sound cl tol (h1 h2 : list (mcall F)) old1 old2 A1 A2 : 0 < width cl -> legal_history cl h1 -> legal_history cl h2 ->
    let a1 := acalls cl h1 anew in let a2 := acalls cl h2 anew in is_matrix cl a1 A1 -> is_matrix cl a2 A2 ->
    nok (ndo M1 := mcalls cl h1 old1 in ndo M2 := mcalls cl h2 old2 in nlift (isEqual cl tol M1 M2)) (fun '(f0, f1, f2, f3, f4) =>
      (f0 = true <-> a_rows a1 = a_rows a2) /\
      (f0 && f1 && f2 = true -> same_places a1 a2) /\
      (f0 && f1 && f2 && f3 = true -> close_to sabs slt (width cl) tol a1 a2 A1 A2)).
  Proof.
    intros Hbs Hl1 Hl2 a1 a2 HA1 HA2. eapply nok_bind; [apply (history_ok cl h1 old1 Hbs Hl1)|]. fold a1. intros M1 R1.
    eapply nok_bind; [apply (history_ok cl h2 old2 Hbs Hl2)|]. fold a2. intros M2 R2. apply nok_lift.
    eapply ok_mono; [apply (flags cl tol a1 a2 M1 M2 A1 A2 Hbs R1 R2 HA1 HA2)|].
    intros [[[[f0 f1] f2] f3] f4] (H0 & H1 & H2 & H3 & H4). split; [exact H0|]. rewrite !andb_true_iff. split; [intros [[X0 X1] X2]; auto|]. intros [[[X0 X1] X2] X3]. apply H2; auto.
  Qed.
End C84.

(** ** Reordering and scaling forwards and backwards *)
Section RoundTrip.
  Context {F : Type} {O : SOps F} {R : Field F} (sabs : F -> F) (slt : F -> F -> bool).
  Notation isEqual := (mat_isEqual sabs slt).
  Add Ring Frt : cring.
  Definition back (mode : RSApplyMode) : RSApplyMode := match mode with FORWARD => INVERSE | INVERSE => FORWARD end.
  Lemma reorder_diag cl rord cord sc mode (a : amat F) M : 0 < width cl -> refines cl a M -> legal cl (MReorderScale rord cord sc mode) a ->
    nok (mstep cl (MReorderScale rord cord sc mode) M) (fun M' => refines cl (astep cl (MReorderScale rord cord sc mode) a) M' /\ diagind M' = diagind M).
  Proof.
    intros Hbs Hr Hl. apply nok_and; [apply step_reorder; assumption|]. destruct Hr as [Hs _]. destruct Hl as (O1 & O2 & S1 & S2).
    pose proof (sh_rows _ a M Hs) as En. rewrite <- En in O1, O2, S1, S2. destruct (C18_set_ordering (nbrows M) rord cord O1 O2) as (o & Ho). pose proof Ho as (_ & _ & Eo). unfold mstep. rewrite Eo.
    apply nok_bind with (P := fun o' => o' = o); [apply nok_lift; reflexivity|]. intros ? ->.
    assert (mat_ok (width cl) M) as HM by (split; [apply Hs|split; apply Hs]).
    eapply nok_bind; [apply (reorder_ok (width cl) mode rord cord o sc M HM Ho (conj S1 S2))|]. intros M' (_ & _ & _ & _ & H5 & _). apply nok_ret. exact H5.
  Qed.
  Lemma moved_back n mode x i : is_order n x -> i < n -> moved mode x (moved (back mode) x i) = i.
  Proof. intros Hx Hi. destruct mode; simpl; [apply (oget_oback n); assumption|apply (oback_oget n); assumption]. Qed.
  Lemma round_same cl rord cord sc mode (a : amat F) : 0 < width cl -> legal cl (MReorderScale rord cord sc mode) a -> factors_nz (rowscale sc) -> factors_nz (colscale sc) ->
    let a' := acalls cl [MReorderScale rord cord sc mode; MReorderScale rord cord sc (back mode)] a in
    same_places a a' /\ forall I J, I < a_rows a * width cl -> J < a_rows a * width cl -> a_num a' I J = a_num a I J.
  Proof.
    intros Hbs (O1 & O2 & S1 & S2) Z1 Z2 a'. set (bs := width cl) in *. set (n := a_rows a) in *. split; [split; [reflexivity|]|].
    - intros i j Hi Hj. change (a_stored a i j = a_stored a (moved mode rord (moved (back mode) rord i)) (moved mode cord (moved (back mode) cord j))).
      rewrite !(moved_back n) by assumption. reflexivity.
    - intros I J HI HJ. assert (I / bs < n) as Hi by (apply Nat.div_lt_upper_bound; lia). assert (J / bs < n) as Hj by (apply Nat.div_lt_upper_bound; lia).
      pose proof (Nat.mod_upper_bound I bs ltac:(lia)) as Hp. pose proof (Nat.mod_upper_bound J bs ltac:(lia)) as Hq.
      pose proof (moved_lt n (back mode) rord _ O1 Hi) as Li. pose proof (moved_lt n (back mode) cord _ O2 Hj) as Lj.
      pose proof (Nat.div_mod I bs ltac:(lia)) as DI. pose proof (Nat.div_mod J bs ltac:(lia)) as DJ. rewrite (Nat.mul_comm bs) in DI, DJ.
      set (i' := moved (back mode) rord (I / bs)) in *. set (j' := moved (back mode) cord (J / bs)) in *.
      pose (s1 := fun (m : RSApplyMode) i j x => scl m (colscale sc) (factor_at m cord j) (scl m (rowscale sc) (factor_at m rord i) x)).
      transitivity (s1 (back mode) (I / bs) (J / bs) <$> (s1 mode ((i' * bs + I mod bs) / bs) ((j' * bs + J mod bs) / bs) <$>
        a_num a (moved mode rord ((i' * bs + I mod bs) / bs) * bs + (i' * bs + I mod bs) mod bs) (moved mode cord ((j' * bs + J mod bs) / bs) * bs + (j' * bs + J mod bs) mod bs))).
      { destruct mode; reflexivity. }
      assert (forall x r, r < bs -> (x * bs + r) / bs = x /\ (x * bs + r) mod bs = r) as Hdm.
      { intros x r Hr. split; [rewrite (Nat.add_comm (x * bs)), Nat.div_add, Nat.div_small; lia|rewrite (Nat.add_comm (x * bs)), Nat.mod_add, Nat.mod_small; lia]. }
      destruct (Hdm i' (I mod bs) Hp) as [-> ->]. destruct (Hdm j' (J mod bs) Hq) as [-> ->].
      unfold i', j'. rewrite !(moved_back n) by assumption. rewrite <- DI, <- DJ. destruct (a_num a I J) as [x|]; [|reflexivity]. simpl. f_equal. unfold s1.
      assert (forall y k, is_order n y -> k < n -> factor_at mode y (moved (back mode) y k) = factor_at (back mode) y k) as Hf.
      { intros y k Hy Hk. destruct mode; simpl; [apply (oget_oback n); assumption|reflexivity]. }
      rewrite !Hf by assumption. destruct mode; simpl; [apply scl_undo|apply scl_redo]; assumption.
  Qed.
  (** Scalar class: a matrix which was reordered and scaled, with any permutations and any factors other than zero, and then back, is reported equal
      to the matrix before: all five flags, for any tolerance which a difference of zero does not exceed *)
  Theorem C84_round_trip tol (h : list (mcall F)) old A rord cord sc mode : slt tol (sabs (s0 : F)) = false -> legal_history None h ->
    let a := acalls None h anew in is_matrix None a A ->
    legal None (MReorderScale rord cord sc mode) a -> factors_nz (rowscale sc) -> factors_nz (colscale sc) ->
    nok (ndo M := mcalls None h old in
         ndo M' := mcalls None [MCopy; MReorderScale rord cord sc mode; MReorderScale rord cord sc (back mode)] M in
         nlift (isEqual None tol M M')) (fun fs => fs = (true, true, true, true, true)).
  Proof.
    intros Ht Hl a HA Hleg Z1 Z2. assert (0 < width None) as Hbs by (simpl; lia).
    eapply nok_bind; [apply (history_ok None h old Hbs Hl)|]. fold a. intros M Hr.
    set (a' := acalls None [MReorderScale rord cord sc mode; MReorderScale rord cord sc (back mode)] a).
    destruct (round_same None rord cord sc mode a Hbs Hleg Z1 Z2) as [Hsame Hnum]. fold a' in Hsame, Hnum.
    assert (is_matrix None a' A) as HA'.
    { intros I J HI HJ. change (a_rows a') with (a_rows a) in HI, HJ. rewrite <- (HA I J HI HJ). unfold entry_of. cbn [width] in *. rewrite Hnum by assumption.
      rewrite (proj2 Hsame) by (rewrite Nat.div_1_r; lia). reflexivity. }
    eapply nok_bind with (P := fun M' => refines None a' M' /\ diagind M' = diagind M).
    { cbn [mcalls]. eapply nok_bind with (P := fun M1 => M1 = M).
      - assert (forall gp gi gd gv, copy_construct (width None) gp gi gd gv M = Ok M) as Hc by (intros; destruct Hr as [Hs _]; apply C55_copy; apply Hs).
        split; [eexists; eexists (fun _ => 0), (fun _ => 0), (fun _ => 0), (fun _ => s0); reflexivity|]. intros ? (? & ? & ? & ? & ->). rewrite Hc. reflexivity.
      - intros ? ->. eapply nok_bind; [apply (reorder_diag None rord cord sc mode a M Hbs Hr Hleg)|]. intros M1 [Hr1 D1].
        eapply nok_bind; [apply (reorder_diag None rord cord sc (back mode) _ M1 Hbs Hr1)|]; [exact Hleg|]. intros M2 [Hr2 D2]. apply nok_ret. split; [exact Hr2|congruence]. }
    intros M' [Hr' Ed]. apply nok_lift. eapply ok_mono; [apply (flags sabs slt None tol a a' M M' A A Hbs Hr Hr' HA HA')|].
    intros [[[[f0 f1] f2] f3] f4] (H0 & H1 & H2 & H3 & H4). destruct (H4 eq_refl Hsame) as (-> & -> & ->).
    assert (f4 = true) as -> by (apply H3; auto). assert (f3 = true) as ->; [|reflexivity]. apply H2; auto. split; [exact Hsame|].
    intros I J _ _ _. replace (A I J - A I J)%s with (s0 : F) by ring. exact Ht.
  Qed.
End RoundTrip.

(** ** Block class: equal matrices may be reported as different *)
Section Blocks.
  Context {F : Type} {O : SOps F} (sabs : F -> F) (slt : F -> F -> bool).
  Notation isEqual := (mat_isEqual sabs slt).
  (** an object with a pattern, all values zero *)
  Definition zeroed (n : nat) (bcinds brptrs : list nat) : list (mcall F) := [MSetStructure n bcinds brptrs; MSetAllZero].
  Lemma zeroed_ok bs n bcinds brptrs old : 0 < bs -> legal_pattern (Some bs) n bcinds brptrs ->
    nok (mcalls (Some bs) (zeroed n bcinds brptrs) old) (fun M => nbrows M = n /\ browptr M = brptrs /\ bcolind M = take (brptrs !!! n) bcinds /\
      wf_pat M /\ wf_end M /\ wf_nodup M /\ wf_vals bs M /\ length (diagind M) = nbrows M).
  Proof.
    intros Hbs Hp. pose proof Hp as [P0 P1 P2 P3 P4 P5 P6]. assert (pattern_ok n brptrs bcinds) as Hok by (split; auto). cbn [mcalls zeroed].
    eapply nok_bind with (P := fun M => (nbrows M = n /\ browptr M = brptrs /\ bcolind M = take (brptrs !!! n) bcinds) /\ shape (Some bs) (astep (Some bs) (MSetStructure n bcinds brptrs) anew) M).
    - apply nok_and; [|eapply nok_mono; [apply (step_structure (Some bs) Hbs n bcinds brptrs anew old Hp)|]; intros M [Hs _]; exact Hs].
      unfold mstep. split; [eexists; exists (fun _ => 0), (fun _ => 0), (fun _ => 0), (fun _ => s0); reflexivity|]. intros o (gp & gi & gd & gv & ->).
      eapply ok_mono; [apply (C55_set_structure bs gp gi gd gv old n brptrs bcinds Hok); left; exact P0|]. intros M Hb. split; [apply Hb|]. split; apply Hb.
    - intros M [(E1 & E2 & E3) Hs]. unfold mstep. eapply nok_bind; [apply (C15_block_zero bs M); [apply Hs|apply Hs]|].
      intros M' [Hss _]. pose proof (shape_same (Some bs) _ M M' (fun _ _ => Some s0) Hs Hss) as Hs'. destruct Hss as (S1 & S2 & _ & _ & S5 & _). apply nok_ret.
      split; [congruence|]. split; [congruence|]. split; [congruence|]. repeat split; apply Hs'.
  Qed.
  (** The same zero matrix, its blocks in another order: reported as different in every run, for every block size *)
  Theorem C84_blocks_refuted bs tol old1 old2 : 0 < bs ->
    let h1 := zeroed 2 [1; 0; 1] [0; 2; 3] in let h2 := zeroed 2 [0; 1; 1] [0; 2; 3] in
    let a1 := acalls (Some bs) h1 anew in let a2 := acalls (Some bs) h2 anew in
    legal_history (Some bs) h1 /\ legal_history (Some bs) h2 /\
    (a_rows a1 = a_rows a2 /\ forall i j, i < 2 -> j < 2 -> a_stored a1 i j = a_stored a2 i j) /\
    (forall I J, entry_of (Some bs) a1 I J = Some s0 /\ entry_of (Some bs) a2 I J = Some s0) /\
    nok (ndo M1 := mcalls (Some bs) h1 old1 in ndo M2 := mcalls (Some bs) h2 old2 in nlift (isEqual (Some bs) tol M1 M2)) (fun '(f0, f1, f2, f3, f4) => f2 = false).
  Proof.
    intros Hbs h1 h2 a1 a2.
    assert (legal_pattern (Some bs) 2 [1; 0; 1] [0; 2; 3]) as L1.
    { split; simpl; try lia. - intros i Hi; do 2 (destruct i as [|i]; [simpl; lia|]); lia. - intros j Hj; do 3 (destruct j as [|j]; [simpl; lia|]); lia.
      - intros i j1 j2 Hi H1 H2 H3. destruct i as [|[|]]; simpl in *; [|lia..]. assert (j1 = 0) as -> by lia. assert (j2 = 1) as -> by lia. simpl. lia. }
    assert (legal_pattern (Some bs) 2 [0; 1; 1] [0; 2; 3]) as L2.
    { split; simpl; try lia. - intros i Hi; do 2 (destruct i as [|i]; [simpl; lia|]); lia. - intros j Hj; do 3 (destruct j as [|j]; [simpl; lia|]); lia.
      - intros i j1 j2 Hi H1 H2 H3. destruct i as [|[|]]; simpl in *; [|lia..]. assert (j1 = 0) as -> by lia. assert (j2 = 1) as -> by lia. simpl. lia. }
    split; [split; [exact L1|split; exact Logic.I]|]. split; [split; [exact L2|split; exact Logic.I]|]. split; [split; [reflexivity|]|split].
    - intros i j Hi Hj. do 2 (destruct i as [|i]; [do 2 (destruct j as [|j]; [reflexivity|]); lia|]). lia.
    - intros I J. unfold entry_of. split; destruct (a_stored _ _ _); reflexivity.
    - eapply nok_bind; [apply (zeroed_ok bs 2 _ _ old1 Hbs L1)|]. intros M1 (A1 & A2 & A3 & A4 & A5 & A6 & A7 & A8).
      eapply nok_bind; [apply (zeroed_ok bs 2 _ _ old2 Hbs L2)|]. intros M2 (B1 & B2 & B3 & B4 & B5 & B6 & B7 & B8). apply nok_lift.
      eapply ok_mono; [apply (C56_flags sabs slt bs tol M1 M2 A4 B4 A8 B8 A7 B7)|]. intros [[[[f0 f1] f2] f3] f4] (_ & _ & H2).
      destruct H2 as [H2 _]; [congruence|unfold nnz, rp; rewrite A1, A2, B1, B2; reflexivity|]. destruct f2; [|reflexivity]. exfalso.
      pose proof (proj1 H2 eq_refl) as E. rewrite A3, B3 in E. discriminate E.
  Qed.
  (** A row whose blocks are not in increasing order does not come back from a reordering of the columns: whatever the block size and the
      permutation (the identity too), the comparison with the matrix before reports different columns in every run *)
  Theorem C84_round_trip_blocks_refuted bs tol n bcinds brptrs cord mode old i j1 j2 : 0 < bs -> legal_pattern (Some bs) n bcinds brptrs -> is_order n (Some cord) ->
    i < n -> brptrs !!! i <= j1 -> j1 < j2 -> j2 < brptrs !!! (i + 1) -> bcinds !!! j2 < bcinds !!! j1 ->
    let there m := MReorderScale None (Some cord) (Scaling [] []) m in
    nok (ndo M := mcalls (Some bs) (zeroed n bcinds brptrs) old in
         ndo M' := mcalls (Some bs) [there mode; there (back mode)] M in
         nlift (isEqual (Some bs) tol M M')) (fun '(f0, f1, f2, f3, f4) => f0 && f1 && f2 = false).
  Proof.
    intros Hbs Hp Hcord Hi H1 H12 H2 Hdesc there. eapply nok_bind; [apply (zeroed_ok bs n _ _ old Hbs Hp)|]. intros M (A1 & A2 & A3 & A4 & A5 & A6 & A7 & A8).
    assert (forall m (M : srmat F), mat_ok bs M -> nbrows M = n -> nok (mstep (Some bs) (there m) M) (fun M' => nbrows M' = n /\ mat_ok bs M' /\ diagind M' = diagind M /\ wf_sorted M')) as Hstep.
    { intros m M0 HM En. destruct (C18_set_ordering (nbrows M0) None (Some cord)) as (o & Ho); [exact Logic.I|rewrite En; exact Hcord|]. pose proof Ho as (_ & _ & Eo). unfold mstep, there. rewrite Eo.
      apply nok_bind with (P := fun o' => o' = o); [apply nok_lift; reflexivity|]. intros ? ->. cbn [width].
      eapply nok_bind; [apply (reorder_ok bs m None (Some cord) o (Scaling [] []) M0 HM Ho)|]; [split; left; reflexivity|].
      intros M' (E1 & (W & N & V) & _ & _ & E5 & E6 & _). apply nok_ret. split; [simpl; congruence|]. split; [|split; [exact E5|apply E6; left; discriminate]].
      split; [destruct W; split; auto|]. split; [exact N|exact V]. }
    eapply nok_bind with (P := fun M' => nbrows M' = n /\ mat_ok bs M' /\ diagind M' = diagind M /\ wf_sorted M').
    { cbn [mcalls]. eapply nok_bind; [apply (Hstep mode M); [split; auto|exact A1]|]. intros M1 (B1 & B2 & B3 & _).
      eapply nok_bind; [apply (Hstep (back mode) M1 B2 B1)|]. intros M2 (C1 & C2 & C3 & C4). apply nok_ret. repeat (split; [congruence || assumption|]). exact C4. }
    intros M' (B1 & (B2 & B3 & B4) & B5 & B6). apply nok_lift.
    eapply ok_mono; [apply (C56_flags sabs slt bs tol M M' A4 B2 A8)|]; [congruence|exact A7|exact B4|]. intros [[[[f0 f1] f2] f3] f4] (_ & G1 & G2).
    destruct f0, f1, f2; try reflexivity. exfalso. assert (nbrows M = nbrows M') as En by congruence.
    assert (browptr M = browptr M') as Ep by (apply (G1 En); reflexivity).
    destruct (G2 En) as [G [_ _]]; [unfold nnz, rp; rewrite Ep, En; reflexivity|]. pose proof (proj1 G eq_refl) as Ec.
    assert (j2 < brptrs !!! n) as Hlt.
    { pose proof (rp_mono M (i + 1) n A4 ltac:(lia) ltac:(lia)) as Hm. unfold rp in Hm. rewrite A2 in Hm. lia. }
    pose proof (B6 i j1 j2 ltac:(lia)) as Hs. unfold rp, col in Hs. rewrite <- Ep, A2 in Hs. specialize (Hs H1 H12 H2). rewrite <- Ec, A3 in Hs.
    pose proof (lp_cols _ _ _ _ Hp) as Hc.
    rewrite (list_lookup_total_correct (take _ _) j1 (bcinds !!! j1)), (list_lookup_total_correct (take _ _) j2 (bcinds !!! j2)) in Hs; [lia| |];
      (rewrite lookup_take by lia; apply lookup_total_Some; lia).
  Qed.
End Blocks.

(** ** Cases *)
(** the scalar object of C80's case and twice the object; a permutation with factors; blocks out of order *)
Definition histS2 : list (mcall Qc) := histS ++ [MScaleAll (q 2)].
Lemma histS_alone : legal_history None histS. Proof. exact (legal_app None histS [swap01] anew histS_legal). Qed.
Lemma legal_more cl (h h' : list (mcall Qc)) : forall a, legal_calls cl h a -> legal_calls cl h' (acalls cl h a) -> legal_calls cl (h ++ h') a.
Proof. induction h as [|c h IH]; intros a; simpl; [auto|]. intros [H1 H2] H3. split; [exact H1|apply IH; assumption]. Qed.
Lemma histS2_legal : legal_history None histS2.
Proof. apply (legal_more None histS [MScaleAll (q 2)] anew); [exact histS_alone|]. split; exact Logic.I. Qed.
Lemma known_matrix h : a_rows (acalls None h anew) = 3 -> forallb (fun I => forallb (fun J => match entry_of (F := Qc) None (acalls None h anew) I J with Some _ => true | None => false end) (seq 0 3)) (seq 0 3) = true ->
  is_matrix None (acalls None h anew) (known None (acalls None h anew)).
Proof.
  intros Hn H I J HI HJ. rewrite Hn in HI, HJ. cbn [width] in HI, HJ. rewrite forallb_forall in H. specialize (H I ltac:(apply in_seq; lia)).
  rewrite forallb_forall in H. specialize (H J ltac:(apply in_seq; lia)). unfold known. destruct (entry_of _ _ I J); [reflexivity|discriminate].
Qed.
Example C84_case : let a1 := acalls None histS anew in let a2 := acalls None histS2 anew in
  legal_history None histS /\ legal_history None histS2 /\ is_matrix None a1 (known None a1) /\ is_matrix None a2 (known None a2) /\
  same_places a1 a2 /\ a_diag a1 = true /\ a_diag a2 = true /\ known None a1 0 0 = q 4 /\ known None a2 0 0 = (q 4 * q 2)%Qc /\
  legal None (MReorderScale (Some [1; 0; 2]) None (Scaling (q <$> [2; 3; 4]%Z) []) FORWARD) a1 /\ factors_nz (q <$> [2; 3; 4]%Z) /\ Qlt (q 0) (Qabs (s0 : Qc)) = false /\
  legal_pattern (Some 2) 2 [1; 0; 1] [0; 2; 3] /\ is_order 2 (Some [1; 0]) /\
  nok (ndo M1 := mcalls None histS sr_null in ndo M2 := mcalls None histS2 sr_null in nlift (mat_isEqual Qabs Qlt None (q 1) M1 M2))
    (fun '(f0, f1, f2, f3, f4) => f0 && f1 && f2 = true /\ f3 = false /\ f4 = true).
Proof.
  intros a1 a2. assert (is_matrix None a1 (known None a1)) as HA1 by (apply known_matrix; vm_compute; reflexivity).
  assert (is_matrix None a2 (known None a2)) as HA2 by (apply known_matrix; vm_compute; reflexivity).
  assert (same_places a1 a2) as Hs by (split; [reflexivity|]; intros i j Hi Hj; reflexivity).
  split; [exact histS_alone|]. split; [exact histS2_legal|]. split; [exact HA1|]. split; [exact HA2|]. split; [exact Hs|].
  split; [reflexivity|]. split; [reflexivity|]. split; [reflexivity|]. split; [reflexivity|].
  split. { split; [exact perm102|]. split; [exact Logic.I|]. split; [right; reflexivity|left; reflexivity]. }
  split. { intros i a Hi. do 3 (destruct i as [|i]; [injection Hi as <-; vm_compute; discriminate|]). discriminate Hi. }
  split; [reflexivity|]. split; [exact (proj1 histB_legal)|]. split; [apply perm_swap|].
  eapply nok_mono; [apply (C84_scalar Qabs Qlt (q 1) histS histS2 sr_null sr_null _ _ histS_alone histS2_legal HA1 HA2)|]. fold a1 a2.
  intros [[[[f0 f1] f2] f3] f4] (H0 & H1 & H2 & H3). specialize (H3 Hs eq_refl eq_refl). rewrite (proj2 H1 Hs) in *. split; [reflexivity|]. split; [|exact H3].
  destruct f3; [|reflexivity]. exfalso. destruct (proj1 H2 eq_refl) as [_ Hc]. specialize (Hc 0 0).
  assert (Qlt (q 1) (Qabs (q 4 - q 4 * q 2)%Qc) = false) as Hf by (apply Hc; [change (0 < 3); lia|change (0 < 3); lia|reflexivity]). vm_compute in Hf. discriminate Hf.
Qed.

Print Assumptions C84_scalar.
Print Assumptions C84_sound.
Print Assumptions C84_round_trip.
Print Assumptions C84_blocks_refuted.
Print Assumptions C84_round_trip_blocks_refuted.
