(** * PetscIoFacts: proofs about reading files into PETSc objects *)
From Coq Require Import ZArith.
From Verif Require Import Base Alg SRMatrix Nd Reorder Coo CooSpec CooFacts TriFacts PetscIo.
Open Scope nat_scope.

(** everything but the values is the same *)
Definition same_shape {F} (A B : pmat F) : Prop :=
  pm_bs B = pm_bs A /\ pm_m B = pm_m A /\ pm_n B = pm_n A /\ pm_roworiented B = pm_roworiented A.
Lemma shape_refl {F} (A : pmat F) : same_shape A A.
Proof. repeat split. Qed.
Lemma shape_trans {F} (A B C : pmat F) : same_shape A B -> same_shape B C -> same_shape A C.
Proof. intros (H1 & H2 & H3 & H4) (K1 & K2 & K3 & K4). repeat split; congruence. Qed.
Lemma shape_insert {F} i j v (A : pmat F) : same_shape A (insert_value i j v A).
Proof. repeat split. Qed.
Lemma insert_same {F} i j v (A : pmat F) : pm_val (insert_value i j v A) i j = v.
Proof. simpl. rewrite !Nat.eqb_refl. reflexivity. Qed.
Lemma insert_other {F} i j v (A : pmat F) i' j' : i' <> i \/ j' <> j -> pm_val (insert_value i j v A) i' j' = pm_val A i' j'.
Proof. intros H. simpl. destruct (Nat.eqb_spec i' i), (Nat.eqb_spec j' j); simpl; try reflexivity. exfalso; lia. Qed.

Section Facts.
  Context {F : Type} {O : SOps F}.
  (** one row, indices in range *)
  Lemma MatSetValues_ok dbg (A : pmat F) row ncols colinds values :
    row < pm_m A -> (forall l, l < ncols -> exists c v, colinds !! l = Some c /\ values !! l = Some v /\ c < pm_n A) ->
    ok (MatSetValues dbg A row ncols colinds values) (fun '(B, e) => e = false /\ same_shape A B /\
      (forall i j, i <> row -> pm_val B i j = pm_val A i j) /\
      forall j, (exists l, l < ncols /\ colinds !! l = Some j /\ values !! l = Some (pm_val B row j)) \/
                (pm_val B row j = pm_val A row j /\ forall l, l < ncols -> colinds !! l <> Some j)).
  Proof.
    intros Hr Hin. unfold MatSetValues.
    eapply ok_for_post with (I := fun n '(B, e) => e = false /\ same_shape A B /\
      (forall i j, i <> row -> pm_val B i j = pm_val A i j) /\
      forall j, (exists l, l < n /\ colinds !! l = Some j /\ values !! l = Some (pm_val B row j)) \/
                (pm_val B row j = pm_val A row j /\ forall l, l < n -> colinds !! l <> Some j)); [lia| | |auto].
    - split; [reflexivity|]. split; [apply shape_refl|]. split; [reflexivity|]. intros j. right. split; [reflexivity|]. intros; lia.
    - intros l [B e] Hl (-> & Hs & Hother & Hrow). destruct (Hin l ltac:(lia)) as (c & v & Hc & Hv & Hcn).
      eapply ok_bind; [eapply ok_get; [exact Hc|exact eq_refl]|]. intros ? <-.
      eapply ok_bind; [eapply ok_get; [exact Hv|exact eq_refl]|]. intros ? <-.
      destruct Hs as (S1 & S2 & S3 & S4).
      rewrite (proj2 (Nat.ltb_lt row (pm_m B))), (proj2 (Nat.ltb_lt c (pm_n B))) by lia. simpl andb. cbv iota. apply ok_ret.
      split; [reflexivity|]. split; [eapply shape_trans; [|apply shape_insert]; repeat split; assumption|]. split.
      + intros i j Hi. rewrite insert_other by (left; exact Hi). apply Hother, Hi.
      + intros j. destruct (decide (j = c)) as [->|Hjc].
        * left. exists l. rewrite insert_same. split; [lia|]. auto.
        * rewrite insert_other by (right; exact Hjc). destruct (Hrow j) as [(l' & H1 & H2 & H3)|[H1 H2]].
          -- left. exists l'. split; [lia|]. auto.
          -- right. split; [exact H1|]. intros l' Hl'. destruct (decide (l' = l)) as [->|]; [congruence|]. apply H2. lia.
  Qed.

  (** the state of a matrix filled row by row, the first [r] rows done *)
  Definition filled (P : nat -> nat -> F -> Prop) (m n bs : nat) (b : bool) (r : nat) (A : pmat F) : Prop :=
    pm_bs A = bs /\ pm_m A = m /\ pm_n A = n /\ pm_roworiented A = b /\
    (forall i j, i < r -> P i j (pm_val A i j)) /\ (forall i j, r <= i -> pm_val A i j = s0).

  (** the call made for a row: its columns and values *)
  Lemma insert_row_call dbg (c : coo F) irow A e : coo_ok c -> irow < nrows c -> (exists x, x ∈ entries c /\ rowind x = irow) ->
    exists ncols ci vs, insert_row dbg c irow (A, e) = MatSetValues dbg A irow ncols ci vs /\ length ci = ncols /\ length vs = ncols /\
      (forall l j v, ci !! l = Some j -> vs !! l = Some v -> Entry irow j v ∈ entries c) /\
      (forall j v, Entry irow j v ∈ entries c -> exists l, ci !! l = Some j /\ vs !! l = Some v).
  Proof.
    intros Hc Hi (x & Hx & Hxr). unfold insert_row.
    destruct (lookup_lt_is_Some_2 (rowptr c) irow) as [a Ha]; [rewrite (co_len c Hc); lia|].
    destruct (lookup_lt_is_Some_2 (rowptr c) (irow + 1)) as [z Hz]; [rewrite (co_len c Hc); lia|].
    pose proof (co_mono c Hc irow a z Ha Hz) as Haz.
    apply elem_of_list_lookup in Hx as [kx Hkx]. pose proof (proj1 (co_delim c Hc irow a z kx x Ha Hz Hkx) Hxr) as Hkr.
    pose proof (lookup_lt_Some _ _ _ Hkx) as Hkl.
    assert (z <= length (entries c)) as Hzl.
    { destruct (decide (z <= length (entries c))); [done|exfalso].
      assert (forall k i p, i + k = nrows c -> rowptr c !! i = Some p -> p <= coo_nnz c) as Hle.
      { induction k as [|k IH]; intros i p Hk Hp.
        - replace i with (nrows c) in Hp by lia. rewrite (co_last c Hc) in Hp. injection Hp as <-. lia.
        - destruct (lookup_lt_is_Some_2 (rowptr c) (i + 1)) as [p' Hp']; [rewrite (co_len c Hc); lia|].
          pose proof (co_mono c Hc i p p' Hp Hp'). specialize (IH (i + 1) p' ltac:(lia) Hp'). lia. }
      specialize (Hle (nrows c - (irow + 1)) (irow + 1) z ltac:(lia) Hz). rewrite (co_nnz c Hc) in Hle. lia. }
    assert (forall k, a <= k < z -> exists y, entries c !! k = Some y /\ rowind y = irow) as Hrow.
    { intros k Hk. destruct (lookup_lt_is_Some_2 (entries c) k) as [y Hy]; [lia|]. exists y. split; [exact Hy|].
      apply (co_delim c Hc irow a z k y Ha Hz Hy). exact Hk. }
    destruct (Hrow a ltac:(lia)) as (y & Hy & Hyr).
    rewrite (proj2 (get_Some _ _ _) Ha). cbn [bind]. rewrite (proj2 (get_Some _ _ _) Hy). cbn [bind].
    rewrite Hyr, Nat.eqb_refl. simpl negb. cbv iota. rewrite (proj2 (get_Some _ _ _) Hz). cbn [bind].
    match goal with |- context [bind ?m _] => assert (ok m (fun '(ci, vs) => length ci = z - a /\ length vs = z - a /\
      forall k, a <= k < z -> ci !! (k - a) = colind <$> entries c !! k /\ vs !! (k - a) = value <$> entries c !! k)) as Hloop end.
    { eapply ok_for_post with (I := fun n '(ci, vs) => length ci = z - a /\ length vs = z - a /\
        forall k, a <= k < n -> ci !! (k - a) = colind <$> entries c !! k /\ vs !! (k - a) = value <$> entries c !! k); [lia| | |auto].
      - rewrite !replicate_length. split; [reflexivity|]. split; [reflexivity|]. intros; lia.
      - intros jr [ci vs] Hj (L1 & L2 & H). destruct (Hrow jr Hj) as (w & Hw & _).
        eapply ok_bind; [eapply ok_get; [exact Hw|exact eq_refl]|]. intros ? <-.
        eapply ok_bind; [apply ok_set; [lia|exact eq_refl]|]. intros ? <-.
        eapply ok_bind; [apply ok_set; [lia|exact eq_refl]|]. intros ? <-.
        apply ok_ret. rewrite !insert_length. split; [exact L1|]. split; [exact L2|]. intros k Hk.
        destruct (decide (k = jr)) as [->|].
        + rewrite !list_lookup_insert by lia. rewrite Hw. auto.
        + rewrite !list_lookup_insert_ne by lia. apply H. lia. }
    apply ok_inv in Hloop as ([ci vs] & -> & L1 & L2 & H). cbn [bind]. exists (z - a), ci, vs.
    split; [reflexivity|]. split; [exact L1|]. split; [exact L2|]. split.
    - intros l j v Hj Hv. pose proof (lookup_lt_Some _ _ _ Hj). destruct (Hrow (a + l) ltac:(lia)) as (w & Hw & Hwr).
      destruct (H (a + l) ltac:(lia)) as [H1 H2]. replace (a + l - a) with l in H1, H2 by lia. rewrite Hw in H1, H2. simpl in H1, H2.
      apply elem_of_list_lookup. exists (a + l). rewrite Hw. f_equal. destruct w as [wr wc wv]. simpl in *. congruence.
    - intros j v Hin. apply elem_of_list_lookup in Hin as [k Hk].
      pose proof (proj1 (co_delim c Hc irow a z k _ Ha Hz Hk) eq_refl) as Hkk. destruct (H k Hkk) as [H1 H2].
      exists (k - a). rewrite H1, H2, Hk. auto.
  Qed.
  Lemma insert_row_ok dbg (c : coo F) m n bs b irow A e : coo_ok c -> m = nrows c -> irow < m ->
    (forall x, x ∈ entries c -> rowind x = irow -> colind x < n) -> (exists x, x ∈ entries c /\ rowind x = irow) ->
    filled (coo_entry (entries c)) m n bs b irow A ->
    ok (insert_row dbg c irow (A, e)) (fun '(B, e) => e = false /\ filled (coo_entry (entries c)) m n bs b (irow + 1) B).
  Proof.
    intros Hc -> Hi Hcol Hx (F1 & F2 & F3 & F4 & F5 & F6).
    destruct (insert_row_call dbg c irow A e Hc Hi Hx) as (k & ci & vs & -> & L1 & L2 & Hin & Hall).
    eapply ok_mono; [apply MatSetValues_ok|].
    - lia.
    - intros l Hl. destruct (lookup_lt_is_Some_2 ci l) as [j Hj]; [lia|]. destruct (lookup_lt_is_Some_2 vs l) as [v Hv]; [lia|].
      exists j, v. split; [exact Hj|]. split; [exact Hv|]. rewrite F3. exact (Hcol _ (Hin l j v Hj Hv) eq_refl).
    - intros [B e'] (-> & (S1 & S2 & S3 & S4) & Hother & Hthis). split; [reflexivity|].
      split; [congruence|]. split; [congruence|]. split; [congruence|]. split; [congruence|]. split.
      + intros i j Hij. destruct (decide (i = irow)) as [->|].
        * destruct (Hthis j) as [(l & Hl & K1 & K2)|[K1 K2]].
          -- left. apply (Hin l); auto.
          -- right. split; [rewrite K1; apply F6; lia|]. intros v Hv. destruct (Hall j v Hv) as (l & Hl & _).
             apply (K2 l); [|exact Hl]. apply lookup_lt_Some in Hl. lia.
        * rewrite Hother by auto. apply F5. lia.
      + intros i j Hij. rewrite Hother by lia. apply F6. lia.
  Qed.
  (** a debugging build of PETSc never does anything undefined *)
  Lemma MatSetValues_debug (A : pmat F) row ncols colinds values : ncols <= length colinds -> ncols <= length values ->
    ok (MatSetValues true A row ncols colinds values) (fun '(B, e) => same_shape A B).
  Proof.
    intros H1 H2. unfold MatSetValues. eapply ok_for_post with (I := fun _ '(B, e) => same_shape A B); [lia|apply shape_refl| |auto].
    intros l [B e] Hl HB. destruct e; [exact HB|].
    eapply ok_bind; [apply ok_get_lt with (P := fun _ => True); [lia|auto]|]. intros c _.
    eapply ok_bind; [apply ok_get_lt with (P := fun _ => True); [lia|auto]|]. intros v _.
    destruct ((row <? pm_m B) && (c <? pm_n B)); [|exact HB]. eapply shape_trans; [exact HB|apply shape_insert].
  Qed.

  (** the rows of an array of pointers, columns and values *)
  Definition row_holds (i j : list nat) (a : list F) (r c : nat) (v : F) : Prop :=
    exists k s e, i !! r = Some s /\ i !! (r + 1) = Some e /\ s <= k < e /\ j !! k = Some c /\ a !! k = Some v.
  Lemma MatCreate_arrays_ok dbg m n (i j : list nat) (a : list F) : length i = m + 1 -> i !! 0 = Some 0 ->
    (forall r s e, i !! r = Some s -> i !! (r + 1) = Some e -> forall k, s <= k < e -> exists c v, j !! k = Some c /\ a !! k = Some v /\ c < n) ->
    ok (MatCreateMPIAIJWithArrays dbg m n i j a)
      (filled (fun r c x => row_holds i j a r c x \/ (x = s0 /\ forall v, ~ row_holds i j a r c v)) m n 1 true m).
  Proof.
    intros Li H0 Hin. unfold MatCreateMPIAIJWithArrays.
    eapply ok_bind; [eapply ok_get; [exact H0|exact eq_refl]|]. intros ? <-. cbn [Nat.eqb negb CHKERRQ bind].
    eapply ok_for with (I := filled (fun r c x => row_holds i j a r c x \/ (x = s0 /\ forall v, ~ row_holds i j a r c v)) m n 1 true); [lia| |].
    - repeat split; intros; lia.
    - intros row A Hr (F1 & F2 & F3 & F4 & F5 & F6).
      destruct (lookup_lt_is_Some_2 i row) as [s Hs]; [lia|]. destruct (lookup_lt_is_Some_2 i (row + 1)) as [e He]; [lia|].
      eapply ok_bind; [eapply ok_get; [exact Hs|exact eq_refl]|]. intros ? <-.
      eapply ok_bind; [eapply ok_get; [exact He|exact eq_refl]|]. intros ? <-.
      eapply ok_bind; [apply MatSetValues_ok|].
      + lia.
      + intros l Hl. destruct (Hin row s e Hs He (s + l) ltac:(lia)) as (c & v & H1 & H2 & H3). exists c, v. rewrite !lookup_drop. rewrite F3. auto.
      + intros [B e'] (-> & (S1 & S2 & S3 & S4) & Hother & Hthis). cbn [CHKERRQ bind]. apply ok_ret.
        split; [congruence|]. split; [congruence|]. split; [congruence|]. split; [congruence|]. split.
        * intros r c Hrc. destruct (decide (r = row)) as [->|].
          -- destruct (Hthis c) as [(l & Hl & K1 & K2)|[K1 K2]].
             ++ left. rewrite lookup_drop in K1. rewrite lookup_drop in K2. exists (s + l), s, e. split; [exact Hs|]. split; [exact He|]. split; [lia|]. auto.
             ++ right. split; [rewrite K1; apply F6; lia|]. intros v (k & s' & e' & E1 & E2 & Hk & E3 & E4).
                assert (s' = s) as -> by congruence. assert (e' = e) as -> by congruence.
                apply (K2 (k - s) ltac:(lia)). rewrite lookup_drop. replace (s + (k - s)) with k by lia. exact E3.
          -- rewrite Hother by auto. apply F5. lia.
        * intros r c Hrc. rewrite Hother by lia. apply F6. lia.
  Qed.
  (** one block row *)
  Lemma MatSetValuesBlocked_ok dbg (A : pmat F) row ncols colinds values N : let bs := pm_bs A in 0 < bs ->
    pm_roworiented A = false -> row < N -> pm_m A = N * bs -> pm_n A = N * bs ->
    (forall l, l < ncols -> exists c, colinds !! l = Some c /\ c < N) ->
    (forall l1 l2 c, l1 < ncols -> l2 < ncols -> colinds !! l1 = Some c -> colinds !! l2 = Some c -> l1 = l2) ->
    ncols * (bs * bs) <= length values ->
    ok (MatSetValuesBlocked dbg A row ncols colinds values) (fun '(B, e) => e = false /\ same_shape A B /\
      (forall i j, i / bs <> row -> pm_val B i j = pm_val A i j) /\
      (forall ii jj c l, ii < bs -> jj < bs -> l < ncols -> colinds !! l = Some c ->
         values !! (l * (bs * bs) + (jj * bs + ii)) = Some (pm_val B (row * bs + ii) (c * bs + jj))) /\
      (forall i j, (forall l, l < ncols -> colinds !! l <> Some (j / bs)) -> pm_val B i j = pm_val A i j)).
  Proof.
    intros bs Hbs Hro Hr Hm Hn Hin Hinj Hlen. unfold MatSetValuesBlocked. fold bs.
    assert (forall x y, y < bs -> (x * bs + y) / bs = x) as Hdiv by (intros; apply TriFacts.flat_div; auto).
    eapply ok_for_post with (I := fun n '(B, e) => e = false /\ same_shape A B /\
      (forall i j, i / bs <> row -> pm_val B i j = pm_val A i j) /\
      (forall ii jj c l, ii < bs -> jj < bs -> l < n -> colinds !! l = Some c ->
         values !! (l * (bs * bs) + (jj * bs + ii)) = Some (pm_val B (row * bs + ii) (c * bs + jj))) /\
      (forall i j, (forall l, l < n -> colinds !! l <> Some (j / bs)) -> pm_val B i j = pm_val A i j)); [lia| | |auto].
    - split; [reflexivity|]. split; [apply shape_refl|]. split; [reflexivity|]. split; [intros; lia|reflexivity].
    - intros l [B e] Hl (-> & (S1 & S2 & S3 & S4) & Hother & Hdone & Hcols). destruct (Hin l ltac:(lia)) as (c & Hc & HcN).
      eapply ok_bind; [eapply ok_get; [exact Hc|exact eq_refl]|]. intros ? <-.
      rewrite (proj2 (Nat.ltb_lt (row * bs) (pm_m B))) by (rewrite S2, Hm; nia).
      rewrite (proj2 (Nat.ltb_lt (c * bs) (pm_n B))) by (rewrite S3, Hn; nia). simpl andb. cbv iota.
      eapply ok_bind with (P := fun C => same_shape A C /\
        (forall i j, i / bs <> row \/ j / bs <> c -> pm_val C i j = pm_val B i j) /\
        (forall ii jj, ii < bs -> jj < bs -> values !! (l * (bs * bs) + (jj * bs + ii)) = Some (pm_val C (row * bs + ii) (c * bs + jj)))).
      { eapply ok_for_post with (I := fun n C => same_shape A C /\
          (forall i j, i / bs <> row \/ j / bs <> c -> pm_val C i j = pm_val B i j) /\
          (forall ii jj, ii < bs -> jj < n -> values !! (l * (bs * bs) + (jj * bs + ii)) = Some (pm_val C (row * bs + ii) (c * bs + jj)))); [lia| | |auto].
        - split; [repeat split; assumption|]. split; [reflexivity|]. intros; lia.
        - intros jj C Hjj (Sc & Hco & Hcd).
          eapply ok_for_post with (I := fun n D => same_shape A D /\
            (forall i j, i / bs <> row \/ j / bs <> c -> pm_val D i j = pm_val B i j) /\
            (forall ii jj', ii < bs -> jj' < jj \/ jj' = jj /\ ii < n ->
              values !! (l * (bs * bs) + (jj' * bs + ii)) = Some (pm_val D (row * bs + ii) (c * bs + jj')))); [lia| | |].
          + split; [exact Sc|]. split; [exact Hco|]. intros ii jj' Hii [H|H]; [apply Hcd; lia|lia].
          + intros ii D Hii ((D1 & D2 & D3 & D4) & Hdo & Hdd). rewrite D4, Hro.
            eapply ok_bind; [apply ok_get_lt with (P := fun v => values !! (l * (bs * bs) + (jj * bs + ii)) = Some v)|].
            * enough (l * bs * bs + jj * bs + ii < ncols * bs * bs) by nia. enough (l * bs + jj < ncols * bs) by nia. nia.
            * intros v Hv. rewrite <- Hv. f_equal. lia.
            * intros v Hv. apply ok_ret. split; [repeat split; assumption|]. split.
              -- intros i j Hij. rewrite insert_other; [apply Hdo, Hij|].
                 destruct (decide (i = row * bs + ii)) as [->|]; [|auto]. destruct (decide (j = c * bs + jj)) as [->|]; [|auto].
                 rewrite !Hdiv in Hij by lia. lia.
              -- intros ii' jj' Hii' Hcase. destruct (decide (jj' = jj)) as [->|]; [destruct (decide (ii' = ii)) as [->|]|].
                 ++ rewrite insert_same. exact Hv.
                 ++ rewrite insert_other by lia. apply Hdd; lia.
                 ++ rewrite insert_other by lia. apply Hdd; lia.
          + intros D (Sd & Hdo & Hdd). split; [exact Sd|]. split; [exact Hdo|]. intros ii jj' Hii Hjj'. apply Hdd; [exact Hii|lia]. }
      intros C (Sc & Hco & Hcd). apply ok_ret. split; [reflexivity|]. split; [exact Sc|]. split; [|split].
      + intros i j Hi. rewrite Hco by auto. apply Hother, Hi.
      + intros ii jj c' l' Hii Hjj Hl' Hc'. destruct (decide (l' = l)) as [->|].
        * assert (c' = c) as -> by congruence. apply Hcd; auto.
        * rewrite Hco; [apply Hdone; auto; lia|]. right. rewrite Hdiv by lia. intros ->.
          assert (l' = l) by (apply (Hinj l' l c); auto; lia). lia.
      + intros i j Hno. rewrite Hco; [apply Hcols; intros; apply Hno; lia|]. right. intros <-. apply (Hno l); [lia|exact Hc].
  Qed.
End Facts.
