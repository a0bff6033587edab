(** * ColMatFacts: conversion to column storage and column adjacency *)
From Verif Require Import Base Alg SRMatrix Nd Matvec Helpers Reorder ReorderFacts ColMat Own.
From Coq Require Import ZArith.
Open Scope nat_scope.

(** a column-storage matrix read as the row storage of the transposed pattern *)
Definition as_sr {F} (C : bscmat F) : srmat F := SR (bcolptr C) (browind C) (cvals C) [] [] (nbcols C) 0 0.

Section Cols.
  Context {A : Type}.
  Implicit Type M : srmat A.
  (** positions < [m] with column [j], in increasing order *)
  Definition cl M (j m : nat) : list nat := filter (fun k => col M k = j) (seq 0 m).
  Lemma cl_S M j m : cl M j (m + 1) = cl M j m ++ (if decide (col M m = j) then [m] else []).
  Proof.
    unfold cl. rewrite seq_app, filter_app. f_equal.
  Qed.
  Lemma cl_elem M j m k : k ∈ cl M j m <-> k < m /\ col M k = j.
  Proof. unfold cl. rewrite elem_of_list_filter, elem_of_seq. intuition lia. Qed.
  Lemma cl_sorted M j m a b x y : a < b -> cl M j m !! a = Some x -> cl M j m !! b = Some y -> x < y.
  Proof.
    induction m as [|m IH] in a, b, x, y |- *; [intros _ H; discriminate H|].
    replace (S m) with (m + 1) by lia. rewrite cl_S. intros Hab Ha Hb.
    destruct (decide (col M m = j)); [|rewrite app_nil_r in *; eauto].
    apply lookup_app_Some in Hb as [Hb|[Hlen Hb]].
    - rewrite lookup_app_l in Ha; [eauto|]. apply lookup_lt_Some in Hb. lia.
    - assert (b = length (cl M j m)) as -> by (apply lookup_lt_Some in Hb; simpl in Hb; lia).
      rewrite Nat.sub_diag in Hb. injection Hb as <-. rewrite lookup_app_l in Ha by exact Hab.
      apply elem_of_list_lookup_2, cl_elem in Ha. lia.
  Qed.
  Lemma cl_nodup M j m : NoDup (cl M j m).
  Proof. apply NoDup_filter, NoDup_seq. Qed.
  Lemma cl_all M n m : (forall k, k < m -> col M k < n) -> concat ((fun j => cl M j m) <$> seq 0 n) ≡ₚ seq 0 m.
  Proof.
    intros H. trans (filter (fun k => col M k < n) (seq 0 m)).
    - clear H. unfold cl. induction n as [|n IH].
      + simpl. induction (seq 0 m) as [|k l IH]; [reflexivity|]. rewrite filter_cons_False by lia. exact IH.
      + replace (S n) with (n + 1) by lia. rewrite seq_app, fmap_app, concat_app, IH. simpl. rewrite app_nil_r. clear IH.
        induction (seq 0 m) as [|k l IH]; [reflexivity|].
        destruct (decide (col M k < n)).
        * rewrite (filter_cons_True (fun k => col M k < n)), (filter_cons_False (fun k => col M k = n)) by lia.
          rewrite (filter_cons_True (fun k => col M k < n + 1)) by lia. simpl. constructor. exact IH.
        * rewrite (filter_cons_False (fun k => col M k < n)) by lia.
          destruct (decide (col M k = n)) as [E|E].
          -- rewrite (filter_cons_True (fun k => col M k = n)), (filter_cons_True (fun k => col M k < n + 1)) by lia.
             rewrite <- Permutation_middle. constructor. exact IH.
          -- rewrite (filter_cons_False (fun k => col M k = n)), (filter_cons_False (fun k => col M k < n + 1)) by lia. exact IH.
    - assert (forall l : list nat, (forall k, k ∈ l -> k < m) -> filter (fun k => col M k < n) l = l) as Hf.
      { induction l as [|k l IH]; intros Hl; [reflexivity|].
        rewrite filter_cons_True by (apply H, Hl; constructor). f_equal. apply IH. intros k' Hk'. apply Hl. constructor. exact Hk'. }
      rewrite Hf; [reflexivity|]. intros k Hk. apply elem_of_seq in Hk. lia.
  Qed.

  (** loops over all entries, row by row *)
  Lemma ok_rows {St} M (body : nat -> nat -> St -> res St) s (I : nat -> St -> Prop) (Q : St -> Prop) : wf_pat M ->
    I 0 s -> (forall i jj s', inrow M i jj -> I jj s' -> ok (body i jj s') (I (jj + 1))) -> (forall s', I (nnz M) s' -> Q s') ->
    ok (for_ 0 (nbrows M) (fun irow s => let! lo := get (browptr M) irow in let! hi := get (browptr M) (irow + 1) in
      for_ lo hi (body irow) s) s) Q.
  Proof.
    intros Hw H0 Hb HQ.
    eapply ok_for_post with (I := fun i s => I (rp M i) s).
    - lia.
    - rewrite (wf_0 M Hw). exact H0.
    - intros i s' Hi HI.
      eapply ok_bind; [eapply ok_get; [apply (wf_browptr M _ Hw); lia|exact eq_refl]|]. intros ? <-.
      eapply ok_bind; [eapply ok_get; [apply (wf_browptr M _ Hw); lia|exact eq_refl]|]. intros ? <-.
      apply ok_for; [apply rp_mono; auto; lia|exact HI|]. intros jj s'' Hj HI'. apply Hb; [split; lia|exact HI'].
    - exact HQ.
  Qed.
End Cols.

(** ** Concatenations *)
Section Concat.
  Context {A : Type}.
  Definition start (cv : list (list A)) (j : nat) : nat := length (concat (take j cv)).
  Lemma start_0 cv : start cv 0 = 0.
  Proof. reflexivity. Qed.
  Lemma start_S cv j l : cv !! j = Some l -> start cv (j + 1) = start cv j + length l.
  Proof.
    intros H. unfold start. replace (j + 1) with (S j) by lia. rewrite (take_S_r cv j l H), concat_app, app_length. simpl.
    rewrite app_nil_r. reflexivity.
  Qed.
  Lemma start_mono cv i j : i <= j -> start cv i <= start cv j.
  Proof.
    intros H. unfold start. replace j with (i + (j - i)) by lia. rewrite <- (take_take_drop cv i (j - i)), concat_app, app_length. lia.
  Qed.
  Lemma start_end cv : start cv (length cv) = length (concat cv).
  Proof. unfold start. rewrite firstn_all. reflexivity. Qed.
  Lemma concat_lookup cv j l k : cv !! j = Some l -> k < length l -> concat cv !! (start cv j + k) = l !! k.
  Proof.
    intros H Hk. unfold start.
    assert (concat cv = concat (take j cv) ++ l ++ concat (drop (S j) cv)) as ->.
    { rewrite <- (take_drop_middle cv j l H) at 1. rewrite concat_app. reflexivity. }
    rewrite lookup_app_r by lia. replace (_ + k - _) with k by lia. rewrite lookup_app_l by exact Hk. reflexivity.
  Qed.
End Concat.

Section Convert.
  Context {F : Type} {O : SOps F}.
  Variables (bs : nat) (M : srmat F).
  Notation bb := (bs * bs).
  Notation n := (nbrows M).
  Hypothesis Hw : wf_pat M.
  Hypothesis Hv : length (vals M) = nnz M * bb.
  Definition blk (k : nat) : list F := take bb (drop (k * bb) (vals M)).
  Definition ent (k : nat) : nat * list F := (rowof M k, blk k).
  Lemma blk_length k : k < nnz M -> length (blk k) = bb.
  Proof. intros H. unfold blk. rewrite take_length, drop_length. nia. Qed.
  Lemma blk_lookup k e : e < bb -> blk k !! e = vals M !! (k * bb + e).
  Proof. intros H. unfold blk. rewrite lookup_take, lookup_drop by exact H. reflexivity. Qed.

  (** the columns after sorting *)
  Definition good_cols (cv : list (list (nat * list F))) : Prop :=
    length cv = n /\ forall j, j < n -> exists l, cv !! j = Some l /\ l ≡ₚ ent <$> cl M j (nnz M) /\
      forall a b x y, a < b -> l !! a = Some x -> l !! b = Some y -> fst x <= fst y.

  (** what is in the arrays: the columns [cv], one after the other *)
  Record laid_out (cv : list (list (nat * list F))) (C : bscmat F) : Prop := {
    lo_n : nbcols C = n;
    lo_plen : length (bcolptr C) = n + 1;
    lo_p : forall j, j <= n -> bcolptr C !! j = Some (start cv j);
    lo_rlen : length (browind C) = nnz M;
    lo_r : forall x r b, concat cv !! x = Some (r, b) -> browind C !! x = Some r;
    lo_vlen : length (cvals C) = nnz M * bb;
    lo_v : forall x r b e, concat cv !! x = Some (r, b) -> e < bb -> cvals C !! (x * bb + e) = b !! e;
    lo_dlen : length (cdiagind C) = n;
    lo_d : forall j l, j < n -> cv !! j = Some l -> exists d, cdiagind C !! j = Some d /\
      ((d = (-1)%Z /\ forall x, x ∈ l -> fst x <> j) \/ (exists k x, d = Z.of_nat (start cv j + k) /\ l !! k = Some x /\ fst x = j))
  }.

  Lemma std_sort_spec (l : list (nat * list F)) :
    (forall a b x y, a < b -> l !! a = Some x -> l !! b = Some y -> fst x <= fst y) ->
    nok (std_sort l) (fun l' => l' ≡ₚ l /\ forall a b x y, a < b -> l' !! a = Some x -> l' !! b = Some y -> fst x <= fst y).
  Proof.
    intros H. split; [exists (Ok l), l; auto|]. intros o (l' & -> & H1 & H2). simpl. auto.
  Qed.
  Lemma good_length cv : good_cols cv -> length (concat cv) = nnz M /\ concat cv ≡ₚ ent <$> seq 0 (nnz M).
  Proof.
    intros [Hl Hc]. enough (concat cv ≡ₚ ent <$> seq 0 (nnz M)) as H.
    { split; [|exact H]. rewrite H, fmap_length, seq_length. reflexivity. }
    rewrite <- (cl_all M n (nnz M)) by (intros; apply (wf_col M Hw); assumption).
    rewrite <- (firstn_all cv), Hl. assert (n <= n) as Hle by lia. revert Hle. generalize n at 1 3 4. intros m.
    induction m as [|m IH]; intros Hm; [reflexivity|].
    destruct (Hc m ltac:(lia)) as (l & E & Hp & _). rewrite (take_S_r cv m l E). replace (S m) with (m + 1) by lia.
    rewrite seq_app, fmap_app, !concat_app, fmap_app, IH by lia. apply Permutation_app_head. simpl. rewrite !app_nil_r. exact Hp.
  Qed.
  Lemma lookup_ext_lt (l : list F) x y : x = y -> l !! x = l !! y. Proof. intros ->; reflexivity. Qed.

  Lemma convert_spec gp gi gv gd : length gp = n + 1 -> length gi = nnz M -> length gv = nnz M * bb -> length gd = n ->
    nok (convert_BSR_to_BSC bs gp gi gv gd M) (fun C => exists cv, good_cols cv /\ laid_out cv C).
  Proof.
    intros Hgp Hgi Hgv Hgd. unfold convert_BSR_to_BSC.
    eapply nok_bind; [apply nok_lift; eapply ok_get; [apply (wf_browptr M _ Hw); lia|exact eq_refl]|]. intros ? <-.
    change (rp M n) with (nnz M).
    (* the columns *)
    eapply nok_bind with (P := fun cv => length cv = n /\ forall j, j < n -> cv !! j = Some (ent <$> cl M j (nnz M))).
    { apply nok_lift. apply ok_rows with (I := fun m cv => length cv = n /\ forall j, j < n -> cv !! j = Some (ent <$> cl M j m)).
      - exact Hw.
      - split; [apply replicate_length|]. intros j Hj. rewrite lookup_replicate_2 by exact Hj. reflexivity.
      - intros i jj cv Hin [Hl Hc]. pose proof (inrow_lt M i jj Hw Hin) as Hn. pose proof (wf_col M Hw jj Hn) as Hcol.
        eapply ok_bind with (P := fun b => b = blk jj).
        { eapply ok_mono; [apply ok_mapr with (Q := fun k x => vals M !! (jj * bb + k) = Some x)|].
          - intros k a Hk. apply lookup_seq in Hk as [-> Hk]. apply ok_get_lt; [nia|]. auto.
          - intros b [Hbl Hb]. rewrite seq_length in Hbl. apply list_eq_lt; [rewrite blk_length; auto|].
            intros e He. destruct (lookup_lt_is_Some_2 b e He) as [x Ex]. rewrite Ex. symmetry. rewrite blk_lookup by lia. apply Hb, Ex. }
        intros ? ->.
        eapply ok_bind; [eapply ok_get; [apply (wf_bcolind M _ Hw); lia|exact eq_refl]|]. intros ? <-.
        eapply ok_bind; [eapply ok_get; [apply Hc; lia|exact eq_refl]|]. intros ? <-.
        apply ok_set; [lia|]. split; [rewrite insert_length; exact Hl|]. intros j Hj. rewrite cl_S, fmap_app.
        destruct (decide (col M jj = j)) as [<-|Hne].
        + rewrite list_lookup_insert by lia. simpl. unfold ent at 3. rewrite (rowof_inrow M i jj Hw Hin). reflexivity.
        + rewrite list_lookup_insert_ne by exact Hne. simpl. rewrite app_nil_r. apply Hc, Hj.
      - auto. }
    intros cv [Hl Hc].
    (* sorting *)
    assert (forall j a b x y, j < n -> a < b -> (ent <$> cl M j (nnz M)) !! a = Some x -> (ent <$> cl M j (nnz M)) !! b = Some y -> fst x <= fst y) as Hsrt.
    { intros j a b x y Hj Hab Hx Hy. apply list_lookup_fmap_inv in Hx as (k & -> & Hk), Hy as (k' & -> & Hk'). simpl.
      pose proof (cl_sorted M j _ a b k k' Hab Hk Hk') as Hlt.
      apply elem_of_list_lookup_2, cl_elem in Hk. apply elem_of_list_lookup_2, cl_elem in Hk'.
      pose proof (inrow_rowof M k Hw ltac:(lia)) as R1. pose proof (inrow_rowof M k' Hw ltac:(lia)) as R2.
      destruct (decide (rowof M k <= rowof M k')) as [|Hgt]; [assumption|].
      pose proof (inrow_order M _ _ _ _ Hw R2 R1 ltac:(lia)). lia. }
    eapply nok_bind with (P := good_cols).
    { eapply nok_nfor with (I := fun m cv => length cv = n /\ forall j, j < n -> exists l, cv !! j = Some l /\
        (if decide (j < m) then l ≡ₚ ent <$> cl M j (nnz M) /\ (forall a b x y, a < b -> l !! a = Some x -> l !! b = Some y -> fst x <= fst y)
         else l = ent <$> cl M j (nnz M))).
      - lia.
      - split; [exact Hl|]. intros j Hj. exists (ent <$> cl M j (nnz M)). split; [apply Hc, Hj|]. rewrite decide_False by lia. reflexivity.
      - intros m cv' Hm [Hl' Hc']. destruct (Hc' m ltac:(lia)) as (l & E & Hcl). rewrite decide_False in Hcl by lia.
        eapply nok_bind; [apply nok_lift; eapply ok_get; [exact E|exact eq_refl]|]. intros ? <-. rewrite Hcl.
        eapply nok_bind; [apply std_sort_spec; intros a b x y; apply Hsrt; lia|]. intros l' [Hp Hs].
        apply nok_lift, ok_set; [lia|]. split; [rewrite insert_length; exact Hl'|]. intros j Hj.
        destruct (decide (m = j)) as [<-|Hne].
        + exists l'. rewrite list_lookup_insert by lia. split; [reflexivity|]. rewrite decide_True by lia. auto.
        + destruct (Hc' j Hj) as (l0 & E0 & H0). exists l0. rewrite list_lookup_insert_ne by exact Hne. split; [exact E0|].
          destruct (decide (j < m)), (decide (j < m + 1)); try lia; exact H0.
      - intros cv' [Hl' Hc']. split; [exact Hl'|]. intros j Hj. destruct (Hc' j Hj) as (l0 & E0 & H0).
        rewrite decide_True in H0 by lia. exists l0. auto. }
    clear cv Hl Hc Hsrt. intros cv Hg. pose proof Hg as [Hl Hc]. destruct (good_length cv Hg) as [HE HP].
    assert (start cv n = nnz M) as Hend by (rewrite <- Hl, start_end; exact HE).
    assert (forall j l k x, j < n -> cv !! j = Some l -> l !! k = Some x ->
      start cv j + k < nnz M /\ concat cv !! (start cv j + k) = Some x /\ length (snd x) = bb) as Hent.
    { intros j l k x Hj E Ek. pose proof (lookup_lt_Some _ _ _ Ek) as Hk.
      pose proof (start_S cv j l E). pose proof (start_mono cv (j + 1) n ltac:(lia)).
      split; [lia|]. split; [rewrite (concat_lookup cv j l k E Hk); exact Ek|].
      destruct (Hc j Hj) as (l0 & E0 & Hp & _). rewrite E in E0. injection E0 as <-.
      apply elem_of_list_lookup_2 in Ek. rewrite Hp in Ek. apply elem_of_list_fmap in Ek as (k' & -> & Hk').
      apply cl_elem in Hk'. apply blk_length. lia. }
    (* copying *)
    set (Inv := fun icol (iz : nat) '((p, ri, v, d) : list nat * list nat * list F * list Z) =>
      length p = n + 1 /\ length ri = nnz M /\ length v = nnz M * bb /\ length d = n /\
      (forall j, j < icol -> p !! j = Some (start cv j)) /\
      (forall x r b, x < iz -> concat cv !! x = Some (r, b) -> ri !! x = Some r /\ forall e, e < bb -> v !! (x * bb + e) = b !! e)).
    set (Dg := fun j (d : list Z) (l : list (nat * list F)) => exists dj, d !! j = Some dj /\
      ((dj = (-1)%Z /\ forall x, x ∈ l -> fst x <> j) \/ (exists k x, dj = Z.of_nat (start cv j + k) /\ l !! k = Some x /\ fst x = j))).
    eapply nok_bind with (P := fun '(p, ri, v, d, iz) => Inv n iz (p, ri, v, d) /\ iz = start cv n /\ forall j l, j < n -> cv !! j = Some l -> Dg j d l).
    { apply nok_lift. eapply ok_for_post with (I := fun icol '(p, ri, v, d, iz) => Inv icol iz (p, ri, v, d) /\ iz = start cv icol /\
        forall j l, j < icol -> cv !! j = Some l -> Dg j d l).
      - lia.
      - split; [|split; [reflexivity|intros; lia]]. repeat split; try assumption; intros; lia.
      - intros icol [[[[p ri] v] d] iz] Hi ((L1 & L2 & L3 & L4 & Hp & Hx) & -> & Hd).
        destruct (Hc icol ltac:(lia)) as (l & E & Hperm & _).
        eapply ok_bind; [apply ok_set; [lia|exact eq_refl]|]. intros p' <-.
        eapply ok_bind; [apply ok_set; [lia|exact eq_refl]|]. intros d' <-.
        eapply ok_bind; [eapply ok_get; [exact E|exact eq_refl]|]. intros ? <-.
        eapply ok_for_post with (I := fun k '(p, ri, v, d, iz) => Inv (icol + 1) iz (p, ri, v, d) /\ iz = start cv icol + k /\
          (forall j l, j < icol -> cv !! j = Some l -> Dg j d l) /\ Dg icol d (take k l)).
        + lia.
        + split; [|split; [lia|split]].
          * split; [rewrite insert_length; exact L1|]. split; [exact L2|]. split; [exact L3|]. split; [rewrite insert_length; exact L4|].
            split; [|exact Hx]. intros j Hj. destruct (decide (icol = j)) as [<-|Hne].
            -- apply list_lookup_insert. lia.
            -- rewrite list_lookup_insert_ne by exact Hne. apply Hp. lia.
          * intros j l' Hj E'. destruct (Hd j l' Hj E') as (dj & Ed & Hdj). exists dj. split; [|exact Hdj].
            rewrite list_lookup_insert_ne by lia. exact Ed.
          * exists (-1)%Z. split; [apply list_lookup_insert; lia|]. left. split; [reflexivity|]. intros x Hx'.
            simpl in Hx'. apply elem_of_nil in Hx' as [].
        + clear p ri v d L1 L2 L3 L4 Hp Hx Hd.
          intros k [[[[p ri] v] d] iz] Hk ((L1 & L2 & L3 & L4 & Hp & Hx) & -> & Hd & Hdi).
          destruct (lookup_lt_is_Some_2 l k) as [[r b] Ek]; [lia|].
          destruct (Hent icol l k (r, b) ltac:(lia) E Ek) as (Hlt & Econ & Hbl). simpl in Hbl.
          eapply ok_bind; [eapply ok_get; [exact Ek|exact eq_refl]|]. intros ? <-.
          eapply ok_bind; [apply ok_set; [lia|exact eq_refl]|]. intros ri' <-.
          eapply ok_bind with (P := fun v' => length v' = length v /\ (forall e, e < bb -> v' !! ((start cv icol + k) * bb + e) = b !! e) /\
            forall x, x < (start cv icol + k) * bb -> v' !! x = v !! x).
          { apply ok_for_own with (D := fun i x => x = (start cv icol + k) * bb + i) (h := fun i x => b !! i).
            - lia.
            - intros; lia.
            - intros i v' Hi' Hlv _. destruct (lookup_lt_is_Some_2 b i) as [x Ex]; [lia|].
              eapply ok_bind; [eapply ok_get; [exact Ex|exact eq_refl]|]. intros ? <-.
              apply ok_set; [nia|]. split; [apply insert_length|]. split.
              + intros ? ->. rewrite list_lookup_insert by nia. auto.
              + intros x' Hx'. apply list_lookup_insert_ne. lia.
            - intros v' Hlv H1 H2. split; [exact Hlv|]. split.
              + intros e He. apply (H1 e); [lia|reflexivity].
              + intros x Hx'. apply H2. intros i Hi' ->. lia. }
          intros v' (Hlv & Hv1 & Hv2).
          assert (forall dd, length dd = n -> Inv (icol + 1) (start cv icol + k + 1) (p, <[start cv icol + k:=r]> ri, v', dd)) as HInv.
          { intros dd Hdd. split; [exact L1|]. split; [rewrite insert_length; exact L2|]. split; [lia|]. split; [exact Hdd|]. split; [exact Hp|].
            intros x r' b' Hx' Ex. destruct (decide (x = start cv icol + k)) as [->|Hne].
            - rewrite Econ in Ex. injection Ex as <- <-. split; [apply list_lookup_insert; lia|]. exact Hv1.
            - destruct (Hx x r' b' ltac:(lia) Ex) as [H1 H2]. rewrite list_lookup_insert_ne by lia. split; [exact H1|].
              intros e He. rewrite Hv2 by nia. apply H2, He. }
          destruct (Nat.eqb_spec icol r) as [<-|Hne].
          * eapply ok_bind; [apply ok_set; [lia|exact eq_refl]|]. intros d' <-. simpl. split; [apply HInv; rewrite insert_length; exact L4|].
            split; [lia|]. split.
            -- intros j l' Hj E'. destruct (Hd j l' Hj E') as (dj & Ed & Hdj). exists dj. split; [|exact Hdj].
               rewrite list_lookup_insert_ne by lia. exact Ed.
            -- exists (Z.of_nat (start cv icol + k)). split; [apply list_lookup_insert; lia|]. right. exists k, (icol, b).
               split; [reflexivity|]. split; [|reflexivity]. rewrite lookup_take by lia. exact Ek.
          * simpl. split; [apply HInv, L4|]. split; [lia|]. split; [exact Hd|].
            destruct Hdi as (dj & Ed & Hdj). exists dj. split; [exact Ed|].
            replace (k + 1) with (S k) by lia. rewrite (take_S_r l k (r, b) Ek).
            destruct Hdj as [[-> Hno]|(k' & x & -> & Ek' & Hx')].
            -- left. split; [reflexivity|]. intros x Hin. apply elem_of_app in Hin as [Hin|Hin]; [auto|].
               apply elem_of_list_singleton in Hin as ->. simpl. lia.
            -- right. exists k', x. split; [reflexivity|]. split; [|exact Hx']. apply lookup_app_l_Some, Ek'.
        + intros [[[[p' ri'] v'] d'] iz] (HI & -> & Hd' & Hdi). split; [exact HI|]. split; [rewrite (start_S cv icol l E); reflexivity|].
          intros j l' Hj E'. destruct (decide (j = icol)) as [->|]; [|apply Hd'; [lia|exact E']].
          rewrite E in E'. injection E' as <-. rewrite firstn_all in Hdi. exact Hdi.
      - auto. }
    intros [[[[p ri] v] d] iz] ((L1 & L2 & L3 & L4 & Hp & Hx) & -> & Hd).
    eapply nok_bind; [apply nok_lift, ok_set; [lia|exact eq_refl]|]. intros p' <-.
    apply nok_ret. exists cv. split; [exact Hg|]. split; simpl.
    - reflexivity.
    - rewrite insert_length. exact L1.
    - intros j Hj. destruct (decide (n = j)) as [<-|Hne]; [rewrite list_lookup_insert by lia; f_equal; lia|].
      rewrite list_lookup_insert_ne by exact Hne. apply Hp. lia.
    - exact L2.
    - intros x r b E. apply (Hx x r b); [|exact E]. apply lookup_lt_Some in E. lia.
    - exact L3.
    - intros x r b e E. apply (Hx x r b); [|exact E]. apply lookup_lt_Some in E. lia.
    - exact L4.
    - exact Hd.
  Qed.
End Convert.
