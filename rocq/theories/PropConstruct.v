(** * C55, C56, C60: construction and comparison of matrices *)
From Verif Require Import Base Alg SRMatrix Nd Coo CooFacts BlockMat Inst ArrayView ViewSpec RawCtor PropRaw PropAssembly PropBlockMat.
From Coq Require Import QArith.Qcanon ZArith.
Open Scope nat_scope.

(** ** Specification *)
(** the arrays describe a sparsity pattern of [n] rows *)
Record pattern_ok (n : nat) (brptrs bcinds : list nat) : Prop := {
  po_len : length brptrs = n + 1;
  po_mono : forall i, i < n -> brptrs !!! i <= brptrs !!! (i + 1);
  po_cols : brptrs !!! n <= length bcinds
}.
(** the matrix has this pattern, and finds the first diagonal entry of each row that has one *)
Record built {F} (bs n : nat) (brptrs bcinds : list nat) (M : srmat F) : Prop := {
  bu_rows : nbrows M = n;
  bu_ptr : browptr M = brptrs;
  bu_col : bcolind M = take (brptrs !!! n) bcinds;
  bu_count : nnzb M = brptrs !!! n /\ nbstored M = brptrs !!! n;
  bu_vals : length (vals M) = brptrs !!! n * (bs * bs);
  bu_end : browendptr M = drop 1 brptrs;
  bu_dlen : length (diagind M) = n;
  bu_diag : forall i j, i < n -> brptrs !!! i <= j < brptrs !!! (i + 1) -> bcinds !! j = Some i ->
    (forall k, brptrs !!! i <= k < j -> bcinds !! k <> Some i) -> diagind M !! i = Some j
}.

Lemma find_from_first x k : forall i l, i + k <= length l ->
  ok (find_from x k i l) (fun r => match r with
    | Some p => i <= p < i + k /\ l !! p = Some x /\ forall p', i <= p' < p -> l !! p' <> Some x
    | None => forall p, i <= p < i + k -> l !! p <> Some x end).
Proof.
  induction k as [|k IH]; intros i l Hl; cbn [find_from].
  - apply ok_ret. intros; lia.
  - destruct (lookup_lt_is_Some_2 l i) as [y Ey]; [lia|]. unfold get. rewrite Ey. cbn [bind].
    destruct (Nat.eqb_spec y x) as [->|Hne]; [apply ok_ret; split; [lia|]; split; [exact Ey|intros; lia]|].
    eapply ok_mono; [apply IH; lia|]. intros [p|].
    + intros (H1 & H2 & H3). split; [lia|]. split; [exact H2|]. intros p' Hp'. destruct (decide (p' = i)) as [->|]; [congruence|apply H3; lia].
    + intros H p Hp. destruct (decide (p = i)) as [->|]; [congruence|apply H; lia].
Qed.

Section C55.
  Context {F : Type} {O : SOps F}.
  Lemma lookup_total_Some (l : list nat) i : i < length l -> l !! i = Some (l !!! i).
  Proof. intros H. apply list_lookup_lookup_total_lt, H. Qed.
  Lemma fill_take (l : list nat) n : n <= length l -> (fun i => l !!! i) <$> seq 0 n = take n l.
  Proof.
    intros H. apply list_eq_lt; [rewrite fmap_length, seq_length, take_length; lia|]. intros i Hi. rewrite fmap_length, seq_length in Hi.
    rewrite list_lookup_fmap, lookup_seq_lt by exact Hi. rewrite lookup_take by exact Hi. rewrite lookup_total_Some by lia. reflexivity.
  Qed.
  Lemma po_le n brptrs bcinds i k : pattern_ok n brptrs bcinds -> i <= k -> k <= n -> brptrs !!! i <= brptrs !!! k.
  Proof.
    intros [_ Hm _] Hik. induction Hik as [|k Hik IH]; intros Hk; [lia|]. specialize (Hm k ltac:(lia)). replace (k + 1) with (S k) in Hm by lia.
    specialize (IH ltac:(lia)). lia.
  Qed.
  Lemma pattern_arrays_spec bs gp gi gd (gv : nat -> F) n brptrs bcinds : pattern_ok n brptrs bcinds ->
    ok (pattern_arrays bs gp gi gd gv n bcinds brptrs) (fun '(p, c, d, v) => p = brptrs /\ c = take (brptrs !!! n) bcinds /\ length d = n /\
      v = alloc gv (brptrs !!! n * (bs * bs)) /\
      forall i j, i < n -> brptrs !!! i <= j < brptrs !!! (i + 1) -> bcinds !! j = Some i ->
        (forall k, brptrs !!! i <= k < j -> bcinds !! k <> Some i) -> d !! i = Some j).
  Proof.
    intros Hp. pose proof Hp as [Hl Hm Hc]. set (nnz := brptrs !!! n) in *. unfold pattern_arrays, get at 1. rewrite (lookup_total_Some brptrs n) by lia. cbn [bind]. fold nnz.
    apply ok_bind with (P := fun p => p = brptrs).
    { apply (ok_fill _ _ (fun i => get brptrs i) (fun i => brptrs !!! i)); [apply alloc_length|intros i Hi; apply get_Some, lookup_total_Some; lia|].
      rewrite fill_take by lia. apply take_ge. lia. }
    intros ? ->. apply ok_bind with (P := fun c => c = take nnz bcinds).
    { apply (ok_fill _ _ (fun i => get bcinds i) (fun i => bcinds !!! i)); [apply alloc_length|intros i Hi; apply get_Some, lookup_total_Some; lia|].
      apply fill_take. exact Hc. }
    intros ? ->. eapply ok_bind.
    - eapply ok_for_post with (I := fun k d => length d = n /\ forall i j, i < k -> brptrs !!! i <= j < brptrs !!! (i + 1) -> bcinds !! j = Some i ->
        (forall k, brptrs !!! i <= k < j -> bcinds !! k <> Some i) -> d !! i = Some j).
      + lia.
      + split; [apply alloc_length|]. intros; lia.
      + intros irow d Hi [Hd H]. unfold get. rewrite !(lookup_total_Some brptrs) by lia. cbn [bind].
        pose proof (po_le n brptrs bcinds (irow + 1) n Hp ltac:(lia) ltac:(lia)) as Hle. pose proof (Hm irow ltac:(lia)) as Hm'. fold nnz in Hle.
        eapply ok_bind; [apply find_from_first; rewrite take_length; lia|]. intros [p|] Hf.
        * destruct Hf as (H1 & H2 & H3). rewrite lookup_take in H2 by lia. apply ok_set; [lia|]. rewrite insert_length. split; [exact Hd|].
          intros i j Hij Hj Ej Hk. destruct (decide (i = irow)) as [->|Hne].
          -- rewrite list_lookup_insert by lia. f_equal. destruct (lt_eq_lt_dec p j) as [[Hpj|Hpj]|Hpj]; [|exact Hpj|].
             ++ exfalso. apply (Hk p); [lia|exact H2].
             ++ exfalso. apply (H3 j); [lia|]. rewrite lookup_take by lia. exact Ej.
          -- rewrite list_lookup_insert_ne by congruence. apply H; auto. lia.
        * apply ok_ret. split; [exact Hd|]. intros i j Hij Hj Ej Hk. destruct (decide (i = irow)) as [->|Hne]; [|apply H; auto; lia].
          exfalso. apply (Hf j); [lia|]. rewrite lookup_take by lia. exact Ej.
      + intros d Hd. exact Hd.
    - intros d [Hd H]. apply ok_ret. split; [reflexivity|]. split; [reflexivity|]. split; [exact Hd|]. split; [reflexivity|exact H].
  Qed.
  (** setStructure of both classes (bs = 1 for the scalar one), on any object. (Without rows, the row ends of the old matrix stay.) *)
  Theorem C55_set_structure bs gp gi gd (gv : nat -> F) old n brptrs bcinds : pattern_ok n brptrs bcinds -> 0 < n \/ browendptr old = [] ->
    ok (setStructure bs gp gi gd gv old n bcinds brptrs) (built bs n brptrs bcinds).
  Proof.
    intros Hp Hn. pose proof Hp as [Hl _ _]. unfold setStructure, get. rewrite (lookup_total_Some brptrs n) by lia. cbn [bind].
    eapply ok_bind; [apply pattern_arrays_spec, Hp|]. intros [[[p c] d] v] (-> & -> & Hd & -> & H). apply ok_ret. constructor; simpl; auto using alloc_length.
    destruct (Nat.ltb_spec 0 n).
    - apply take_ge. rewrite drop_length. lia.
    - destruct Hn as [Hn|Hn]; [lia|]. rewrite Hn, drop_ge by lia. reflexivity.
  Qed.
  (** the scalar class's constructor *)
  Theorem C55_scalar_constructor gp gi gd (gv : nat -> F) n brptrs bcinds : pattern_ok n brptrs bcinds ->
    ok (csr_from_pattern gp gi gd gv n bcinds brptrs) (built 1 n brptrs bcinds).
  Proof.
    intros Hp. pose proof Hp as [Hl _ _]. unfold csr_from_pattern.
    eapply ok_bind; [apply pattern_arrays_spec, Hp|]. intros [[[p c] d] v] (-> & -> & Hd & -> & H). unfold get. rewrite (lookup_total_Some brptrs n) by lia. cbn [bind].
    apply ok_ret. constructor; simpl; auto using alloc_length. destruct (Nat.ltb_spec 0 n); [apply take_ge; rewrite drop_length; lia|]. rewrite drop_ge by lia. reflexivity.
  Qed.
  (** A matrix built like this is well-formed if the pattern has its columns in range; it has its diagonal if the pattern has it. *)
  Theorem C55_well_formed bs n brptrs bcinds (M : srmat F) : built bs n brptrs bcinds M -> pattern_ok n brptrs bcinds -> brptrs !!! 0 = 0 ->
    (forall j, j < brptrs !!! n -> bcinds !!! j < n) ->
    wf_pat M /\ wf_end M /\ wf_vals bs M /\
    ((forall i, i < n -> exists j, brptrs !!! i <= j < brptrs !!! (i + 1) /\ bcinds !! j = Some i) -> wf_diag M).
  Proof.
    intros [H1 H2 H3 [H4 H4'] H5 H6 H7 H8] Hp H0 Hc. pose proof Hp as [Hl Hm Hcl].
    assert (nnz M = brptrs !!! n) as Hn by (unfold nnz, rp; rewrite H1, H2; reflexivity).
    assert (forall j, j < brptrs !!! n -> col M j = bcinds !!! j) as Hcol.
    { intros j Hj. unfold col. rewrite H3. apply list_lookup_total_correct. rewrite lookup_take by exact Hj. apply lookup_total_Some. lia. }
    split; [constructor|split; [|split]].
    - rewrite H1, H2. exact Hl.
    - unfold rp. rewrite H2. exact H0.
    - intros i Hi. unfold rp. rewrite H2. rewrite H1 in Hi. apply Hm, Hi.
    - rewrite H3, Hn, take_length. lia.
    - intros j Hj. rewrite Hn in Hj. rewrite Hcol, H1 by exact Hj. apply Hc, Hj.
    - split; [rewrite H6, H1, drop_length; lia|]. intros i Hi. rewrite H6, lookup_drop. unfold rp. rewrite H2. rewrite H1 in Hi. rewrite (Nat.add_comm i). apply lookup_total_Some. lia.
    - unfold wf_vals. rewrite H5, Hn. reflexivity.
    - intros Hdg. split; [rewrite H7, H1; reflexivity|]. intros i Hi. rewrite H1 in Hi. destruct (Hdg i Hi) as (j0 & Hj0 & Ej0).
      assert (exists j, (brptrs !!! i <= j < brptrs !!! (i + 1) /\ bcinds !! j = Some i) /\ forall k, brptrs !!! i <= k < j -> bcinds !! k <> Some i) as (j & [Hj Ej] & Hk).
      { revert Hj0 Ej0. induction j0 as [j0 IH] using lt_wf_ind. intros Hj0 Ej0.
        destruct (decide (Exists (fun k => bcinds !! k = Some i) (range (brptrs !!! i) j0))) as [H|H].
        - apply Exists_exists in H as (k & Hk & Ek). apply elem_of_range in Hk. apply (IH k); [lia|lia|exact Ek].
        - exists j0. split; [split; assumption|]. intros k Hk Ek. apply H. apply Exists_exists. exists k. split; [apply elem_of_range; exact Hk|exact Ek]. }
      assert (dg M i = j) as -> by (unfold dg; apply list_lookup_total_correct, H8; assumption). unfold rp. rewrite H2. split; [exact Hj|].
      pose proof (po_le n brptrs bcinds (i + 1) n Hp ltac:(lia) ltac:(lia)). rewrite Hcol by lia. apply list_lookup_total_correct, Ej.
  Qed.
  (** The block class's constructor makes a matrix without rows from every pattern *)
  Theorem C55_block_constructor_refuted bs gp gi gd (gv : nat -> F) n brptrs bcinds : pattern_ok n brptrs bcinds ->
    ok (bsr_from_pattern bs gp gi gd gv n bcinds brptrs) (fun M => nbrows M = 0 /\ browptr M = take 1 brptrs /\ browendptr M = [] /\ diagind M = [] /\ nnzb M = 0 /\ nbstored M = 0).
  Proof.
    intros Hp. unfold bsr_from_pattern. simpl. unfold pattern_arrays. pose proof Hp as [Hl Hm Hc]. unfold get at 1. rewrite (lookup_total_Some brptrs 0) by lia. cbn [bind].
    apply ok_bind with (P := fun x => exists c v, x = (take 1 brptrs, c, [], v)).
    - apply ok_bind with (P := fun p => p = take 1 brptrs).
      { apply (ok_fill _ _ (fun i => get brptrs i) (fun i => brptrs !!! i)); [apply alloc_length|intros i Hi; apply get_Some, lookup_total_Some; lia|]. apply fill_take. lia. }
      intros ? ->. eapply ok_bind with (P := fun _ => True).
      { pose proof (po_le n brptrs bcinds 0 n Hp ltac:(lia) ltac:(lia)) as Hle.
        apply (ok_fill _ _ (fun i => get bcinds i) (fun i => bcinds !!! i)); [apply alloc_length|intros i Hi; apply get_Some, lookup_total_Some; lia|exact I]. }
      intros c _. rewrite for_empty by lia. cbn [bind]. apply ok_ret. eauto.
    - intros x (c & v & ->). apply ok_ret. simpl. auto 10.
  Qed.
  (** wrapping arrays, block class: the matrix of these arrays, nothing read but the last row pointer *)
  Theorem C55_block_wrap n brptrs bcinds (values : list F) diaginds : length brptrs = n + 1 ->
    bsr_wrap n brptrs bcinds values diaginds = Ok (SR brptrs bcinds values diaginds (drop 1 brptrs) n (brptrs !!! n) (brptrs !!! n)).
  Proof.
    intros Hl. unfold bsr_wrap, get. rewrite (lookup_total_Some brptrs n) by lia. cbn [bind]. do 2 f_equal.
    destruct (Nat.ltb_spec 0 n); [apply take_ge; rewrite drop_length; lia|]. rewrite drop_ge by lia. reflexivity.
  Qed.
  (** scalar class: it always reads behind the end of the row pointers *)
  Theorem C55_scalar_wrap_refuted n brptrs bcinds (values : list F) diaginds : length brptrs = n + 1 ->
    csr_wrap n brptrs bcinds values diaginds = UB.
  Proof. intros Hl. unfold csr_wrap, get. rewrite lookup_ge_None_2 by lia. reflexivity. Qed.
  (** If the array goes on behind the row pointers, the matrix has the arrays given and the right row ends, but the number behind the end is taken for the number
      of nonzeros *)
  Theorem C55_scalar_wrap_longer n brptrs x more bcinds (values : list F) diaginds : length brptrs = n + 1 ->
    csr_wrap n (brptrs ++ x :: more) bcinds values diaginds = Ok (SR (brptrs ++ x :: more) bcinds values diaginds (drop 1 brptrs) n x x).
  Proof.
    intros Hl. unfold csr_wrap, get. rewrite lookup_app_r by lia. replace (n + 1 - length brptrs) with 0 by lia. cbn [lookup list_lookup bind]. do 2 f_equal.
    rewrite drop_app_le by lia. rewrite take_app_le by (rewrite drop_length; lia). apply take_ge. rewrite drop_length. lia.
  Qed.
  (** A copy is equal to the original *)
  Theorem C55_copy bs gp gi gd (gv : nat -> F) other : wf_pat other -> wf_end other -> length (diagind other) = nbrows other -> wf_vals bs other ->
    copy_construct bs gp gi gd gv other = Ok other.
  Proof.
    intros Hw [He1 He2] Hd Hv. pose proof (wf_len other Hw) as Hl. pose proof (wf_clen other Hw) as Hcl.
    assert (ok (copy_construct bs gp gi gd gv other) (eq other)) as H; [|apply ok_inv in H as (? & -> & ->); reflexivity].
    unfold copy_construct, get at 1. rewrite (wf_browptr other _ Hw) by lia. cbn [bind]. fold (nnz other).
    apply ok_bind with (P := fun p => p = browptr other).
    { apply (ok_fill _ _ (fun i => get (browptr other) i) (fun i => browptr other !!! i)); [apply alloc_length|intros i Hi; apply get_Some, lookup_total_Some; lia|].
      rewrite fill_take by lia. apply take_ge. lia. }
    intros ? ->. unfold get at 1. rewrite (wf_browptr other _ Hw) by lia. cbn [bind]. fold (nnz other).
    apply ok_bind with (P := fun '(c, v) => c = bcolind other /\ v = vals other).
    - eapply ok_for_post with (I := fun k '(c, v) => length c = nnz other /\ length v = length (vals other) /\
        (forall i, i < k -> c !! i = bcolind other !! i) /\ (forall p, p < k * (bs * bs) -> v !! p = vals other !! p)).
      + lia.
      + rewrite !alloc_length. split; [reflexivity|]. split; [symmetry; exact Hv|]. split; intros; lia.
      + intros i [c v] Hi (Lc & Lv & Hc & Hvp). unfold get at 1. rewrite (wf_bcolind other i Hw) by lia. cbn [bind]. rewrite set_Ok by lia. cbn [bind].
        eapply ok_bind with (P := fun v' => length v' = length (vals other) /\ forall p, p < (i + 1) * (bs * bs) -> v' !! p = vals other !! p).
        { eapply ok_for_post with (I := fun k v' => length v' = length (vals other) /\ forall p, p < i * (bs * bs) + k -> v' !! p = vals other !! p).
          - lia.
          - split; [exact Lv|]. intros p Hp. apply Hvp. lia.
          - intros k v' Hk [Lv' H]. assert (i * (bs * bs) + k < length (vals other)) as Hlt by (rewrite Hv; nia).
            rewrite vat_get by exact Hlt. cbn [bind]. apply ok_set; [lia|]. rewrite insert_length. split; [exact Lv'|]. intros p Hp.
            destruct (decide (i * (bs * bs) + k = p)) as [<-|Hne]; [rewrite list_lookup_insert by lia; symmetry; apply vat_Some, Hlt|].
            rewrite list_lookup_insert_ne by exact Hne. apply H. lia.
          - intros v' [Lv' H]. split; [exact Lv'|]. intros p Hp. apply H. lia. }
        intros v' [Lv' Hv']. apply ok_ret. rewrite insert_length. split; [exact Lc|]. split; [exact Lv'|]. split; [|exact Hv'].
        intros k Hk. destruct (decide (i = k)) as [<-|Hne]; [rewrite list_lookup_insert by lia; symmetry; apply wf_bcolind; [exact Hw|lia]|].
        rewrite list_lookup_insert_ne by exact Hne. apply Hc. lia.
      + intros [c v] (Lc & Lv & Hc & Hvp). split; apply list_eq_lt; [lia|intros i Hi; apply Hc; lia|lia|]. intros p Hp. apply Hvp. rewrite <- Hv. lia.
    - intros [c v] [-> ->]. apply ok_bind with (P := fun d => d = diagind other).
      { apply (ok_fill _ _ (fun i => get (diagind other) i) (fun i => diagind other !!! i)); [apply alloc_length|intros i Hi; apply get_Some, lookup_total_Some; lia|].
        rewrite fill_take by lia. apply take_ge. lia. }
      intros ? ->. apply ok_ret. assert ((if 0 <? nbrows other then take (nbrows other) (drop 1 (browptr other)) else []) = browendptr other) as ->.
      { apply list_eq_lt; [destruct (Nat.ltb_spec 0 (nbrows other)); [rewrite take_length, drop_length; lia|simpl; lia]|].
        intros i Hi. assert (i < nbrows other) as Hi' by (destruct (Nat.ltb_spec 0 (nbrows other)); [rewrite take_length, drop_length in Hi; lia|simpl in Hi; lia]).
        rewrite (proj2 (Nat.ltb_lt _ _)) by lia. rewrite lookup_take, lookup_drop, (Nat.add_comm 1), He2 by exact Hi'. apply wf_browptr; [exact Hw|lia]. }
      destruct other; reflexivity.
  Qed.
End C55.
Example C55_case : pattern_ok 3 [0; 2; 5; 7] [0; 1; 0; 1; 2; 1; 2] /\
  (exists M : srmat Qc, csr_from_pattern (fun _ => 9) (fun _ => 9) (fun _ => 9) (fun _ => q 9) 3 [0; 1; 0; 1; 2; 1; 2] [0; 2; 5; 7] = Ok M /\ diagind M = [0; 3; 6] /\ nbrows M = 3) /\
  wf_pat exB /\ wf_end exB /\ length (diagind exB) = nbrows exB /\ wf_vals 2 exB.
Proof.
  split; [constructor; [reflexivity| |simpl; lia]; intros i Hi; do 3 (destruct i as [|i]; [vm_compute; lia|]); lia|].
  split; [eexists; split; [reflexivity|split; reflexivity]|]. split; [exact exB_pat|]. split; [|split; reflexivity].
  split; [reflexivity|]. intros i Hi. simpl in Hi. do 3 (destruct i as [|i]; [reflexivity|]). lia.
Qed.

(** ** C56 *)
Section C56.
  Context {F : Type} {O : SOps F} (sabs : F -> F) (slt : F -> F -> bool).
  (** values agree within the tolerance *)
  Definition close (tol : F) (v w : list F) : Prop := forall p, p < length v -> slt tol (sabs (vat v p - vat w p)%s) = false.
  (** The five flags: number of rows, row pointers, column indices, values, diagonal positions. If the numbers of rows (of entries)
      differ, the first (second) flag says so and the rest is not looked at. *)
  Theorem C56_flags bs tol (M1 M2 : srmat F) :
    wf_pat M1 -> wf_pat M2 -> length (diagind M1) = nbrows M1 -> length (diagind M2) = nbrows M2 -> wf_vals bs M1 -> wf_vals bs M2 ->
    ok (areEqual sabs slt bs tol M1 M2) (fun '(f0, f1, f2, f3, f4) =>
      (f0 = true <-> nbrows M1 = nbrows M2) /\
      (nbrows M1 = nbrows M2 -> (f1 = true <-> browptr M1 = browptr M2)) /\
      (nbrows M1 = nbrows M2 -> nnz M1 = nnz M2 ->
        (f2 = true <-> bcolind M1 = bcolind M2) /\ (f3 = true <-> close tol (vals M1) (vals M2)) /\ (f4 = true <-> diagind M1 = diagind M2))).
  Proof.
    intros Hw1 Hw2 Hd1 Hd2 Hv1 Hv2. unfold areEqual. destruct (Nat.eqb_spec (nbrows M1) (nbrows M2)) as [En|En]; cbn [negb].
    2:{ apply ok_ret. split; [split; [discriminate|intros; contradiction]|]. split; intros; contradiction. }
    unfold get at 1 2. rewrite (wf_browptr M1 _ Hw1), (wf_browptr M2 _ Hw2) by lia. cbn [bind]. fold (nnz M1) (nnz M2).
    pose proof (wf_len _ Hw1) as Lp1. pose proof (wf_len _ Hw2) as Lp2. pose proof (wf_clen _ Hw1) as Lc1. pose proof (wf_clen _ Hw2) as Lc2.
    destruct (Nat.eqb_spec (nnz M1) (nnz M2)) as [Ez|Ez]; cbn [negb].
    2:{ apply ok_ret. split; [split; auto|]. split; [|intros; contradiction]. intros _. split; [discriminate|]. intros E. exfalso. apply Ez. unfold nnz, rp. rewrite E, En. reflexivity. }
    apply ok_bind with (P := fun '(f1, f4) => (f1 = true <-> browptr M1 = browptr M2) /\ (f4 = true <-> diagind M1 = diagind M2)).
    - eapply ok_for_post with (I := fun k '(f1, f4) => (f1 = true <-> forall i, i < k -> browptr M1 !! i = browptr M2 !! i) /\ (f4 = true <-> forall i, i < k -> diagind M1 !! i = diagind M2 !! i)).
      + lia.
      + split; split; auto; intros; lia.
      + intros i [f1 f4] Hi [I1 I4]. unfold get. rewrite (wf_browptr M1 i Hw1), (wf_browptr M2 i Hw2), !lookup_total_Some by lia. cbn [bind]. apply ok_ret.
        assert (forall (b : bool) (x y : nat) (l1 l2 : list nat), (b = true <-> forall k, k < i -> l1 !! k = l2 !! k) -> l1 !! i = Some x -> l2 !! i = Some y ->
          (if negb (x =? y) then false else b) = true <-> forall k, k < i + 1 -> l1 !! k = l2 !! k) as Hstep.
        { intros b x y l1 l2 Hb E1 E2. destruct (Nat.eqb_spec x y) as [->|Hne]; simpl.
          - rewrite Hb. split; intros H k Hk; [|apply H; lia]. destruct (decide (k = i)) as [->|]; [congruence|apply H; lia].
          - split; [discriminate|]. intros H. specialize (H i ltac:(lia)). congruence. }
        split; [apply Hstep; [exact I1|apply wf_browptr; [exact Hw1|lia]|apply wf_browptr; [exact Hw2|lia]]|apply Hstep; [exact I4| |]; apply lookup_total_Some; lia].
      + intros [f1 f4] [I1 I4]. split; [rewrite I1|rewrite I4]; split; intros H; try (rewrite H; reflexivity).
        * apply list_eq_lt; [lia|]. intros i Hi. destruct (decide (i = nbrows M1)) as [->|]; [|apply H; lia].
          rewrite (wf_browptr M1 _ Hw1) by lia. rewrite En at 2. rewrite (wf_browptr M2 _ Hw2) by lia. f_equal. exact Ez.
        * apply list_eq_lt; [lia|]. intros i Hi. apply H. lia.
    - intros [f1 f4] [I1 I4]. apply ok_bind with (P := fun '(f2, f3) => (f2 = true <-> bcolind M1 = bcolind M2) /\ (f3 = true <-> close tol (vals M1) (vals M2))).
      2:{ intros [f2 f3] [I2 I3]. apply ok_ret. split; [split; auto|]. split; [intros _; exact I1|]. intros _ _. auto. }
      eapply ok_for_post with (I := fun k '(f2, f3) => (f2 = true <-> forall i, i < k -> bcolind M1 !! i = bcolind M2 !! i) /\
        (f3 = true <-> forall p, p < k * (bs * bs) -> slt tol (sabs (vat (vals M1) p - vat (vals M2) p)%s) = false)).
      + lia.
      + split; split; auto; intros; lia.
      + intros jj [f2 f3] Hj [I2 I3]. unfold get at 1 2. rewrite (wf_bcolind M1 jj Hw1), (wf_bcolind M2 jj Hw2) by lia. cbn [bind].
        eapply ok_bind with (P := fun f3 : bool => f3 = true <-> forall p, p < (jj + 1) * (bs * bs) -> slt tol (sabs (vat (vals M1) p - vat (vals M2) p)%s) = false).
        * eapply ok_for_post with (I := fun k (f3 : bool) => f3 = true <-> forall p, p < jj * (bs * bs) + k -> slt tol (sabs (vat (vals M1) p - vat (vals M2) p)%s) = false).
          -- lia.
          -- rewrite Nat.add_0_r. exact I3.
          -- intros k b Hk Hb. rewrite <- !Nat.mul_assoc. rewrite !vat_get by (rewrite ?Hv1, ?Hv2; nia). cbn [bind]. apply ok_ret.
             destruct (slt tol _) eqn:E.
             ++ split; [discriminate|]. intros H. rewrite H in E by lia. discriminate.
             ++ rewrite Hb. split; intros H p Hp; [|apply H; lia]. destruct (decide (p = jj * (bs * bs) + k)) as [->|]; [exact E|apply H; lia].
          -- intros b Hb. rewrite Hb. replace ((jj + 1) * (bs * bs)) with (jj * (bs * bs) + bs * bs) by lia. reflexivity.
        * intros f3' I3'. apply ok_ret. split; [|exact I3']. destruct (Nat.eqb_spec (col M1 jj) (col M2 jj)) as [Ec|Ec]; simpl.
          -- rewrite I2. split; intros H k Hk; [|apply H; lia]. destruct (decide (k = jj)) as [->|]; [|apply H; lia].
             rewrite (wf_bcolind M1 jj Hw1), (wf_bcolind M2 jj Hw2) by lia. f_equal. exact Ec.
          -- split; [discriminate|]. intros H. specialize (H jj ltac:(lia)). rewrite (wf_bcolind M1 jj Hw1), (wf_bcolind M2 jj Hw2) in H by lia. congruence.
      + intros [f2 f3] [I2 I3]. split; [rewrite I2|rewrite I3].
        * split; [intros H; apply list_eq_lt; [lia|intros i Hi; apply H; lia]|]. intros -> i Hi. reflexivity.
        * unfold close. rewrite Hv1. reflexivity.
  Qed.
  (** all flags true: equal up to the tolerance *)
  Corollary C56_equal bs tol (M1 M2 : srmat F) :
    wf_pat M1 -> wf_pat M2 -> length (diagind M1) = nbrows M1 -> length (diagind M2) = nbrows M2 -> wf_vals bs M1 -> wf_vals bs M2 ->
    ok (areEqual sabs slt bs tol M1 M2) (fun fs => fs = (true, true, true, true, true) <->
      nbrows M1 = nbrows M2 /\ browptr M1 = browptr M2 /\ bcolind M1 = bcolind M2 /\ diagind M1 = diagind M2 /\ close tol (vals M1) (vals M2)).
  Proof.
    intros Hw1 Hw2 Hd1 Hd2 Hv1 Hv2. eapply ok_mono; [apply C56_flags; assumption|]. intros [[[[f0 f1] f2] f3] f4] (H0 & H1 & H2). split.
    - intros [= -> -> -> -> ->]. assert (nbrows M1 = nbrows M2) as En by (apply H0; reflexivity). assert (browptr M1 = browptr M2) as Ep by (apply H1; auto).
      destruct (H2 En) as (A & B & C); [unfold nnz, rp; rewrite En, Ep; reflexivity|]. split; [exact En|]. split; [exact Ep|]. split; [apply A; reflexivity|]. split; [apply C; reflexivity|apply B; reflexivity].
    - intros (En & Ep & Ec & Ed & Ev). destruct (H2 En) as (A & B & C); [unfold nnz, rp; rewrite En, Ep; reflexivity|].
      rewrite (proj2 H0 En), (proj2 (H1 En) Ep), (proj2 A Ec), (proj2 B Ev), (proj2 C Ed). reflexivity.
  Qed.
End C56.
Example C56_case : wf_pat exM /\ length (diagind exM) = nbrows exM /\ wf_vals 1 exM /\
  areEqual Qabs Qlt 1 (q 0) exM exM = Ok (true, true, true, true, true) /\
  areEqual Qabs Qlt 1 (q 0) exM (with_vals exM (q <$> [4; 1; 2; 5; 1; 1; 2]%Z)) = Ok (true, true, true, false, true) /\
  areEqual Qabs Qlt 1 (q 1) exM (with_vals exM (q <$> [4; 1; 2; 5; 1; 1; 2]%Z)) = Ok (true, true, true, true, true).
Proof. split; [exact exM_pat|]. repeat split; vm_compute; reflexivity. Qed.

(** ** C60 *)
(** Raw matrix [r] holds four different allocated blocks, which nobody else frees *)
Definition held {F} (hi : heap nat) (hf : heap F) (r : raw) (a b c d : nat) : Prop :=
  r_browptr r = Some (a, 0) /\ r_bcolind r = Some (b, 0) /\ r_diagind r = Some (d, 0) /\ r_vals r = Some (c, 0) /\
  live hi a /\ live hi b /\ live hi d /\ live hf c /\ NoDup [a; b; d].
(** Block class: the matrix of the raw matrix's arrays; the raw matrix is nulled; the destructor frees the four
    blocks and nothing else. (The recorded size of the row pointers is one too small.) *)
Theorem C60_block_takes_over : forall (F : Type) bs (hi : heap nat) (hf : heap F) r M a b c d, raw_mat bs hi hf r = Some M -> held hi hf r a b c d ->
  ok (bsr_from_raw bs hi hf r) (fun '(s, r', hi', hf') => r' = Raw None None None None None 0 0 0 /\ hi' = hi /\ hf' = hf /\
    s_nbrows s = nbrows M /\ s_nnzb s = nnzb M /\ s_nbstored s = nbstored M /\
    arr hi (data (s_browptr s)) (s_nbrows s + 1) = Some (browptr M) /\ len (s_browptr s) = s_nbrows s /\
    arr hi (data (s_bcolind s)) (len (s_bcolind s)) = Some (bcolind M) /\
    arr hf (data (s_vals s)) (len (s_vals s)) = Some (vals M) /\
    arr hi (data (s_diagind s)) (len (s_diagind s)) = Some (diagind M) /\
    arr hi (data (s_browendptr s)) (len (s_browendptr s)) = Some (drop 1 (browptr M)) /\
    stor_destroy hi' hf' s = Ok (<[a := None]> (<[b := None]> (<[d := None]> hi)), <[c := None]> hf)).
Proof.
  intros F bs hi hf r M a b c d HM (Ea & Eb & Ed & Ec & [la La] & [lb Lb] & [ld Ld] & [lc Lc] & Hnd).
  destruct (raw_parts bs hi hf r M HM) as (A1 & A2 & A3 & A4 & A5 & N1 & N2 & N3). unfold bsr_from_raw, view_take_control, view_rewrap. simpl.
  apply NoDup_cons in Hnd as [Hab Hnd]. apply NoDup_cons in Hnd as [Hbd _]. rewrite !elem_of_cons, elem_of_nil in Hab. rewrite elem_of_cons, elem_of_nil in Hbd.
  assert (a <> b /\ a <> d /\ b <> d) as (H1 & H2 & H3) by (split; [|split]; tauto).
  assert (forall e, owner e = false -> stor_destroy hi hf (Stor (View (r_browptr r) (r_nbrows r) true) (View (r_bcolind r) (r_nbstored r) true)
    (View (r_vals r) (r_nbstored r * bs * bs) true) (View (r_diagind r) (r_nbrows r) true) e (r_nbrows r) (r_nnzb r) (r_nbstored r)) =
    Ok (<[a := None]> (<[b := None]> (<[d := None]> hi)), <[c := None]> hf)) as Hdes.
  { intros e He. unfold stor_destroy, view_destroy. simpl. rewrite He, Ea, Eb, Ec, Ed. simpl. rewrite Ld. simpl. rewrite Lc. simpl.
    rewrite list_lookup_insert_ne by congruence. rewrite Lb. simpl. rewrite !list_lookup_insert_ne by congruence. rewrite La. reflexivity. }
  assert (forall n, arr hi (padd (r_browptr r) 1) n = if decide (1 + n <= length la) then Some (take n (drop 1 la)) else None) as Hpa.
  { intros n. rewrite Ea. simpl. rewrite La. reflexivity. }
  pose proof A1 as A1'. rewrite Ea in A1'. unfold arr in A1'. rewrite La in A1'. destruct (decide _) as [Hla|] in A1'; [|discriminate]. injection A1' as A1'. rewrite drop_0 in A1'.
  destruct (Nat.ltb_spec 0 (r_nbrows r)) as [Hn|Hn]; simpl; rewrite <- ?N1, <- ?N2, <- ?N3;
    (split; [reflexivity|]; split; [reflexivity|]; split; [reflexivity|]; split; [reflexivity|]; split; [reflexivity|]; split; [reflexivity|];
     split; [rewrite N1; exact A1|]; split; [reflexivity|]; split; [rewrite N3; exact A2|];
     split; [rewrite N3, <- Nat.mul_assoc; exact A3|]; split; [rewrite N1; exact A4|]; split; [|rewrite N1, N2, N3; apply Hdes; reflexivity]).
  - rewrite N1, Hpa, decide_True by lia. f_equal. rewrite <- A1', skipn_firstn_comm. f_equal. lia.
  - assert (r_nbrows r = 0) as E0 by lia. rewrite E0 in A1'. rewrite <- A1'. rewrite drop_ge by (rewrite take_length; lia). reflexivity.
Qed.
(** Scalar class: the same matrix, and the raw matrix is nulled, but the destructor frees nothing: no pointer that would free
    the blocks is left. *)
Theorem C60_scalar_refuted : forall (F : Type) (hi : heap nat) (hf : heap F) r M a b c d, raw_mat 1 hi hf r = Some M -> held hi hf r a b c d ->
  ok (csr_from_raw hi hf r) (fun '(s, r', hi', hf') => r' = Raw None None None None None 0 0 0 /\
    s_nbrows s = nbrows M /\ s_nnzb s = nnzb M /\ s_nbstored s = nbstored M /\
    arr hi' (data (s_browptr s)) (len (s_browptr s)) = Some (browptr M) /\ arr hi' (data (s_bcolind s)) (len (s_bcolind s)) = Some (bcolind M) /\
    arr hf' (data (s_vals s)) (len (s_vals s)) = Some (vals M) /\ arr hi' (data (s_diagind s)) (len (s_diagind s)) = Some (diagind M) /\
    arr hi' (data (s_browendptr s)) (len (s_browendptr s)) = Some (drop 1 (browptr M)) /\ stor_destroy hi' hf' s = Ok (hi, hf) /\
    (forall v, v ∈ [s_browptr s; s_bcolind s; s_vals s; s_diagind s; s_browendptr s] -> owner v = false) /\ live hi a /\ live hi b /\ live hi d /\ live hf c).
Proof.
  intros F hi hf r M a b c d HM (Ea & Eb & Ed & Ec & La & Lb & Ld & Lc & Hnd).
  destruct (raw_parts 1 hi hf r M HM) as (A1 & A2 & A3 & A4 & A5 & N1 & N2 & N3). rewrite Nat.mul_1_r in A3. unfold csr_from_raw, view_rewrap. simpl. split; [reflexivity|].
  do 3 (split; [auto|]). do 4 (split; [assumption|]). split; [|split; [reflexivity|]].
  - destruct La as [la La]. rewrite Ea in A1 |- *. simpl. unfold arr in A1. rewrite La in A1 |- *. destruct (decide _) as [Hla|] in A1; [|discriminate]. injection A1 as A1. rewrite drop_0 in A1.
    rewrite decide_True by lia. rewrite <- A1, skipn_firstn_comm. do 2 f_equal. lia.
  - split; [|auto]. intros v Hv. repeat (apply elem_of_cons in Hv as [-> |Hv]; [reflexivity|]). apply elem_of_nil in Hv as [].
Qed.
Definition exRaw : raw := Raw (Some (0, 0)) (Some (1, 0)) (Some (0, 0)) (Some (2, 0)) (Some (0, 1)) 2 3 3.
Definition exRhi : heap nat := [Some [0; 2; 3]; Some [0; 1; 1]; Some [0; 2]].
Definition exRhf : heap nat := [Some [5; 6; 7]].
Example C60_case : held exRhi exRhf exRaw 0 1 0 2 /\ (exists M, raw_mat 1 exRhi exRhf exRaw = Some M) /\
  (exists s, bsr_from_raw 1 exRhi exRhf exRaw = Ok (s, raw_null, exRhi, exRhf) /\ stor_destroy exRhi exRhf s = Ok ([None; None; None], [None])).
Proof.
  split.
  - repeat (split; [reflexivity || (eexists; reflexivity)|]). repeat constructor; rewrite ?elem_of_cons, ?elem_of_nil; intuition discriminate.
  - split; [eexists; reflexivity|]. eexists. split; reflexivity.
Qed.

Print Assumptions C15_block_zero.
Print Assumptions C15_scalar_zero.
Print Assumptions C15_block_scale.
Print Assumptions C15_scalar_scale.
Print Assumptions C15_diag_zero.
Print Assumptions C15_scalar_diag_zero.
Print Assumptions C17_zero_row.
Print Assumptions C17_zero_count.
Print Assumptions C17_product.
Print Assumptions C17_abs_sum.
Print Assumptions C17_abs_min.
Print Assumptions C17_abs_max.
Print Assumptions C55_set_structure.
Print Assumptions C55_scalar_constructor.
Print Assumptions C55_well_formed.
Print Assumptions C55_block_constructor_refuted.
Print Assumptions C55_block_wrap.
Print Assumptions C55_scalar_wrap_refuted.
Print Assumptions C55_scalar_wrap_longer.
Print Assumptions C55_copy.
Print Assumptions C56_flags.
Print Assumptions C56_equal.
Print Assumptions C60_block_takes_over.
Print Assumptions C60_scalar_refuted.
